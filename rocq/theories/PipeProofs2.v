(** Proofs for PipeProps.v: n-step and Monte-Carlo tracers before a SimpleReplayBuffer; the scripts. *)
From Coq Require Import List ZArith Lia Bool Reals Lra.
From Verif Require Import PyCommon CommonProofs ReplayModel ReplaySpec ReplayProofs PrioModel TracerModel TracerSpec TracerProofs TracerProofs2 PipeModel PipeSpec PipeProofs.
Import ListNotations.
Set Implicit Arguments.

Section P.
Variables S A G : Type.
Variable draw : G -> nat -> nat -> list nat * G.

Lemma ntraced_due : forall n gamma extra t ins outs, 1 <= n -> (0 <= gamma <= 1)%R -> nstep_bool n t = false ->
  traced (@nstep_add S A) (nstep_pop n gamma extra) (nstep_reset S A) t ins outs ->
  Forall2 (fun d y => nstep_spec n gamma extra (fst (fst d)) (snd (fst d)) (snd d) y) (nstep_due n ins) outs.
Proof.
  intros n gamma extra t ins outs Hn Hg B (os & V & E). pose proof (@nrun_fresh S A n gamma extra Hn Hg os V) as H. rewrite E in H.
  destruct H as (pre & post & D & F & Z). rewrite D, (Z B), app_nil_r. exact F.
Qed.

Lemma mtraced_due : forall gamma t ins outs, (0 <= gamma <= 1)%R -> mc_bool t = false ->
  traced (@mc_add S A) (mc_pop gamma) (mc_reset S A) t ins outs ->
  Forall2 (fun d y => mc_spec gamma (fst d) (snd d) y) (mc_due ins) outs.
Proof.
  intros gamma t ins outs Hg B (os & V & E). pose proof (@mrun_fresh S A gamma Hg os V) as H. rewrite E in H.
  destruct H as (pre & post & D & F & Z). rewrite D, (Z B), app_nil_r. exact F.
Qed.

Lemma init_inv : forall h cap (g : G), inv (simple_init h cap g : sworld (single S A) G) [].
Proof. intros. split; reflexivity. Qed.

Lemma traced_nil : forall T (tadd : T -> step S A -> R -> bool -> T * option exn) tpop t0, traced tadd tpop t0 t0 [] [].
Proof. intros. exists []. split; [intros x r d []|reflexivity]. Qed.

Notation ninv n gamma extra := (@pipe_inv S A (nstate S A) G (nstep_bool n) (@nstep_add S A) (nstep_pop n gamma extra) (@ngood S A) (nstep_reset S A)).
Notation minv gamma := (@pipe_inv S A (mstate S A) G (@mc_bool S A) (@mc_add S A) (mc_pop gamma) (@mgood S A gamma) (mc_reset S A)).

Lemma ninv_init : forall n gamma extra h cap g, ninv n gamma extra cap (mkPipe (nstep_reset S A) (simple_init h cap g)) [].
Proof. intros. split; [apply ngood_reset|]. split; [now apply nempty|]. split; auto. exists []. split; [apply traced_nil|apply init_inv]. Qed.

Lemma minv_init : forall gamma h cap g, minv gamma cap (mkPipe (mc_reset S A) (simple_init h cap g)) [].
Proof. intros. split; [apply mgood_reset|]. split; [now apply mempty|]. split; auto. exists []. split; [apply traced_nil|apply init_inv]. Qed.

Lemma ninv_run : forall n gamma extra h cap g os, 1 <= n -> (0 <= gamma <= 1)%R -> steps_valid (recorded os) ->
  ninv n gamma extra cap (fst (pipe_run draw (nstep_bool n) (@nstep_len S A) (@nstep_add S A) (nstep_pop n gamma extra) (mkPipe (nstep_reset S A) (simple_init h cap g)) os)) (recorded os).
Proof.
  intros n gamma extra h cap g os Hn Hg V.
  pose proof (@run_pipe_inv S A (nstate S A) G draw (nstep_bool n) (@nstep_len S A) (@nstep_add S A) (nstep_pop n gamma extra) (@ngood S A)
    (fun t x r d => @ngood_add S A n t x r d) (fun t => @ngood_pop S A n gamma extra t Hn Hg) (nempty n) (nstep_reset S A) cap os _ [] (ninv_init n gamma extra h cap g) V) as H.
  exact H.
Qed.

Lemma minv_run : forall gamma h cap g os, (0 <= gamma <= 1)%R -> steps_valid (recorded os) ->
  minv gamma cap (fst (pipe_run draw (@mc_bool S A) (@mc_len S A) (@mc_add S A) (mc_pop gamma) (mkPipe (mc_reset S A) (simple_init h cap g)) os)) (recorded os).
Proof.
  intros gamma h cap g os Hg V.
  exact (@run_pipe_inv S A (mstate S A) G draw (@mc_bool S A) (@mc_len S A) (@mc_add S A) (mc_pop gamma) (@mgood S A gamma)
    (@mgood_add S A gamma) (fun t => @mgood_pop S A gamma t Hg) (@mempty S A) (mc_reset S A) cap os _ [] (minv_init gamma h cap g) V).
Qed.

Lemma inv_contents : forall (w : sworld (single S A) G) log cap, inv w log -> scap (sb w) = cap ->
  simple_iter w = map as_single (lastn cap (numbered log)) /\ simple_len w = Nat.min cap (length log).
Proof. intros w log cap I C. rewrite <- C. now apply inv_view. Qed.

(** An element of the window. *)
Lemma window_nth : forall X cap (log : list X) p, p < Nat.min cap (length log) ->
  exists x, nth_error log (length log - Nat.min cap (length log) + p) = Some x /\
    nth p (map as_single (lastn cap (numbered log))) (mkTB [] []) = mkTB [x] [Z.of_nat (length log - Nat.min cap (length log) + p)].
Proof.
  intros X cap log p Hp. set (q := length log - Nat.min cap (length log) + p).
  destruct (nth_error log q) as [x|] eqn:E. 2:{ apply nth_error_None in E. unfold q in E. lia. }
  exists x. split; auto. apply nth_error_nth. unfold lastn. rewrite nth_error_map, nth_error_skipn.
  assert (L : length (numbered log) = length log). { unfold numbered. rewrite combine_length, map_length, seq_length. lia. }
  rewrite L. replace (length log - cap + p) with q by (unfold q; lia).
  assert (N : forall (l : list X) a k y, nth_error l k = Some y -> nth_error (combine l (map Z.of_nat (seq a (length l)))) k = Some (y, Z.of_nat (a + k))).
  { induction l as [|z l IH]; intros a [|k] y H; try discriminate; cbn [length seq map combine nth_error] in *.
    - injection H as ->. now rewrite Nat.add_0_r.
    - rewrite (IH (Datatypes.S a) k y H). now rewrite <- plus_n_Sm. }
  unfold numbered. rewrite (N log 0 q x E). reflexivity.
Qed.

(** Sampling from a buffer with known log. *)
Lemma sample_log : forall (w : sworld (single S A) G) log cap k, draws_distinct draw -> inv w log -> scap (sb w) = cap ->
  1 <= k <= Nat.min cap (length log) ->
  exists js b, snd (simple_sample draw w k) = Ok b /\ length js = k /\ NoDup js /\
    Forall2 (fun j x => j < length log /\ length log <= j + cap /\ exists y, nth_error log j = Some y /\ x = mkTB [y] [Z.of_nat j]) js b.
Proof.
  intros w log cap k Hd I C Hk. destruct (inv_contents I C) as [E1 E2].
  destruct (proj2 (sample_spec draw w k Hd)) as (ps & L & N & B & E); [lia|]. rewrite E. set (o := length log - Nat.min cap (length log)).
  exists (map (fun p => o + p) ps), (map (fun p => nth p (simple_iter w) (mkTB [] [])) ps). split; auto. rewrite map_length. split; auto. split.
  { apply FinFun.Injective_map_NoDup; auto. intros a b. lia. }
  assert (forall p, In p ps -> p < Nat.min cap (length log)) by (intros; rewrite <- E2; auto). rewrite E1. clear E N B L.
  induction ps as [|p ps IH]; cbn [map]; constructor.
  - assert (Hp : p < Nat.min cap (length log)) by (apply H; now left). destruct (@window_nth _ cap log p Hp) as (x & X1 & X2). unfold o. split; [lia|]. split; [lia|]. exists x. auto.
  - apply IH. intros. apply H. now right.
Qed.

(** No recording raises, in any program. *)
Lemma nrun_no_error : forall n gamma extra h cap g os1 x r d os2, 1 <= n -> (0 <= gamma <= 1)%R -> steps_valid (recorded (os1 ++ LRecord x r d :: os2)) ->
  nth_error (snd (pipe_run draw (nstep_bool n) (@nstep_len S A) (@nstep_add S A) (nstep_pop n gamma extra) (mkPipe (nstep_reset S A) (simple_init h cap g)) (os1 ++ LRecord x r d :: os2))) (length os1) = Some (Ok []).
Proof.
  intros n gamma extra h cap g os1 x r d os2 Hn Hg V.
  assert (Ap : forall (l m : list (lop S A G)), recorded (l ++ m) = recorded l ++ recorded m).
  { induction l as [|[? ? ?|?|?] l IH]; intros m; cbn [app recorded]; rewrite ?IH; auto. }
  rewrite Ap in V. cbn [recorded] in V.
  assert (V1 : steps_valid (recorded os1)). { intros x' r' d' H. eapply V. apply in_or_app. left. eauto. }
  assert (Vx : valid_step x). { eapply V. apply in_or_app. right. now left. }
  pose proof (@ninv_run n gamma extra h cap g os1 Hn Hg V1) as I.
  assert (Run : forall l m p, snd (pipe_run draw (nstep_bool n) (@nstep_len S A) (@nstep_add S A) (nstep_pop n gamma extra) p (l ++ m)) =
     snd (pipe_run draw (nstep_bool n) (@nstep_len S A) (@nstep_add S A) (nstep_pop n gamma extra) p l) ++
     snd (pipe_run draw (nstep_bool n) (@nstep_len S A) (@nstep_add S A) (nstep_pop n gamma extra) (fst (pipe_run draw (nstep_bool n) (@nstep_len S A) (@nstep_add S A) (nstep_pop n gamma extra) p l)) m) /\
     length (snd (pipe_run draw (nstep_bool n) (@nstep_len S A) (@nstep_add S A) (nstep_pop n gamma extra) p l)) = length l).
  { induction l as [|o l IH]; intros m p; [split; reflexivity|]. cbn [app pipe_run].
    destruct (pipe_step draw (nstep_bool n) (@nstep_len S A) (@nstep_add S A) (nstep_pop n gamma extra) p o) as [p1 b]. destruct (IH m p1) as [H1 H2].
    destruct (pipe_run draw (nstep_bool n) (@nstep_len S A) (@nstep_add S A) (nstep_pop n gamma extra) p1 (l ++ m)) as [p2 bs]. destruct (pipe_run draw (nstep_bool n) (@nstep_len S A) (@nstep_add S A) (nstep_pop n gamma extra) p1 l) as [p3 bs3].
    cbn [fst snd] in *. subst bs. cbn [length]. split; [reflexivity|lia]. }
  destruct (Run os1 (LRecord x r d :: os2) (mkPipe (nstep_reset S A) (simple_init h cap g))) as [R1 R2]. rewrite R1. rewrite nth_error_app2, R2, Nat.sub_diag by lia.
  set (p := fst _) in *. cbn [pipe_run pipe_step].
  destruct (@record_ok S A (nstate S A) G draw (nstep_bool n) (@nstep_len S A) (@nstep_add S A) (nstep_pop n gamma extra) (@ngood S A)
    (fun t x r d => @ngood_add S A n t x r d) (fun t => @ngood_pop S A n gamma extra t Hn Hg) (nempty n) (nstep_reset S A) cap p (recorded os1) x r d I Vx) as (p' & E & _).
  rewrite E. destruct (pipe_run draw (nstep_bool n) (@nstep_len S A) (@nstep_add S A) (nstep_pop n gamma extra) p' os2). reflexivity.
Qed.

Lemma mrun_no_error : forall gamma h cap g os1 x r d os2, (0 <= gamma <= 1)%R -> steps_valid (recorded (os1 ++ LRecord x r d :: os2)) ->
  nth_error (snd (pipe_run draw (@mc_bool S A) (@mc_len S A) (@mc_add S A) (mc_pop gamma) (mkPipe (mc_reset S A) (simple_init h cap g)) (os1 ++ LRecord x r d :: os2))) (length os1) = Some (Ok []).
Proof.
  intros gamma h cap g os1 x r d os2 Hg V.
  assert (Ap : forall (l m : list (lop S A G)), recorded (l ++ m) = recorded l ++ recorded m).
  { induction l as [|[? ? ?|?|?] l IH]; intros m; cbn [app recorded]; rewrite ?IH; auto. }
  rewrite Ap in V. cbn [recorded] in V.
  assert (V1 : steps_valid (recorded os1)). { intros x' r' d' H. eapply V. apply in_or_app. left. eauto. }
  assert (Vx : valid_step x). { eapply V. apply in_or_app. right. now left. }
  pose proof (@minv_run gamma h cap g os1 Hg V1) as I.
  assert (Run : forall l m p, snd (pipe_run draw (@mc_bool S A) (@mc_len S A) (@mc_add S A) (mc_pop gamma) p (l ++ m)) =
     snd (pipe_run draw (@mc_bool S A) (@mc_len S A) (@mc_add S A) (mc_pop gamma) p l) ++
     snd (pipe_run draw (@mc_bool S A) (@mc_len S A) (@mc_add S A) (mc_pop gamma) (fst (pipe_run draw (@mc_bool S A) (@mc_len S A) (@mc_add S A) (mc_pop gamma) p l)) m) /\
     length (snd (pipe_run draw (@mc_bool S A) (@mc_len S A) (@mc_add S A) (mc_pop gamma) p l)) = length l).
  { induction l as [|o l IH]; intros m p; [split; reflexivity|]. cbn [app pipe_run].
    destruct (pipe_step draw (@mc_bool S A) (@mc_len S A) (@mc_add S A) (mc_pop gamma) p o) as [p1 b]. destruct (IH m p1) as [H1 H2].
    destruct (pipe_run draw (@mc_bool S A) (@mc_len S A) (@mc_add S A) (mc_pop gamma) p1 (l ++ m)) as [p2 bs]. destruct (pipe_run draw (@mc_bool S A) (@mc_len S A) (@mc_add S A) (mc_pop gamma) p1 l) as [p3 bs3].
    cbn [fst snd] in *. subst bs. cbn [length]. split; [reflexivity|lia]. }
  destruct (Run os1 (LRecord x r d :: os2) (mkPipe (mc_reset S A) (simple_init h cap g))) as [R1 R2]. rewrite R1. rewrite nth_error_app2, R2, Nat.sub_diag by lia.
  set (p := fst _) in *. cbn [pipe_run pipe_step].
  destruct (@record_ok S A (mstate S A) G draw (@mc_bool S A) (@mc_len S A) (@mc_add S A) (mc_pop gamma) (@mgood S A gamma)
    (@mgood_add S A gamma) (fun t => @mgood_pop S A gamma t Hg) (@mempty S A) (mc_reset S A) cap p (recorded os1) x r d I Vx) as (p' & E & _).
  rewrite E. destruct (pipe_run draw (@mc_bool S A) (@mc_len S A) (@mc_add S A) (mc_pop gamma) p' os2). reflexivity.
Qed.
End P.
