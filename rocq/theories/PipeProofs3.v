(** Proofs for PipeProps.v: the loops of the scripts. *)
From Coq Require Import List ZArith Lia Bool Reals Lra.
From Verif Require Import PyCommon CommonProofs ReplayModel ReplaySpec ReplayProofs PrioModel TracerModel TracerSpec TracerProofs TracerProofs2 PipeModel PipeSpec PipeProofs PipeProofs2.
Import ListNotations.
Set Implicit Arguments.

Lemma f2_length : forall X Y (P : X -> Y -> Prop) l m, Forall2 P l m -> length l = length m.
Proof. intros X Y P l m F. induction F; cbn; auto. Qed.

Section P.
Variables S A G : Type.
Variable draw : G -> nat -> nat -> list nat * G.
Variables (n : nat) (gamma : R).
Hypothesis Hn : 1 <= n.
Hypothesis Hg : (0 <= gamma <= 1)%R.
Hypothesis Hd : draws_distinct draw.
Notation npipe := (pipe S A (nstate S A) G).
Notation tr := (traced (@nstep_add S A) (nstep_pop n gamma false) (nstep_reset S A)).

(** [outs] is the log of the buffer. *)
Definition sinv (cap : nat) (p : npipe) (ins : list (step S A * R * bool)) (outs : list (single S A)) : Prop :=
  ngood (p_tracer p) /\ nstep_bool n (p_tracer p) = false /\ scap (sb (p_world p)) = cap /\ tr (p_tracer p) ins outs /\ inv (p_world p) outs.

Definition in_log (outs : list (single S A)) (b : tbatch (single S A)) : Prop := exists j y, nth_error outs j = Some y /\ b = mkTB [y] [Z.of_nat j].

Lemma in_log_app : forall outs more b, in_log outs b -> in_log (outs ++ more) b.
Proof. intros outs more b (j & y & E & ->). exists j, y. split; auto. rewrite nth_error_app1; auto. apply nth_error_Some. congruence. Qed.

Lemma srecord : forall cap p ins outs x r d, sinv cap p ins outs -> valid_step x ->
  exists p' ys, pipe_record (nstep_bool n) (@nstep_len S A) (@nstep_add S A) (nstep_pop n gamma false) p x r d = (p', None) /\ sinv cap p' (ins ++ [(x, r, d)]) (outs ++ ys).
Proof.
  intros cap p ins outs x r d (Gd & B & C & Tr & I) V. destruct (@ngood_add S A n (p_tracer p) x r d Gd V B) as (t' & E & Gd'). unfold pipe_record. rewrite E.
  destruct (@drain_ok S A (nstate S A) G draw (nstep_bool n) (@nstep_len S A) (@nstep_add S A) (nstep_pop n gamma false) (@ngood S A)
     (fun t x r d => @ngood_add S A n t x r d) (fun t => @ngood_pop S A n gamma false t Hn Hg) (nstep_reset S A) (nstep_len t') (mkPipe t' (p_world p)) (ins ++ [(x, r, d)]) outs) as (p' & ys & D & G1 & B1 & T1 & I1 & C1); cbn [p_tracer p_world]; auto.
  - apply nempty.
  - eapply traced_add; eauto.
  - exists p', ys. split; auto. split; auto. split; auto. split; [cbn [p_world] in C1; congruence|]. auto.
Qed.

Definition bounds (outs : list (single S A)) (cap : nat) (b : tbatch (single S A)) : Prop :=
  exists j y, j < length outs /\ length outs <= j + cap /\ nth_error outs j = Some y /\ b = mkTB [y] [Z.of_nat j].

Lemma sstep : forall f m k cap p ins outs e, 1 <= k <= m -> sinv cap p ins outs -> valid_step (es_step e) ->
  exists p' ys ob, script_step draw n gamma f (Some m) k p e = (p', Ok ob) /\ sinv cap p' (ins ++ [(es_step e, es_r e, flag_of f e)]) (outs ++ ys) /\
    (ob = None <-> Nat.min cap (length (outs ++ ys)) < m) /\
    forall b, ob = Some b -> length b = k /\ NoDup (map (@ids _) b) /\ Forall (bounds (outs ++ ys) cap) b.
Proof.
  intros f m k cap p ins outs e Hk Hs V. destruct (srecord (es_r e) (flag_of f e) Hs V) as (p1 & ys & E & H1). unfold script_step. rewrite E.
  pose proof H1 as (Gd & B & C & Tr & I). destruct (inv_contents I C) as [E1 E2]. destruct (Nat.leb_spec m (simple_len (p_world p1))) as [L|L].
  - destruct (@sample_log S A G draw (p_world p1) (outs ++ ys) cap k Hd I C ltac:(lia)) as (js & b & Sb & Lj & Nd & F).
    destruct (sample_inv draw k I) as [I' C'].
    destruct (simple_sample draw (p_world p1) k) as [w ob]. cbn [fst snd] in *. subst ob. exists (mkPipe (p_tracer p1) w), ys, (Some b). split; auto. split.
    { split; auto. split; auto. cbn [p_world p_tracer]. split; [congruence|]. auto. }
    split; [split; [discriminate|lia]|]. intros b' Eb. injection Eb as <-. split; [rewrite <- Lj; symmetry; eapply f2_length; eauto|]. split.
    + assert (X : map (@ids _) b = map (fun j => [Z.of_nat j]) js). { clear - F. induction F as [|j x js b (H1 & H2 & y & Y & ->) F IH]; cbn [map ids]; auto. now rewrite IH. }
      rewrite X. apply FinFun.Injective_map_NoDup; auto. intros a c Q. injection Q. apply Nat2Z.inj.
    + clear - F. induction F as [|j x js b (H1 & H2 & y & Y & ->) F IH]; constructor; auto. exists j, y. auto.
  - exists p1, ys, None. split; auto. split; auto. split; [split; auto; lia|discriminate].
Qed.

Lemma srun : forall f m k cap es p ins outs, 1 <= k <= m -> sinv cap p ins outs -> played_valid es ->
  exists p' ys bs, script_run draw n gamma f (Some m) k p es = (p', Ok bs) /\
    sinv cap p' (ins ++ map (fun e => (es_step e, es_r e, flag_of f e)) es) (outs ++ ys) /\
    forall b, In b bs -> length b = k /\ NoDup (map (@ids _) b) /\ Forall (in_log (outs ++ ys)) b.
Proof.
  intros f m k cap. induction es as [|e es IH]; intros p ins outs Hk Hs V.
  - exists p, [], []. cbn [script_run map]. rewrite !app_nil_r. split; auto. split; auto. intros b [].
  - destruct (@sstep f m k cap p ins outs e Hk Hs) as (p1 & y1 & ob & E & H1 & _ & Hb). { apply V. now left. }
    destruct (IH p1 (ins ++ [(es_step e, es_r e, flag_of f e)]) (outs ++ y1) Hk H1) as (p2 & y2 & bs & E2 & H2 & Hbs). { intros e' He. apply V. now right. }
    exists p2, (y1 ++ y2), (match ob with Some b => b :: bs | None => bs end). cbn [script_run map]. rewrite E, E2. split; auto.
    rewrite <- !app_assoc in H2. cbn [app] in H2. split; auto.
    assert (X : forall b, In b bs -> length b = k /\ NoDup (map (@ids _) b) /\ Forall (in_log (outs ++ y1 ++ y2)) b). { intros b Hin. rewrite app_assoc. auto. }
    destruct ob as [b0|]; auto. intros b [<-|Hin]; auto. destruct (Hb b0 eq_refl) as (B1 & B2 & B3). split; auto. split; auto.
    rewrite app_assoc. eapply Forall_impl; [|exact B3]. intros x (j & y & _ & _ & Q1 & Q2). apply in_log_app. exists j, y. auto.
Qed.

Lemma sinv_init : forall h cap g, sinv cap (mkPipe (nstep_reset S A) (simple_init h cap g)) [] [].
Proof. clear Hd. intros. split; [apply ngood_reset|]. split; [now apply nempty|]. split; auto. split; [apply traced_nil|apply init_inv]. Qed.

(** The whole script. *)
Lemma script_ok : forall f m k cap h g es, 1 <= k <= m -> played_valid es ->
  exists p' bs outs, script_run draw n gamma f (Some m) k (mkPipe (nstep_reset S A) (simple_init h cap g)) es = (p', Ok bs) /\
    Forall2 (fun d y => nstep_spec n gamma false (fst (fst d)) (snd (fst d)) (snd d) y) (nstep_due n (map (fun e => (es_step e, es_r e, flag_of f e)) es)) outs /\
    simple_iter (p_world p') = map as_single (lastn cap (numbered outs)) /\
    forall b, In b bs -> length b = k /\ NoDup (map (@ids _) b) /\ Forall (in_log outs) b.
Proof.
  intros f m k cap h g es Hk V. destruct (@srun f m k cap es _ [] [] Hk (sinv_init h cap g) V) as (p' & ys & bs & E & H & Hb). cbn [app] in *.
  exists p', bs, ys. split; auto. destruct H as (Gd & B & C & Tr & I). split; [eapply ntraced_due; eauto|]. split; auto. apply (inv_contents I C).
Qed.

Lemma due_episode : forall ins outs j (y : single S A), Forall2 (fun d y => nstep_spec n gamma false (fst (fst d)) (snd (fst d)) (snd d) y) (nstep_due n ins) outs -> nth_error outs j = Some y ->
  exists ep fin t, (if fin : bool then In ep (fst (cut [] ins)) else ep = snd (cut [] ins) /\ t + n < length ep) /\ nstep_spec n gamma false ep fin t y.
Proof.
  clear. intros ins outs j y F E. assert (X : exists d, nth_error (nstep_due n ins) j = Some d /\ nstep_spec n gamma false (fst (fst d)) (snd (fst d)) (snd d) y).
  { revert j E. induction F as [|d z l m H F IH]; intros [|j] E; try discriminate; cbn in *; eauto. injection E as <-. eauto. }
  destruct X as (((ep & fin) & t) & D & Sp). cbn [fst snd] in Sp. exists ep, fin, t. split; auto. apply nth_error_In in D. unfold nstep_due in D.
  destruct (cut [] ins) as [eps rest]. cbn [fst snd]. apply in_app_or in D. destruct D as [D|D].
  - apply in_flat_map in D. destruct D as (ep' & I & D). apply in_map_iff in D. destruct D as (t' & D & _). injection D as -> <- <-. exact I.
  - apply in_map_iff in D. destruct D as (t' & D & T). injection D as -> <- <-. apply in_seq in T. split; auto. lia.
Qed.

(** The script without warm-up. *)
Lemma stub_raises : forall f k cap h g e, 2 <= k -> valid_step (es_step e) ->
  snd (script_step draw n gamma f None k (mkPipe (nstep_reset S A) (simple_init h cap g)) e) = Err EValue.
Proof.
  intros f k cap h g e Hk V. unfold script_step. destruct (srecord (es_r e) (flag_of f e) (sinv_init h cap g) V) as (p1 & ys & E & H1). rewrite E.
  destruct H1 as (Gd & B & C & Tr & I). cbn [app] in *. destruct (inv_contents I C) as [_ E2].
  pose proof (ntraced_due Hn Hg B Tr) as F. apply f2_length in F.
  assert (L : length ys <= 1). { rewrite <- F. unfold nstep_due. cbn [cut app]. destruct (flag_of f e); cbn [app flat_map length map seq]; rewrite ?app_nil_r, ?app_length, ?map_length, ?seq_length; cbn [length]; lia. }
  unfold simple_sample, simple_len in *. destruct (Nat.ltb_spec (length (sstore (sb (p_world p1)))) k) as [_|Q]; [reflexivity|lia].
Qed.
End P.
