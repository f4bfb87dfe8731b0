(** Proofs for PipeProps.v: the buffer behind a tracer, for any tracer that behaves. *)
From Coq Require Import List ZArith Lia Bool Reals Lra.
From Verif Require Import PyCommon CommonProofs ReplayModel ReplaySpec ReplayProofs PrioModel PrioSpec PrioProofs PrioProofs2 TracerModel TracerSpec TracerProofs TracerProofs2 PipeModel PipeSpec.
Import ListNotations.
Set Implicit Arguments.

Section Generic.
Variables S A T G : Type.
Variable draw : G -> nat -> nat -> list nat * G.
Variable tbool : T -> bool.
Variable tlen : T -> nat.
Variable tadd : T -> step S A -> R -> bool -> T * option exn.
Variable tpop : T -> T * outcome (single S A).
Variable good : T -> Prop.
Hypothesis good_add : forall t x r d, good t -> valid_step x -> tbool t = false -> exists t', tadd t x r d = (t', None) /\ good t'.
Hypothesis good_pop : forall t, good t -> tbool t = true -> exists y t', tpop t = (t', Ok y) /\ good t' /\ tlen t' < tlen t.

Notation run := (trun tadd tpop).

Lemma trun_app : forall os1 os2 t,
  run t (os1 ++ os2) =
  let '(t1, (ins1, (outs1, errs1))) := run t os1 in
  let '(t2, (ins2, (outs2, errs2))) := run t1 os2 in
  (t2, (ins1 ++ ins2, (outs1 ++ outs2, errs1 ++ errs2))).
Proof.
  clear. induction os1 as [|o os1 IH]; intros os2 t.
  - cbn [app trun]. destruct (run t os2) as (t2 & ins2 & outs2 & errs2). reflexivity.
  - cbn [app trun]. destruct o as [x r d|].
    + destruct (tadd t x r d) as [t1 e]. rewrite IH. destruct (run t1 os1) as (t2 & i1 & o1 & e1).
      destruct e as [e|]; destruct (run t2 os2) as (t3 & i2 & o2 & e2); reflexivity.
    + destruct (tpop t) as [t1 x]. rewrite IH. destruct (run t1 os1) as (t2 & i1 & o1 & e1).
      destruct x as [y|e]; destruct (run t2 os2) as (t3 & i2 & o2 & e2); reflexivity.
Qed.

(** A tracer state reached without exceptions, and drained. *)
Definition traced (t0 t : T) (ins : list (step S A * R * bool)) (outs : list (single S A)) : Prop :=
  exists os, prog_valid os /\ run t0 os = (t, (ins, (outs, []))).

Lemma traced_pop : forall t0 t t' ins outs y, traced t0 t ins outs -> tpop t = (t', Ok y) -> traced t0 t' ins (outs ++ [y]).
Proof.
  clear. intros t0 t t' ins outs y (os & V & E) P. exists (os ++ [TPop]). split.
  - intros x r d H. apply in_app_or in H. destruct H as [H|[H|[]]]; [eauto|discriminate].
  - rewrite trun_app, E. cbn [trun]. rewrite P. now rewrite !app_nil_r.
Qed.

Lemma traced_add : forall t0 t t' ins outs x r d, traced t0 t ins outs -> valid_step x -> tadd t x r d = (t', None) ->
  traced t0 t' (ins ++ [(x, r, d)]) outs.
Proof.
  clear. intros t0 t t' ins outs x r d (os & V & E) Vx P. exists (os ++ [TAdd x r d]). split.
  - intros x' r' d' H. apply in_app_or in H. destruct H as [H|[H|[]]]; [eauto|]. now injection H as -> -> ->.
  - rewrite trun_app, E. cbn [trun]. rewrite P. now rewrite !app_nil_r.
Qed.

(** ** SimpleReplayBuffer *)
Notation pipe := (pipe S A T G).

Lemma buffer_new_inv : forall (w : sworld (single S A) G) log y, inv w log -> inv (buffer_new w y) (log ++ [y]) /\ scap (sb (buffer_new w y)) = scap (sb w).
Proof.
  clear. intros w log y I. destruct (@step_inv _ _ (fun g _ _ => ([], g)) w log (SNew (mkTB [y] [0%Z])) I Logic.I) as [I1 C1].
  cbn [simple_step fst] in I1, C1.
  destruct (@step_inv _ _ (fun g _ _ => ([], g)) _ _ (SAdd (length (sheap w))) I1) as [I2 C2].
  - cbn [sb]. intros H. pose proof (inv_store_valid _ I H). lia.
  - cbn [simple_step fst sheap] in I2, C2. rewrite nth_error_app2, Nat.sub_diag in I2 by lia. cbn [nth_error rows] in I2. split; [exact I2|]. unfold buffer_new. rewrite C2. exact C1.
Qed.

(** After draining. *)
Lemma drain_ok : forall t0 fuel (p : pipe) ins outs, good (p_tracer p) -> tlen (p_tracer p) <= fuel -> (forall t, tlen t = 0 -> tbool t = false) ->
  traced t0 (p_tracer p) ins outs -> inv (p_world p) outs ->
  exists p' ys, pipe_drain tbool tpop fuel p = (p', None) /\ good (p_tracer p') /\ tbool (p_tracer p') = false /\
    traced t0 (p_tracer p') ins (outs ++ ys) /\ inv (p_world p') (outs ++ ys) /\ scap (sb (p_world p')) = scap (sb (p_world p)).
Proof.
  intros t0. induction fuel as [|fuel IH]; intros p ins outs Gd Lf Z Tr I.
  - exists p, []. rewrite app_nil_r. cbn [pipe_drain]. split; auto. split; auto. split; [apply Z; lia|auto].
  - cbn [pipe_drain]. destruct (tbool (p_tracer p)) eqn:B.
    2:{ exists p, []. rewrite app_nil_r. auto 10. }
    destruct (good_pop Gd B) as (y & t' & P & Gd' & L). rewrite P.
    destruct (buffer_new_inv y I) as [I' C'].
    destruct (IH (mkPipe t' (buffer_new (p_world p) y)) ins (outs ++ [y])) as (p' & ys & D & G1 & B1 & T1 & I1 & C1); cbn [p_tracer p_world]; auto.
    + lia.
    + eapply traced_pop; eauto.
    + exists p', (y :: ys). rewrite <- app_assoc in T1, I1. cbn [app] in T1, I1. split; auto. split; auto. split; auto. split; auto. split; auto. cbn [p_world] in C1. congruence.
Qed.

Definition pipe_inv (t0 : T) (cap : nat) (p : pipe) (ins : list (step S A * R * bool)) : Prop :=
  good (p_tracer p) /\ tbool (p_tracer p) = false /\ scap (sb (p_world p)) = cap /\
  exists outs, traced t0 (p_tracer p) ins outs /\ inv (p_world p) outs.

Hypothesis empty_false : forall t, tlen t = 0 -> tbool t = false.

Lemma record_ok : forall t0 cap (p : pipe) ins x r d, pipe_inv t0 cap p ins -> valid_step x ->
  exists p', pipe_record tbool tlen tadd tpop p x r d = (p', None) /\ pipe_inv t0 cap p' (ins ++ [(x, r, d)]).
Proof.
  intros t0 cap p ins x r d (Gd & B & C & outs & Tr & I) V. destruct (good_add r d Gd V B) as (t' & E & Gd'). unfold pipe_record. rewrite E.
  destruct (@drain_ok t0 (tlen t') (mkPipe t' (p_world p)) (ins ++ [(x, r, d)]) outs) as (p' & ys & D & G1 & B1 & T1 & I1 & C1); cbn [p_tracer p_world]; auto.
  - eapply traced_add; eauto.
  - exists p'. split; auto. split; auto. split; auto. split; [cbn [p_world] in C1; congruence|]. exists (outs ++ ys). auto.
Qed.

Lemma sample_inv : forall (w : sworld (single S A) G) log k, inv w log -> inv (fst (simple_sample draw w k)) log /\ scap (sb (fst (simple_sample draw w k))) = scap (sb w).
Proof.
  clear. intros w log k I. destruct (@step_inv _ _ draw w log (SSample k) I Logic.I) as [I1 C1]. cbn [simple_step] in I1, C1.
  destruct (simple_sample draw w k) as [w' b]. auto.
Qed.

Lemma step_pipe_inv : forall t0 cap (p : pipe) ins (o : lop S A G), pipe_inv t0 cap p ins ->
  (forall x r d, o = LRecord x r d -> valid_step x) ->
  pipe_inv t0 cap (fst (pipe_step draw tbool tlen tadd tpop p o)) (ins ++ match o with LRecord x r d => [(x, r, d)] | _ => [] end).
Proof.
  intros t0 cap p ins o Hp V. destruct o as [x r d|k|g]; cbn [pipe_step].
  - destruct (record_ok r d Hp (V x r d eq_refl)) as (p' & E & H). rewrite E. exact H.
  - rewrite app_nil_r. destruct Hp as (Gd & B & C & outs & Tr & I). destruct (sample_inv k I) as [I1 C1].
    destruct (simple_sample draw (p_world p) k) as [w' b]. cbn [fst] in *. split; auto. split; auto. cbn [p_world p_tracer]. split; [congruence|]. eauto.
  - rewrite app_nil_r. destruct Hp as (Gd & B & C & outs & Tr & I). cbn [fst]. split; auto. split; auto. cbn [p_world p_tracer]. split; auto. exists outs. split; auto.
Qed.

Lemma run_pipe_inv : forall t0 cap (os : list (lop S A G)) (p : pipe) ins, pipe_inv t0 cap p ins -> steps_valid (recorded os) ->
  pipe_inv t0 cap (fst (pipe_run draw tbool tlen tadd tpop p os)) (ins ++ recorded os).
Proof.
  intros t0 cap. induction os as [|o os IH]; intros p ins Hp V.
  - cbn [pipe_run recorded fst]. now rewrite app_nil_r.
  - cbn [pipe_run]. assert (V' : forall x r d, o = LRecord x r d -> valid_step x). { intros x r d ->. eapply V. now left. }
    assert (V2 : steps_valid (recorded os)). { intros x r d H. eapply (V x r d). destruct o; cbn [recorded]; auto. now right. }
    pose proof (step_pipe_inv Hp V') as H1.
    destruct (pipe_step draw tbool tlen tadd tpop p o) as [p1 b]. cbn [fst] in H1.
    specialize (IH p1 _ H1 V2). destruct (pipe_run draw tbool tlen tadd tpop p1 os) as [p2 bs]. cbn [fst] in IH |- *.
    rewrite <- app_assoc in IH. destruct o; exact IH.
Qed.

End Generic.

(** ** The tracers *)
Section Tracers.
Variables S A : Type.

Definition ngood (t : nstate S A) : Prop := exists cur fin p, valid_episode cur /\ p <= length cur /\ t = nview cur fin p.

Lemma valid_snoc : forall (cur : episode S A) x r, valid_episode cur -> valid_step x -> valid_episode (cur ++ [(x, r)]).
Proof. intros cur x r V Vx y q H. apply in_app_or in H. destruct H as [H|[H|[]]]; [eauto|now injection H as -> ->]. Qed.

Lemma ngood_add : forall n t x r d, ngood t -> valid_step x -> nstep_bool n t = false -> exists t', nstep_add t x r d = (t', None) /\ ngood t'.
Proof.
  intros n t x r d (cur & fin & p & V & Hp & ->) Vx B. unfold nstep_add. rewrite nview_len.
  destruct fin.
  - assert (L : length cur - p = 0).
    { unfold nstep_bool in B. rewrite nview_len in B. cbn [nview n_done orb] in B. rewrite andb_true_r in B. destruct (Nat.eqb_spec (length cur - p) 0); auto; discriminate. }
    rewrite L. cbn [nview n_done Nat.eqb negb andb]. eexists. split; [reflexivity|].
    exists [(x, r)], d, 0. split; [|split; [cbn; lia|]].
    + intros y q [H|[]]. now injection H as -> ->.
    + assert (E : skipn p cur = []) by (apply skipn_all2; lia). unfold nview. cbn [n_s n_r]. rewrite E. reflexivity.
  - cbn [nview n_done andb]. eexists. split; [reflexivity|]. exists (cur ++ [(x, r)]), d, p. split; [now apply valid_snoc|]. split; [rewrite app_length; lia|].
    unfold nview. cbn [n_s n_r]. rewrite skipn_app. replace (p - length cur) with 0 by lia. cbn [skipn]. rewrite !map_app. reflexivity.
Qed.

Lemma ngood_pop : forall n gamma extra t, 1 <= n -> (0 <= gamma <= 1)%R -> ngood t -> nstep_bool n t = true ->
  exists y t', nstep_pop n gamma extra t = (t', Ok y) /\ ngood t' /\ nstep_len t' < nstep_len t.
Proof.
  intros n gamma extra t Hn Hg (cur & fin & p & V & Hp & ->) B. pose proof B as B'. rewrite nview_bool in B' by auto. apply andb_true_iff in B'. destruct B' as [B1 B2]. apply Nat.ltb_lt in B1.
  destruct (@nview_pop S A n gamma extra Hn Hg cur fin p [] fin V Hp B) as (y & E & _).
  - auto.
  - intros -> H. discriminate.
  - exists y, (nview cur fin (Datatypes.S p)). split; auto. split; [exists cur, fin, (Datatypes.S p); auto|]. rewrite !nview_len. lia.
Qed.

Lemma nempty : forall n (t : nstate S A), nstep_len t = 0 -> nstep_bool n t = false.
Proof. intros n t H. unfold nstep_bool. now rewrite H. Qed.

Lemma ngood_reset : ngood (nstep_reset S A).
Proof. exists [], false, 0. split; [intros x r []|]. split; auto. Qed.

Variable gamma : R.
Definition mgood (t : mstate S A) : Prop := exists fin cur q g, valid_episode cur /\ q <= length cur /\ t = mstate_of gamma fin cur q g.

Lemma mgood_add : forall t x r d, mgood t -> valid_step x -> mc_bool t = false -> exists t', mc_add t x r d = (t', None) /\ mgood t'.
Proof.
  intros t x r d (fin & cur & q & g & V & Hq & ->) Vx B. destruct fin.
  - cbn [mstate_of] in *. rewrite mview_bool in B by auto. apply Nat.ltb_ge in B. assert (q = 0) by lia. subst q.
    unfold mc_add, mc_len, mview. cbn [m_done m_list firstn length Nat.eqb negb andb app m_g]. eexists. split; [reflexivity|].
    exists d, [(x, r)], 1, (disc_sum gamma (rewards cur) 0 (length cur - 0)). split; [|split; [cbn; lia|]].
    + intros y k [H|[]]. now injection H as -> ->.
    + destruct d; cbn [mstate_of]; [symmetry; exact (mview_fresh gamma [(x, r)])|reflexivity].
  - cbn [mstate_of]. rewrite (mc_add_unfinished gamma). eexists. split; [reflexivity|]. exists d, (cur ++ [(x, r)]), (length (cur ++ [(x, r)])), g. split; [now apply valid_snoc|]. split; auto.
Qed.

Lemma mgood_pop : forall t, (0 <= gamma <= 1)%R -> mgood t -> mc_bool t = true -> exists y t', mc_pop gamma t = (t', Ok y) /\ mgood t' /\ mc_len t' < mc_len t.
Proof.
  intros t Hg (fin & cur & q & g & V & Hq & ->) B. destruct fin; cbn [mstate_of] in *.
  - rewrite mview_bool in B by auto. apply Nat.ltb_lt in B. destruct q as [|q]; [lia|]. destruct (@mview_pop S A gamma Hg cur q V ltac:(lia)) as (y & E & _).
    exists y, (mview gamma cur q). split; auto. split; [exists true, cur, q, g; split; auto; split; [lia|reflexivity]|]. unfold mc_len, mview. cbn [m_list]. rewrite !firstn_length. lia.
  - unfold mc_bool in B. cbn [m_done] in B. rewrite andb_false_r in B. discriminate.
Qed.

Lemma mempty : forall (t : mstate S A), mc_len t = 0 -> mc_bool t = false.
Proof. intros t H. unfold mc_bool. now rewrite H. Qed.

Lemma mgood_reset : mgood (mc_reset S A).
Proof. exists false, [], 0, 0%R. split; [intros x r []|]. split; auto. Qed.
End Tracers.
