(** Exceptions of the loops between tracer and buffer. *)
From Coq Require Import List ZArith Lia Bool Reals Lra.
From Verif Require Import PyCommon CommonProofs ReplayModel ReplaySpec ReplayProofs PrioModel PrioSpec TracerModel TracerSpec TracerProofs TracerProofs2 PipeModel PipeSpec PipeProofs PipeProofs2 PipeProofs4.
Import ListNotations.
Set Implicit Arguments.

Section Raise.
Variables S A G T : Type.
Variable tbool : T -> bool.
Variable tlen : T -> nat.
Variable tpop : T -> T * outcome (single S A).
Variable bad : T -> Prop.
Hypothesis bad_len : forall t, bad t -> 1 <= tlen t.
Hypothesis bad_bool : forall t, bad t -> tbool t = true.
Hypothesis bad_pop : forall t, bad t -> (exists t', tpop t = (t', Err EType)) \/ (exists t' y, tpop t = (t', Ok y) /\ bad t' /\ tlen t' < tlen t).

Lemma drain_bad : forall fuel (p : pipe S A T G), bad (p_tracer p) -> tlen (p_tracer p) <= fuel -> snd (pipe_drain tbool tpop fuel p) = Some EType.
Proof.
  induction fuel as [|fuel IH]; intros p Hb L; [pose proof (bad_len Hb); lia|]. cbn [pipe_drain]. rewrite (bad_bool Hb).
  destruct (bad_pop Hb) as [(t' & E)|(t' & y & E & Hb' & L')]; rewrite E; [reflexivity|]. apply IH; cbn; auto. lia.
Qed.
Variable w0 : pworld (single S A).
Hypothesis new_ok : forall w outs y adv, reached w0 w outs -> exists w', prio_new w y adv = (w', None) /\ reached w0 w' (outs ++ [y]).
Lemma pdrain_bad : forall td fuel (p : ppipe S A T) outs, bad (pp_tracer p) -> reached w0 (pp_world p) outs -> tlen (pp_tracer p) <= fuel -> snd (ppipe_drain tbool tpop td fuel p) = Some EType.
Proof.
  induction fuel as [|fuel IH]; intros p outs Hb R L; [pose proof (bad_len Hb); lia|]. cbn [ppipe_drain]. rewrite (bad_bool Hb).
  destruct (bad_pop Hb) as [(t' & E)|(t' & y & E & Hb' & L')]; rewrite E; [reflexivity|]. destruct (new_ok y (td y) R) as (w' & N & R'). rewrite N. apply IH with (outs ++ [y]); cbn; auto. lia.
Qed.
End Raise.

Section Bad.
Variables S A : Type.
Lemma from_single_cases : forall (s : S) (a : A) logp r d g s' a' logp' w wn e, (exists y, from_single s a logp r d g s' a' logp' w wn e = Ok y) \/ from_single s a logp r d g s' a' logp' w wn e = Err EType.
Proof. intros. unfold from_single. repeat destruct (Rle_dec _ _); auto. destruct wn; auto. destruct (Rlt_dec _ _); eauto. Qed.
Lemma from_single_bad : forall (x : step S A) r d g s' a' logp' e, ~ valid_step x -> from_single (st_s x) (st_a x) (st_logp x) r d g s' a' logp' (st_w x) (st_wnative x) e = Err EType.
Proof. intros x r d g s' a' logp' e V. unfold from_single, valid_step in *. repeat destruct (Rle_dec _ _); auto. destruct (st_wnative x); auto. destruct (Rlt_dec _ _); auto. exfalso. apply V. auto. Qed.

Definition nbad (t : nstate S A) : Prop := n_done t = true /\ exists l x lr r, n_s t = l ++ [x] /\ n_r t = lr ++ [r] /\ length l = length lr /\ ~ valid_step x.
Lemma nbad_len : forall t, nbad t -> 1 <= nstep_len t.
Proof. intros t (_ & l & x & lr & r & E & _). unfold nstep_len. rewrite E, app_length. cbn. lia. Qed.
Lemma nbad_bool : forall n t, nbad t -> nstep_bool n t = true.
Proof. intros n t H. pose proof (nbad_len H) as L. destruct H as (D & _). unfold nstep_bool. rewrite D. destruct (Nat.eqb_spec (nstep_len t) 0); [lia|]. reflexivity. Qed.
Lemma nbad_pop : forall n gamma extra, 1 <= n -> forall t, nbad t -> (exists t', nstep_pop n gamma extra t = (t', Err EType)) \/ (exists t' y, nstep_pop n gamma extra t = (t', Ok y) /\ nbad t' /\ nstep_len t' < nstep_len t).
Proof.
  intros n gamma extra Hn t Hb. pose proof (nbad_bool n Hb) as B. unfold nstep_pop. rewrite B. cbn [negb]. destruct Hb as (D & l & x & lr & r & E1 & E2 & L & V). unfold nstep_len. rewrite E1, E2.
  destruct l as [|x0 l]; (destruct lr as [|r0 lr]; try discriminate L); cbn [app].
  - destruct (Nat.leb_spec n (length (@nil (step S A)))) as [Q|Q]; [cbn in Q; lia|]. left. eexists. f_equal. now apply from_single_bad.
  - cbn [length] in L. assert (NB : nbad (mkN (l ++ [x]) (lr ++ [r]) (n_done t))) by (split; [exact D|]; exists l, x, lr, r; cbn; auto). assert (LL : length (l ++ [x]) < length (x0 :: l ++ [x])) by (cbn; lia).
    destruct (Nat.leb_spec n (length (l ++ [x]))) as [Q|Q].
    + destruct n as [|m]; [lia|]. destruct (nth_error (l ++ [x]) m) as [y|] eqn:N; [|apply nth_error_None in N; lia].
      match goal with |- context [from_single ?a ?b ?c ?d ?e ?f ?g ?h ?i ?j ?k ?l] => destruct (from_single_cases a b c d e f g h i j k l) as [(z & ->)| ->] end; [right; eauto 10|left; eauto].
    + match goal with |- context [from_single ?a ?b ?c ?d ?e ?f ?g ?h ?i ?j ?k ?l] => destruct (from_single_cases a b c d e f g h i j k l) as [(z & ->)| ->] end; [right; eauto 10|left; eauto].
Qed.
Lemma nbad_add : forall n t x r, ngood t -> nstep_bool n t = false -> ~ valid_step x -> exists t', nstep_add t x r true = (t', None) /\ nbad t'.
Proof.
  intros n t x r (cur & fin & p & V & Hp & ->) B Vx. unfold nstep_add. assert (X : n_done (nview cur fin p) && negb (Nat.eqb (nstep_len (nview cur fin p)) 0) = false).
  { unfold nstep_bool in B. destruct (n_done (nview cur fin p)); auto. rewrite orb_true_l, andb_true_r in B. exact B. }
  rewrite X. eexists. split; [reflexivity|]. split; [reflexivity|]. exists (n_s (nview cur fin p)), x, (n_r (nview cur fin p)), r. cbn [n_s n_r]. split; auto. split; auto. split; auto. cbn. now rewrite !map_length.
Qed.

Definition mbad (t : mstate S A) : Prop := m_done t = true /\ exists l x r, m_list t = l ++ [(x, r)] /\ ~ valid_step x.
Lemma mbad_len : forall t, mbad t -> 1 <= mc_len t.
Proof. intros t (_ & l & x & r & E & _). unfold mc_len. rewrite E, app_length. cbn. lia. Qed.
Lemma mbad_bool : forall t, mbad t -> mc_bool t = true.
Proof. intros t H. pose proof (mbad_len H) as L. destruct H as (D & _). unfold mc_bool. rewrite D. destruct (Nat.eqb_spec (mc_len t) 0); [lia|]. reflexivity. Qed.
Lemma mbad_pop : forall gamma t, mbad t -> exists t', mc_pop gamma t = (t', Err EType).
Proof.
  intros gamma t Hb. unfold mc_pop. rewrite (mbad_bool Hb). destruct Hb as (D & l & x & r & E & V). rewrite E, rev_app_distr. cbn [negb rev app]. eexists. f_equal. now apply from_single_bad.
Qed.
Lemma mbad_add : forall gamma t x r, mgood gamma t -> mc_bool t = false -> ~ valid_step x -> exists t', mc_add t x r true = (t', None) /\ mbad t'.
Proof.
  intros gamma t x r _ B Vx. unfold mc_add. assert (X : m_done t && negb (Nat.eqb (mc_len t) 0) = false) by (unfold mc_bool in B; now rewrite andb_comm).
  rewrite X. eexists. split; [reflexivity|]. split; [reflexivity|]. exists (m_list t), x, r. auto.
Qed.
End Bad.
