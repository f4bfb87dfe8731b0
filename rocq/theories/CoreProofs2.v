(** Proofs about learners: updates and setters. *)
From Coq Require Import List Lia Bool Arith Reals Lra.
From Verif Require Import PyCommon CommonProofs UtilsModel UtilsSpec DistModel CoreModel CoreSpec CoreProofs.
Import ListNotations.
Set Implicit Arguments.
Local Open Scope R_scope.

Lemma in_leaves : forall (L : Type) (t : tree L) x, In x (leaves t) <-> exists path, leaf_at t path = Some x.
Proof.
  intros L t. induction t as [y|k cs IH] using tree_induction; intros x.
  - cbn. split; [intros [->|[]]; now exists []|]. intros [[|i path] H]; [injection H as <-; auto|discriminate].
  - cbn [leaves]. rewrite in_flat_map. rewrite Forall_forall in IH. split.
    + intros (c & I & X). apply IH in X; auto. destruct X as [path X]. apply In_nth_error in I. destruct I as [i I]. exists (i :: path). cbn. now rewrite I.
    + intros [[|i path] H]; [discriminate|]. cbn in H. destruct (nth_error cs i) as [c|] eqn:C; [|discriminate]. apply nth_error_In in C. exists c. split; auto. apply IH; eauto.
Qed.
Lemma has_nan_spec : forall g, has_nan g = true <-> nan_somewhere g.
Proof.
  intros g. unfold has_nan, nan_somewhere. rewrite existsb_exists. split.
  - intros (x & I & H). apply existsb_exists in H. destruct H as ([y|] & J & H); [discriminate|]. apply in_leaves in I. destruct I as [path I]. eauto.
  - intros (path & x & I & H). exists x. split; [apply in_leaves; eauto|]. apply existsb_exists. exists None. auto.
Qed.

Lemma update_nan : forall (M : Type) gam l g fs (m : M), gam (f_params (l_func l)) (f_state (l_func l)) (f_key (l_func l)) = Ok (g, fs, m) -> nan_somewhere g ->
  exists l', update gam l = (l', Err ERuntime) /\ same_but_key l l'.
Proof. intros M gam l g fs m E N. apply has_nan_spec in N. unfold update. rewrite E, N. eexists. split; [reflexivity|]. repeat split. Qed.
Lemma update_gam_err : forall (M : Type) (gam : ptree -> ptree -> nat -> outcome (gtree * ptree * M)) l e, gam (f_params (l_func l)) (f_state (l_func l)) (f_key (l_func l)) = Err e ->
  exists l', update gam l = (l', Err e) /\ same_but_key l l'.
Proof. intros M gam l e E. unfold update. rewrite E. eexists. split; [reflexivity|]. repeat split. Qed.

Lemma apply_ok : forall l g fs u os, o_update (l_opt l) g (l_ostate l) (f_params (l_func l)) = Ok (u, os) -> bare fs = bare (f_state (l_func l)) -> shape u = shape (f_params (l_func l)) -> (l_kind l = KPolicy \/ bare os = bare (l_ostate l)) ->
  exists p l', apply_grads l g fs = (l', Ok tt) /\ entrywise Rplus (f_params (l_func l)) u p /\ fully_updated l l' fs os p.
Proof.
  intros l g fs u os E F S K. unfold apply_grads, set_state. assert (SF : same_structure fs (f_state (l_func l)) = true) by now apply same_bare. rewrite SF. cbn [with_func l_opt l_ostate l_kind l_func with_state f_params].
  unfold apply_grads_func. rewrite E. cbn [bind fst snd]. destruct (@add_ok (f_params (l_func l)) u (eq_sym S)) as (p & P1 & P2). rewrite P1. cbn [bind].
  unfold set_ostate. cbv zeta. cbn [l_kind l_ostate l_func l_opt with_func]. assert (OK : match l_kind l with KPolicy => true | _ => same_structure os (l_ostate l) end = true).
  { destruct K as [->|K]; auto. destruct (l_kind l); auto; now apply same_bare. }
  rewrite OK. unfold set_params. cbn [l_func with_state f_params]. assert (SP : same_structure p (f_params (l_func l)) = true) by (apply same_bare, shape_bare, P2). rewrite SP. exists p. eexists. split; [reflexivity|]. split; auto. reflexivity.
Qed.
Lemma update_ok : forall (M : Type) gam l g fs (m : M) u os, gam (f_params (l_func l)) (f_state (l_func l)) (f_key (l_func l)) = Ok (g, fs, m) -> ~ nan_somewhere g ->
  o_update (l_opt l) g (l_ostate l) (f_params (l_func l)) = Ok (u, os) -> bare fs = bare (f_state (l_func l)) -> shape u = shape (f_params (l_func l)) -> (l_kind l = KPolicy \/ bare os = bare (l_ostate l)) ->
  exists p l', update gam l = (l', Ok m) /\ entrywise Rplus (f_params (l_func l)) u p /\ fully_updated (with_func l (next_key (l_func l))) l' fs os p.
Proof.
  intros M gam l g fs m u os E N O F S K. unfold update. rewrite E. destruct (has_nan g) eqn:H; [exfalso; apply N; now apply has_nan_spec|].
  destruct (@apply_ok (with_func l (next_key (l_func l))) g fs u os) as (p & l' & A & B & C); auto. rewrite A. exists p, l'. auto.
Qed.

(** Whatever the optimizer, an update that raises leaves the parameters as they were, and one that does not raise is complete. *)
Lemma apply_inv : forall l g fs l' r, apply_grads l g fs = (l', r) ->
  l_kind l' = l_kind l /\ l_opt l' = l_opt l /\ f_cls (l_func l') = f_cls (l_func l) /\ f_key (l_func l') = f_key (l_func l) /\
  bare (f_params (l_func l')) = bare (f_params (l_func l)) /\ bare (f_state (l_func l')) = bare (f_state (l_func l)) /\ (l_kind l <> KPolicy -> bare (l_ostate l') = bare (l_ostate l)) /\
  (forall e, r = Err e -> f_params (l_func l') = f_params (l_func l)) /\
  (r = Ok tt -> exists u os p, o_update (l_opt l) g (l_ostate l) (f_params (l_func l)) = Ok (u, os) /\ tmap2 (jop Rplus) (f_params (l_func l)) u = Ok p /\ fully_updated l l' fs os p).
Proof.
  intros l g fs l' r. unfold apply_grads. destruct (set_state (l_func l) fs) as [f [[]|e]] eqn:E.
  2:{ intros H. injection H as <- <-. repeat (split; auto). discriminate. }
  apply set_state_keeps in E. destruct E as (B1 & B2 & B3 & _ & B4). specialize (B4 eq_refl). cbn [with_func l_opt l_ostate l_kind l_func].
  assert (BK : f_key f = f_key (l_func l)) by now rewrite B4.
  destruct (apply_grads_func (l_opt l) (l_ostate l) (f_params f) g) as [[os p]|e] eqn:A.
  2:{ intros H. injection H as <- <-. cbn [l_func l_kind l_opt l_ostate with_func]. rewrite B2. repeat (split; auto). discriminate. }
  unfold apply_grads_func in A. rewrite B2 in A. destruct (o_update (l_opt l) g (l_ostate l) (f_params (l_func l))) as [[u os']|] eqn:O; [|discriminate]. cbn [bind fst snd] in A. destruct (tmap2 (jop Rplus) (f_params (l_func l)) u) as [p'|] eqn:T; [|discriminate]. cbn [bind] in A. injection A as -> ->.
  unfold set_ostate. cbv zeta. cbn [l_kind l_ostate l_func l_opt with_func]. destruct (match l_kind l with KPolicy => true | _ => same_structure os (l_ostate l) end) eqn:K.
  2:{ intros H. injection H as <- <-. cbn [l_func l_kind l_opt l_ostate with_func]. rewrite B2. repeat (split; auto). discriminate. }
  assert (BO : l_kind l <> KPolicy -> bare os = bare (l_ostate l)) by (intros N; apply same_bare; destruct (l_kind l); auto; congruence).
  cbn [l_func]. destruct (set_params f p) as [f2 r2] eqn:E2. pose proof E2 as E3. apply set_params_keeps in E2. destruct E2 as (C1 & C2 & C3 & C4 & C5). intros H. injection H as <- <-. cbn [l_func l_kind l_opt l_ostate with_func].
  rewrite C3, C2, C1, B2. split; auto. split; auto. split; auto. split; [unfold set_params in E3; destruct (same_structure p (f_params f)); injection E3 as <- _; auto|]. split; auto. split; auto. split; auto. split.
  - intros e ->. rewrite (C4 e eq_refl). auto.
  - intros ->. exists u, os, p. split; auto. split; auto. rewrite (C5 eq_refl), B4. reflexivity.
Qed.
Lemma update_inv : forall (M : Type) gam l l' (r : outcome M), update gam l = (l', r) ->
  l_kind l' = l_kind l /\ l_opt l' = l_opt l /\ f_cls (l_func l') = f_cls (l_func l) /\ f_key (l_func l') = S (f_key (l_func l)) /\
  bare (f_params (l_func l')) = bare (f_params (l_func l)) /\ bare (f_state (l_func l')) = bare (f_state (l_func l)) /\ (l_kind l <> KPolicy -> bare (l_ostate l') = bare (l_ostate l)) /\
  (forall e, r = Err e -> f_params (l_func l') = f_params (l_func l)) /\
  (forall m, r = Ok m -> exists g fs u os p, gam (f_params (l_func l)) (f_state (l_func l)) (f_key (l_func l)) = Ok (g, fs, m) /\ ~ nan_somewhere g /\
     o_update (l_opt l) g (l_ostate l) (f_params (l_func l)) = Ok (u, os) /\ tmap2 (jop Rplus) (f_params (l_func l)) u = Ok p /\ fully_updated (with_func l (next_key (l_func l))) l' fs os p).
Proof.
  intros M gam l l' r. unfold update. destruct (gam (f_params (l_func l)) (f_state (l_func l)) (f_key (l_func l))) as [[[g fs] m]|e].
  2:{ intros H. injection H as <- <-. cbn. repeat (split; auto). discriminate. }
  destruct (has_nan g) eqn:N.
  { intros H. injection H as <- <-. cbn. repeat (split; auto). discriminate. }
  destruct (apply_grads (with_func l (next_key (l_func l))) g fs) as [l1 r1] eqn:A. apply apply_inv in A. cbn [with_func next_key l_func l_kind l_opt l_ostate f_cls f_params f_state f_key] in A. destruct A as (A1 & A2 & A3 & A4 & A5 & A6 & A7 & A8 & A9).
  assert (NN : ~ nan_somewhere g) by (intros Q; apply has_nan_spec in Q; congruence).
  destruct r1 as [[]|e]; intros H; injection H as <- <-; do 7 (split; [assumption|]); (split; [|intros m' Q; try discriminate]).
  - intros e; discriminate.
  - injection Q as <-. destruct (A9 eq_refl) as (u & os & p & P1 & P2 & P3). exists g, fs, u, os, p. auto.
  - intros e' Q. now apply (A8 e).
Qed.
Lemma update_atomic : forall (M : Type) gam l l' (r : outcome M), lawful (l_opt l) -> (forall p s k g fs m, gam p s k = Ok (g, fs, m) -> bare fs = bare s) -> update gam l = (l', r) ->
  (exists e, r = Err e /\ same_but_key l l') \/ (exists m g fs u os p, r = Ok m /\ gam (f_params (l_func l)) (f_state (l_func l)) (f_key (l_func l)) = Ok (g, fs, m) /\ o_update (l_opt l) g (l_ostate l) (f_params (l_func l)) = Ok (u, os) /\
    entrywise Rplus (f_params (l_func l)) u p /\ fully_updated (with_func l (next_key (l_func l))) l' fs os p).
Proof.
  intros M gam l l' r LW GM U. destruct (gam (f_params (l_func l)) (f_state (l_func l)) (f_key (l_func l))) as [[[g fs] m]|e] eqn:G.
  - destruct (has_nan g) eqn:N.
    + left. apply has_nan_spec in N. destruct (@update_nan M gam l g fs m G N) as (l1 & E & S). rewrite E in U. injection U as <- <-. eauto.
    + right. destruct (LW g (l_ostate l) (f_params (l_func l))) as (u & os & O & S & B). destruct (@update_ok M gam l g fs m u os) as (p & l1 & E & P & F); auto.
      { intros Q. apply has_nan_spec in Q. congruence. }
      { now apply GM in G. }
      rewrite E in U. injection U as <- <-. exists m, g, fs, u, os, p. auto.
  - left. destruct (@update_gam_err M gam l e G) as (l1 & E & S). rewrite E in U. injection U as <- <-. eauto.
Qed.

(** * Invariants over any program *)
Lemma lstep_keeps : forall l o l' r, lstep l o = (l', r) ->
  l_kind l' = l_kind l /\ f_cls (l_func l') = f_cls (l_func l) /\ bare (f_params (l_func l')) = bare (f_params (l_func l)) /\ bare (f_state (l_func l')) = bare (f_state (l_func l)) /\
  (l_kind l <> KPolicy -> bare (l_ostate l') = bare (l_ostate l)).
Proof.
  intros l o l' r. destruct o as [gam|g fs|o|os|p|s]; cbn [lstep].
  - intros H. apply update_inv in H. tauto.
  - intros H. apply apply_inv in H. tauto.
  - unfold set_optimizer. destruct (l_kind l) eqn:K; try destruct (same_structure _ _); intros H; injection H as <- <-; cbn; auto; rewrite ?K; auto.
  - unfold set_ostate. cbv zeta. destruct (match l_kind l with KPolicy => true | _ => same_structure os (l_ostate l) end) eqn:K; intros H; injection H as <- <-; cbn; auto. repeat (split; auto). intros N. apply same_bare. destruct (l_kind l); auto; congruence.
  - destruct (set_params (l_func l) p) as [f r0] eqn:E. apply set_params_keeps in E. intros H. injection H as <- <-. cbn. destruct E as (A & B & C & _). rewrite B. auto.
  - destruct (set_state (l_func l) s) as [f r0] eqn:E. apply set_state_keeps in E. intros H. injection H as <- <-. cbn. destruct E as (A & B & C & _). rewrite B. auto.
Qed.
Lemma lrun_keeps : forall os l, l_kind (lrun l os) = l_kind l /\ f_cls (l_func (lrun l os)) = f_cls (l_func l) /\ bare (f_params (l_func (lrun l os))) = bare (f_params (l_func l)) /\ bare (f_state (l_func (lrun l os))) = bare (f_state (l_func l)) /\
  (l_kind l <> KPolicy -> bare (l_ostate (lrun l os)) = bare (l_ostate l)).
Proof.
  induction os as [|o os IH]; intros l; [cbn; auto|]. cbn [lrun fold_left]. destruct (lstep l o) as [l1 r] eqn:E. apply lstep_keeps in E. cbn [fst]. destruct E as (A1 & A2 & A3 & A4 & A5). destruct (IH l1) as (B1 & B2 & B3 & B4 & B5). unfold lrun in *.
  split; [congruence|]. split; [congruence|]. split; [congruence|]. split; [congruence|]. intros N. rewrite B5 by congruence. now apply A5.
Qed.
Lemma lstep_opt : forall l o l' r, lstep l o = (l', r) -> l_opt l' = l_opt l \/ (exists o', o = LOptimizer o' /\ l_opt l' = o' /\ bare (o_init o' (f_params (l_func l'))) = bare (l_ostate l')).
Proof.
  intros l o l' r. destruct o as [gam|g fs|o|os|p|s]; cbn [lstep].
  - intros H. apply update_inv in H. tauto.
  - intros H. apply apply_inv in H. tauto.
  - unfold set_optimizer. destruct (l_kind l) eqn:K; try (destruct (same_structure _ _) eqn:S); intros H; injection H as <- <-; cbn; auto; right; exists o; split; auto; split; auto; now apply same_bare.
  - unfold set_ostate. cbv zeta. destruct (match l_kind l with KPolicy => true | _ => same_structure os (l_ostate l) end); intros H; injection H as <- <-; auto.
  - destruct (set_params (l_func l) p) as [f r0]. intros H. injection H as <- <-. auto.
  - destruct (set_state (l_func l) s) as [f r0]. intros H. injection H as <- <-. auto.
Qed.
Lemma lrun_fits : forall os l, l_kind l <> KPolicy -> structural (l_opt l) -> (forall o, In (LOptimizer o) os -> structural o) -> bare (o_init (l_opt l) (f_params (l_func l))) = bare (l_ostate l) ->
  bare (o_init (l_opt (lrun l os)) (f_params (l_func (lrun l os)))) = bare (l_ostate (lrun l os)).
Proof.
  induction os as [|o os IH]; intros l K SO SN E; [exact E|]. cbn [lrun fold_left]. destruct (lstep l o) as [l1 r] eqn:L. pose proof (lstep_keeps _ _ L) as (A1 & A2 & A3 & A4 & A5). apply lstep_opt in L. cbn [fst]. apply IH.
  - congruence.
  - destruct L as [->|(o' & -> & -> & _)]; auto. apply SN. now left.
  - intros o' I. apply SN. now right.
  - destruct L as [L|(o' & -> & -> & L)]; auto. rewrite L, A5 by auto. rewrite <- E. now apply SO.
Qed.
