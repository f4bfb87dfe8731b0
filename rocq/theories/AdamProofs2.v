(** What updates with Adam do to parameter trees. *)
From Coq Require Import List Lia Bool Arith Reals Lra Psatz.
From Verif Require Import PyCommon CommonProofs UtilsModel UtilsSpec UtilsProofs2 UtilsProofs3 DistModel DistSpec DistProofs CoreModel CoreSpec CoreProofs CoreProofs2 AdamModel AdamSpec AdamProofs.
Import ListNotations.
Set Implicit Arguments.
Local Open Scope R_scope.

Fixpoint clean (g : gtree) : ptree := match g with Leaf x => Leaf (map number x) | Node ks cs => Node ks (map clean cs) end.
Lemma clean_shape : forall g, shape (clean g) = shape g.
Proof. intros g. induction g as [x|k cs IH] using tree_induction; cbn [clean shape]; [now rewrite map_length|]. f_equal. rewrite map_map. apply map_ext_in. intros t I. rewrite Forall_forall in IH. now apply IH. Qed.
Lemma clean_leaf : forall g path, leaf_at (clean g) path = option_map (map number) (leaf_at g path).
Proof.
  intros g. induction g as [x|k cs IH] using tree_induction; intros [|i path]; cbn [clean leaf_at option_map]; auto. rewrite nth_error_map. unfold gtree. destruct (nth_error cs i) as [c|] eqn:E; cbn [option_map]; auto. rewrite Forall_forall in IH. apply IH. eapply nth_error_In; eauto.
Qed.
Lemma clean_entry : forall g path i x, entry (clean g) path i = Some x -> gradient_of g path i = x.
Proof.
  intros g path i x. unfold entry, gradient_of. rewrite clean_leaf. destruct (leaf_at g path) as [l|]; cbn [option_map]; [|discriminate]. rewrite nth_error_map. destruct (nth_error l i) as [[v|]|]; cbn; intros E; congruence.
Qed.
Lemma tmap2_clean : forall (f : list R -> list R -> outcome (list R)) g m, tmap2 (fun x y => f (map number x) y) g m = tmap2 f (clean g) m.
Proof.
  intros f g. induction g as [x|k cs IH] using tree_induction; intros [y|k' ds]; auto. cbn [clean]. rewrite !tmap2_node. destruct (keys_eqb k k'); auto. f_equal. revert ds. induction IH as [|c cs Hc _ IHc]; intros [|d ds]; cbn [tmaps map]; auto. rewrite Hc. destruct (tmap2 f (clean c) d); auto. cbn [bind]. now rewrite IHc.
Qed.
Lemma zeros_shape : forall p, shape (zeros_like p) = shape p.
Proof. intros p. induction p as [x|k cs IH] using tree_induction; cbn [zeros_like shape]; [now rewrite map_length|]. f_equal. rewrite map_map. apply map_ext_in. intros t I. rewrite Forall_forall in IH. now apply IH. Qed.
Lemma zeros_entry : forall p path i x, entry (zeros_like p) path i = Some x -> x = 0.
Proof.
  intros p. induction p as [l|k cs IH] using tree_induction; intros path i x; unfold entry; destruct path as [|j path]; cbn [zeros_like leaf_at]; try discriminate.
  - rewrite nth_error_map. destruct (nth_error l i); cbn; congruence.
  - rewrite nth_error_map. unfold ptree. destruct (nth_error cs j) as [c|] eqn:E; cbn [option_map]; [|discriminate]. rewrite Forall_forall in IH. intros H. apply (IH c) with (path := path) (i := i); [eapply nth_error_In; eauto|]. unfold entry. exact H.
Qed.
Lemma jop_entry : forall h a b, shape a = shape b -> exists c, tmap2 (jop h) a b = Ok c /\ entrywise h a b c.
Proof. intros h a b E. apply pointwise; auto. intros x y L. destruct (@jop_ok h x y L) as [J1 J2]. eexists. split; [exact J1|]. split; auto. intros i u v U V. now apply zipw_nth. Qed.
Lemma shape_entry : forall (a b : ptree) path i x, shape a = shape b -> entry a path i = Some x -> exists y, entry b path i = Some y.
Proof.
  intros a b path i x S A. unfold entry in *. destruct (leaf_at a path) as [u|] eqn:LA; [|discriminate]. destruct (@leaf_shape _ a b path u S LA) as (v & LB & L). rewrite LB. assert (I : (i < length v)%nat) by (rewrite L; apply nth_error_Some; congruence). destruct (nth_error v i) as [y|] eqn:Y; [eauto|apply nth_error_None in Y; lia].
Qed.
Lemma history_snoc : forall gs g path i, history (gs ++ [g]) path i = history gs path i ++ [gradient_of g path i].
Proof. intros. unfold history. now rewrite map_app. Qed.
Lemma history_length : forall gs path i, length (history gs path i) = length gs.
Proof. intros. unfold history. now rewrite map_length. Qed.

Section Tree.
Variables (lr b1 b2 eps : R).
Hypotheses (H1 : 0 < b1 < 1) (H2 : 0 < b2 < 1).
(** The state after the gradients gs. *)
Definition holds (gs : list gtree) (p os : ptree) : Prop :=
  exists mu nu, os = Node [] [Node [0; 1; 2]%nat [Leaf [INR (length gs)]; mu; nu]; Node [] []] /\ shape mu = shape p /\ shape nu = shape p /\
  forall path i, (forall x, entry mu path i = Some x -> x = (1 - b1) * fsum b1 (history gs path i)) /\ (forall x, entry nu path i = Some x -> x = (1 - b2) * fsum b2 (map sq (history gs path i))).
Lemma holds_init : forall p, holds [] p (o_init (adam lr b1 b2 eps) p).
Proof.
  intros p. exists (zeros_like p), (zeros_like p). split; [reflexivity|]. split; [apply zeros_shape|]. split; [apply zeros_shape|]. intros path i. cbn [history map]. split; intros x E; apply zeros_entry in E; subst x; change (fsum _ []) with 0; ring.
Qed.
Lemma moment_ok : forall (g : gtree) (m : ptree) b k (p : ptree), shape g = shape p -> shape m = shape p -> exists m', update_moment g m b k = Ok m' /\ shape m' = shape p /\
  forall path i x, entry m' path i = Some x -> exists y, entry m path i = Some y /\ x = (1 - b) * gradient_of g path i ^ k + b * y.
Proof.
  intros g m b k p SG SM. unfold update_moment. rewrite (tmap2_clean (jop (fun x y => (1 - b) * x ^ k + b * y))). destruct (@jop_entry (fun x y => (1 - b) * x ^ k + b * y) (clean g) m) as (c & E & S & V); [now rewrite clean_shape, SG, SM|].
  exists c. split; auto. rewrite clean_shape in S. split; [congruence|]. intros path i x X. destruct (@shape_entry c (clean g) path i x) as (u & U); [now rewrite clean_shape|auto|]. destruct (@shape_entry c m path i x) as (y & Y); [congruence|auto|]. exists y. split; auto. specialize (V path i u y U Y). rewrite X in V. injection V as ->. now rewrite (@clean_entry g path i u U).
Qed.
Lemma rpow : forall b n, 0 < b -> Rpower b (INR n + 1) = b ^ S n.
Proof. intros b n Hb. rewrite <- S_INR. now apply Rpower_pow. Qed.
Lemma adam_step : forall gs p os g, holds gs p os -> shape g = shape p -> exists u os', o_update (adam lr b1 b2 eps) g os p = Ok (u, os') /\ shape u = shape p /\ bare os' = bare os /\ holds (gs ++ [g]) p os' /\
  forall path i x, entry p path i = Some x -> entry u path i = Some (- lr * astep b1 b2 eps (history (gs ++ [g]) path i)).
Proof.
  intros gs p os g (mu & nu & -> & SM & SN & V) SG. cbn [adam o_update].
  destruct (@moment_ok g mu b1 1 p SG SM) as (mu' & E1 & S1 & V1). destruct (@moment_ok g nu b2 2 p SG SN) as (nu' & E2 & S2 & V2). rewrite E1. cbn [bind]. rewrite E2. cbn [bind]. cbv zeta.
  destruct (@jop_entry (fun m v => - lr * (m / (1 - Rpower b1 (INR (length gs) + 1)) / (sqrt (v / (1 - Rpower b2 (INR (length gs) + 1))) + eps))) mu' nu') as (u & E3 & S3 & V3); [congruence|]. rewrite E3. cbn [bind].
  eexists. eexists. split; [reflexivity|]. split; [congruence|]. split.
  { cbn [bare map]. assert (bare mu' = bare mu) by (apply shape_bare; congruence). assert (bare nu' = bare nu) by (apply shape_bare; congruence). congruence. }
  assert (HM : forall path i x, entry mu' path i = Some x -> x = (1 - b1) * fsum b1 (history (gs ++ [g]) path i)).
  { intros path i x X. destruct (V1 path i x X) as (y & Y & ->). apply (proj1 (V path i)) in Y. subst y. rewrite history_snoc, fsum_snoc. ring. }
  assert (HN : forall path i x, entry nu' path i = Some x -> x = (1 - b2) * fsum b2 (map sq (history (gs ++ [g]) path i))).
  { intros path i x X. destruct (V2 path i x X) as (y & Y & ->). apply (proj2 (V path i)) in Y. subst y. rewrite history_snoc, map_app. cbn [map]. rewrite fsum_snoc. unfold sq at 3. ring. }
  split.
  - exists mu', nu'. split; [rewrite app_length; cbn [length]; now rewrite plus_INR|]. split; [exact S1|]. split; [exact S2|]. auto.
  - intros path i x X. destruct (@shape_entry p mu' path i x (eq_sym S1) X) as (m & M). destruct (@shape_entry p nu' path i x (eq_sym S2) X) as (v & N). rewrite (V3 path i m v M N). f_equal. f_equal. rewrite (HM _ _ _ M), (HN _ _ _ N), !rpow by lra. unfold astep. rewrite !faded_eq, map_length, history_length, app_length. cbn [length]. rewrite Nat.add_1_r.
    pose proof (@den_ge1 b1 (length gs) ltac:(lra)) as D1. pose proof (@den_ge1 b2 (length gs) ltac:(lra)) as D2. rewrite <- !den_geo. f_equal.
    + field. lra.
    + f_equal. f_equal. field. lra.
Qed.
(** Updates. *)
Definition inv (gs : list gtree) (l : learner) : Prop := l_opt l = adam lr b1 b2 eps /\ holds gs (f_params (l_func l)) (l_ostate l).
Lemma inv_new : forall k f, inv [] (new_learner k f (adam lr b1 b2 eps)).
Proof. intros. split; [reflexivity|]. apply holds_init. Qed.
Lemma holds_shape : forall gs p q os, shape p = shape q -> holds gs p os -> holds gs q os.
Proof. intros gs p q os E (mu & nu & -> & A & B & C). exists mu, nu. split; auto. split; [congruence|]. split; [congruence|]. exact C. Qed.
Definition moved (gs : list gtree) (l l' : learner) : Prop := forall path i x, entry (f_params (l_func l)) path i = Some x -> entry (f_params (l_func l')) path i = Some (x - lr * astep b1 b2 eps (history gs path i)).
Lemma update_adam : forall (M : Type) gs l gam g fs (m : M), inv gs l -> gam (f_params (l_func l)) (f_state (l_func l)) (f_key (l_func l)) = Ok (g, fs, m) -> ~ nan_somewhere g ->
  shape g = shape (f_params (l_func l)) -> bare fs = bare (f_state (l_func l)) ->
  exists l', update gam l = (l', Ok m) /\ inv (gs ++ [g]) l' /\ l_kind l' = l_kind l /\ f_cls (l_func l') = f_cls (l_func l) /\ f_state (l_func l') = fs /\ shape (f_params (l_func l')) = shape (f_params (l_func l)) /\ moved (gs ++ [g]) l l'.
Proof.
  intros M gs l gam g fs m [O HO] E NN SG BF. destruct (@adam_step gs (f_params (l_func l)) (l_ostate l) g HO SG) as (u & os' & U & SU & BO & HO' & V). rewrite <- O in U.
  destruct (@update_ok M gam l g fs m u os' E NN U BF SU (or_intror BO)) as (p & l' & A & [P1 P2] & F). exists l'. split; auto. red in F. subst l'. unfold inv, moved. cbn [l_opt l_func f_params l_ostate f_cls f_state l_kind with_func next_key].
  split; [split; auto; now apply holds_shape with (p := f_params (l_func l))|]. split; auto. split; auto. split; auto. split; auto. intros path i x X. rewrite (P2 path i x _ X (V path i x X)). apply f_equal. unfold Rminus. apply f_equal. apply Ropp_mult_distr_l_reverse.
Qed.
(** Conversely. *)
Lemma update_adam_inv : forall (M : Type) gs l gam g fs (m : M) l', inv gs l -> gam (f_params (l_func l)) (f_state (l_func l)) (f_key (l_func l)) = Ok (g, fs, m) -> shape g = shape (f_params (l_func l)) -> update gam l = (l', Ok m) ->
  inv (gs ++ [g]) l' /\ l_kind l' = l_kind l /\ shape (f_params (l_func l')) = shape (f_params (l_func l)) /\ moved (gs ++ [g]) l l'.
Proof.
  intros M gs l gam g fs m l' I E SG U. pose proof (update_inv _ _ U) as UI. destruct UI as (_ & _ & _ & _ & _ & BS & _ & _ & UI). destruct (UI m eq_refl) as (g' & fs' & u & os & p & E' & NN & _ & _ & F). rewrite E in E'. injection E' as <- <-.
  assert (BF : bare fs = bare (f_state (l_func l))) by (red in F; subst l'; exact BS). destruct (@update_adam M gs l gam g fs m I E NN SG BF) as (l2 & U2 & I2 & K2 & _ & _ & S2 & M2). rewrite U in U2. injection U2 as <-. auto.
Qed.
Lemma trained_inv : forall k f gs l, trained (new_learner k f (adam lr b1 b2 eps)) gs l -> inv gs l /\ l_kind l = k /\ shape (f_params (l_func l)) = shape (f_params f).
Proof.
  intros k f gs l T. remember (new_learner k f (adam lr b1 b2 eps)) as l0 eqn:EL. induction T as [|M gs l gam g fs m l' T IH E SG U].
  - subst l0. split; [apply inv_new|]. auto.
  - destruct IH as (I & K & S). destruct (@update_adam_inv M gs l gam g fs m l' I E SG U) as (I' & K' & S' & _). split; auto. split; congruence.
Qed.
End Tree.
