(** Proofs about parameter trees, soft updates and learners. *)
From Coq Require Import List Lia Bool Arith Reals Lra.
From Verif Require Import PyCommon CommonProofs UtilsModel UtilsSpec UtilsProofs2 UtilsProofs3 DistModel DistSpec DistProofs CoreModel CoreSpec.
Import ListNotations.
Set Implicit Arguments.
Local Open Scope R_scope.

Section Ind.
Variables (L : Type) (P : tree L -> Prop).
Hypothesis HL : forall x, P (Leaf x).
Hypothesis HN : forall k cs, Forall P cs -> P (Node k cs).
Fixpoint tree_induction (t : tree L) : P t :=
  match t with
  | Leaf x => HL x
  | Node k cs => HN k ((fix go (cs : list (tree L)) : Forall P cs := match cs with [] => Forall_nil P | c :: cs' => Forall_cons c (tree_induction c) (go cs') end) cs)
  end.
End Ind.

Lemma keys_eqb_eq : forall a b, keys_eqb a b = true <-> a = b.
Proof.
  induction a as [|x a IH]; intros [|y b]; cbn [keys_eqb]; split; try discriminate; auto.
  - intros H. apply andb_prop in H. destruct H as [H1 H2]. apply Nat.eqb_eq in H1. apply IH in H2. congruence.
  - intros H. injection H as <- <-. rewrite Nat.eqb_refl. cbn. now apply IH.
Qed.
Lemma keys_eqb_refl : forall a, keys_eqb a a = true.
Proof. intros a. now apply keys_eqb_eq. Qed.

(** The list version of the nested recursions. *)
Fixpoint structures {L M : Type} (cs : list (tree L)) (ds : list (tree M)) : bool := match cs, ds with [], [] => true | c :: cs', d :: ds' => same_structure c d && structures cs' ds' | _, _ => false end.
Lemma same_node : forall (L M : Type) k k' (cs : list (tree L)) (ds : list (tree M)), same_structure (Node k cs) (Node k' ds) = keys_eqb k k' && structures cs ds.
Proof.
  intros. cbn [same_structure]. f_equal. revert ds. induction cs as [|c cs IH]; intros [|d ds]; cbn [structures]; auto. now rewrite IH.
Qed.
Fixpoint tmaps {L M N : Type} (f : L -> M -> outcome N) (cs : list (tree L)) (ds : list (tree M)) : outcome (list (tree N)) :=
  match cs, ds with [], [] => Ok [] | c :: cs', d :: ds' => bind (tmap2 f c d) (fun e => bind (tmaps f cs' ds') (fun es => Ok (e :: es))) | _, _ => Err EValue end.
Lemma tmap2_node : forall (L M N : Type) (f : L -> M -> outcome N) k k' cs ds, tmap2 f (Node k cs) (Node k' ds) = if keys_eqb k k' then bind (tmaps f cs ds) (fun es => Ok (Node k es)) else Err EValue.
Proof.
  intros. cbn [tmap2]. destruct (keys_eqb k k'); auto. f_equal. revert ds. induction cs as [|c cs IH]; intros [|d ds]; cbn [tmaps]; auto. now rewrite IH.
Qed.

Lemma same_bare : forall (L M : Type) (a : tree L) (b : tree M), same_structure a b = true <-> bare a = bare b.
Proof.
  intros L M a. induction a as [x|k cs IH] using tree_induction; intros [y|k' ds]; try (cbn; split; [discriminate|intros E; discriminate]).
  - cbn. tauto.
  - rewrite same_node. cbn [bare].
    assert (S : structures cs ds = true <-> map bare cs = map bare ds).
    { clear k k'. revert ds. induction IH as [|c cs Hc _ IHc]; intros [|d ds]; cbn [structures map]; split; try discriminate; auto.
      - intros H. apply andb_prop in H. destruct H as [H1 H2]. apply Hc in H1. apply IHc in H2. congruence.
      - intros H. injection H as H1 H2. apply Hc in H1. apply IHc in H2. now rewrite H1, H2. }
    split.
    + intros H. apply andb_prop in H. destruct H as [H1 H2]. apply keys_eqb_eq in H1. apply S in H2. congruence.
    + intros H. injection H as H1 H2. subst. rewrite keys_eqb_refl. now apply S.
Qed.
Lemma same_refl : forall (L : Type) (a : tree L), same_structure a a = true.
Proof. intros. now apply same_bare. Qed.
Lemma shape_bare : forall (X : Type) (a b : tree (list X)), shape a = shape b -> bare a = bare b.
Proof.
  intros X a. induction a as [x|k cs IH] using tree_induction; intros [y|k' ds] E; try discriminate; auto. cbn [bare]. cbn [shape] in E. injection E as <- E. f_equal.
  revert ds E. induction IH as [|c cs Hc _ IHc]; intros [|d ds] E; try discriminate; auto. cbn [map] in *. injection E as E1 E2. f_equal; [now apply Hc|now apply IHc].
Qed.

Lemma tmap2_bare : forall (L M N : Type) (f : L -> M -> outcome N) a b c, tmap2 f a b = Ok c -> bare c = bare a /\ bare b = bare a.
Proof.
  intros L M N f a. induction a as [x|k cs IH] using tree_induction; intros [y|k' ds] c E; try discriminate.
  - cbn in E. destruct (f x y); [|discriminate]. cbn in E. injection E as <-. auto.
  - rewrite tmap2_node in E. destruct (keys_eqb k k') eqn:K; [|discriminate]. apply keys_eqb_eq in K. subst k'. destruct (tmaps f cs ds) as [es|] eqn:T; [|discriminate]. cbn in E. injection E as <-. cbn [bare].
    assert (Q : map bare es = map bare cs /\ map bare ds = map bare cs); [|destruct Q; split; congruence]. clear k.
    revert ds es T. induction IH as [|c cs Hc _ IHc]; intros [|d ds] es T; cbn [tmaps] in T; try discriminate; [injection T as <-; auto|].
    destruct (tmap2 f c d) as [e|] eqn:T1; [|discriminate]. cbn [bind] in T. destruct (tmaps f cs ds) as [es'|] eqn:T2; [|discriminate]. cbn [bind] in T. injection T as <-. apply Hc in T1. apply IHc in T2. cbn [map]. destruct T1, T2. split; congruence.
Qed.

Lemma tmap2_shape : forall (f : list R -> list R -> outcome (list R)), (forall x y, length x = length y -> exists z, f x y = Ok z /\ length z = length x) ->
  forall a b, shape a = shape b -> exists c, tmap2 f a b = Ok c /\ shape c = shape a /\ forall path x y, leaf_at a path = Some x -> leaf_at b path = Some y -> exists z, leaf_at c path = Some z /\ f x y = Ok z.
Proof.
  intros f Hf a. induction a as [x|k cs IH] using tree_induction; intros [y|k' ds] E; try discriminate.
  - injection E as E. destruct (Hf x y E) as (z & E1 & E2). exists (Leaf z). cbn [tmap2]. rewrite E1. split; [reflexivity|]. split; [cbn; now rewrite E2|]. intros [|i path] x' y' A B; try discriminate. injection A as <-. injection B as <-. exists z. auto.
  - cbn [shape] in E. injection E as <- E. rewrite tmap2_node, keys_eqb_refl.
    assert (Q : exists es, tmaps f cs ds = Ok es /\ map shape es = map shape cs /\ forall i c d, nth_error cs i = Some c -> nth_error ds i = Some d -> exists e, nth_error es i = Some e /\ forall path x y, leaf_at c path = Some x -> leaf_at d path = Some y -> exists z, leaf_at e path = Some z /\ f x y = Ok z).
    { clear k. revert ds E. induction IH as [|c cs Hc _ IHc]; intros [|d ds] E; try discriminate.
      - exists []. cbn. split; [reflexivity|]. split; [reflexivity|]. intros [|i] c d A; discriminate.
      - cbn [map] in E. injection E as E1 E2. destruct (Hc d E1) as (e & A1 & A2 & A3). destruct (IHc ds E2) as (es & B1 & B2 & B3). exists (e :: es). cbn [tmaps]. rewrite A1. cbn [bind]. rewrite B1. cbn [bind]. split; [reflexivity|]. split; [cbn [map]; congruence|].
        intros [|i] c' d' C D; cbn [nth_error] in *; [injection C as <-; injection D as <-; exists e; auto|now apply (B3 i)]. }
    destruct Q as (es & T & S & V). rewrite T. exists (Node k es). split; [reflexivity|]. split; [cbn [shape]; congruence|].
    intros [|i path] x y A B; try discriminate. cbn [leaf_at] in *. destruct (nth_error cs i) as [c|] eqn:C; [|discriminate]. destruct (nth_error ds i) as [d|] eqn:D; [|discriminate]. destruct (V i c d C D) as (e & -> & P). now apply P.
Qed.

Lemma leaf_shape : forall (X : Type) (a b : tree (list X)) path x, shape a = shape b -> leaf_at a path = Some x -> exists y, leaf_at b path = Some y /\ length y = length x.
Proof.
  intros X a. induction a as [u|k cs IH] using tree_induction; intros [v|k' ds] path x E; try discriminate.
  - destruct path; [|discriminate]. cbn. intros A. injection A as <-. injection E as E. exists v. auto.
  - destruct path as [|i path]; [discriminate|]. cbn [shape] in E. injection E as _ E. cbn [leaf_at]. revert ds E i. induction IH as [|c cs Hc _ IHc]; intros [|d ds] E i; try discriminate.
    + destruct i; discriminate.
    + cbn [map] in E. injection E as E1 E2. destruct i as [|i]; cbn [nth_error]; [now apply Hc|now apply IHc].
Qed.

Lemma jop_ok : forall h x y, length x = length y -> jop h x y = Ok (zipw h x y) /\ length (zipw h x y) = length x.
Proof. intros h x y E. unfold jop. rewrite E, Nat.eqb_refl. split; auto. revert y E. induction x as [|a x IH]; intros [|b y] E; try discriminate; auto. cbn in *. f_equal. apply IH. lia. Qed.
Lemma zipw_nth : forall h x y i a b, nth_error x i = Some a -> nth_error y i = Some b -> nth_error (zipw h x y) i = Some (h a b).
Proof. intros h x. induction x as [|u x IH]; intros [|v y] [|i] a b A B; try discriminate; cbn in *; [congruence|now apply IH]. Qed.

Lemma pointwise : forall (h : R -> R -> R) f, (forall x y, length x = length y -> exists z, f x y = Ok z /\ length z = length x /\ forall i u v, nth_error x i = Some u -> nth_error y i = Some v -> nth_error z i = Some (h u v)) ->
  forall a b, shape a = shape b -> exists c, tmap2 f a b = Ok c /\ entrywise h a b c.
Proof.
  intros h f Hf a b E. destruct (@tmap2_shape f) with (a := a) (b := b) as (c & T & S & V); auto.
  { intros x y L. destruct (Hf x y L) as (z & A & B & _). eauto. }
  exists c. split; auto. split; auto. intros path i x y. unfold entry. destruct (leaf_at a path) as [u|] eqn:A; [|discriminate]. destruct (leaf_at b path) as [v|] eqn:B; [|discriminate]. intros X Y.
  destruct (V path u v A B) as (z & C & F). rewrite C. destruct (@leaf_shape _ a b path u E A) as (v' & B' & L). rewrite B in B'. injection B' as <-. destruct (Hf u v (eq_sym L)) as (z' & F' & _ & P). rewrite F in F'. injection F' as <-. now apply P.
Qed.
Lemma soft_func_ok : forall tau a b, shape a = shape b -> exists c, soft_update_func tau a b = Ok c /\ entrywise (fun x y => (1 - tau) * x + tau * y) a b c.
Proof.
  intros tau a b E. apply pointwise; auto. intros x y L. unfold soft_leaf. destruct (@jop_ok Rplus (map (Rmult (1 - tau)) x) (map (Rmult tau) y)) as [J1 J2]; [now rewrite !map_length|].
  eexists. split; [exact J1|]. split; [rewrite J2; apply map_length|]. intros i u v U V. apply zipw_nth; now apply map_nth_error.
Qed.
Lemma add_ok : forall a b, shape a = shape b -> exists c, tmap2 (jop Rplus) a b = Ok c /\ entrywise Rplus a b c.
Proof. intros a b E. apply pointwise; auto. intros x y L. destruct (@jop_ok Rplus x y L) as [J1 J2]. eexists. split; [exact J1|]. split; auto. intros i u v U V. now apply zipw_nth. Qed.

(** * soft_update *)
Lemma soft_update_ok : forall sub f g tau, sub (f_cls g) (f_cls f) = true -> shape (f_params f) = shape (f_params g) -> shape (f_state f) = shape (f_state g) ->
  exists p s, soft_update sub f g tau = (mkFunc (f_cls f) p s (f_key f), Ok tt) /\ entrywise (fun x y => (1 - tau) * x + tau * y) (f_params f) (f_params g) p /\ entrywise (fun x y => (1 - tau) * x + tau * y) (f_state f) (f_state g) s.
Proof.
  intros sub f g tau C EP ES. unfold soft_update. rewrite C. destruct (soft_func_ok tau _ _ EP) as (p & P1 & P2). destruct (soft_func_ok tau _ _ ES) as (s & S1 & S2). exists p, s. rewrite P1. unfold set_params.
  assert (SP : same_structure p (f_params f) = true) by (apply same_bare, shape_bare, P2). rewrite SP. cbn [with_params f_state]. rewrite S1. unfold set_state. cbn [f_state with_params].
  assert (SS : same_structure s (f_state f) = true) by (apply same_bare, shape_bare, S2). rewrite SS. auto.
Qed.
Lemma soft_update_class : forall sub f g tau, sub (f_cls g) (f_cls f) = false -> soft_update sub f g tau = (f, Err EType).
Proof. intros. unfold soft_update. now rewrite H. Qed.
(** What any failing or succeeding soft update keeps. *)
Lemma set_params_keeps : forall f p f' r, set_params f p = (f', r) -> bare (f_params f') = bare (f_params f) /\ f_state f' = f_state f /\ f_cls f' = f_cls f /\ (forall e, r = Err e -> f' = f) /\ (r = Ok tt -> f' = with_params f p).
Proof.
  intros f p f' r. unfold set_params. destruct (same_structure p (f_params f)) eqn:E; intros H; injection H as <- <-.
  - apply same_bare in E. repeat split; auto. intros e; discriminate.
  - repeat split; auto. discriminate.
Qed.
Lemma set_state_keeps : forall f p f' r, set_state f p = (f', r) -> bare (f_state f') = bare (f_state f) /\ f_params f' = f_params f /\ f_cls f' = f_cls f /\ (forall e, r = Err e -> f' = f) /\ (r = Ok tt -> f' = with_state f p).
Proof.
  intros f p f' r. unfold set_state. destruct (same_structure p (f_state f)) eqn:E; intros H; injection H as <- <-.
  - apply same_bare in E. repeat split; auto. intros e; discriminate.
  - repeat split; auto. discriminate.
Qed.
Lemma soft_keeps : forall sub f g tau f' r, soft_update sub f g tau = (f', r) -> bare (f_params f') = bare (f_params f) /\ bare (f_state f') = bare (f_state f) /\ f_cls f' = f_cls f.
Proof.
  intros sub f g tau f' r. unfold soft_update. destruct (sub _ _); [|intros H; injection H as <- <-; auto]. destruct (soft_update_func tau (f_params f) (f_params g)) as [p|]; [|intros H; injection H as <- <-; auto].
  destruct (set_params f p) as [f1 [[]|]] eqn:E; apply set_params_keeps in E; destruct E as (A & B & C & _); [|intros H; injection H as <- <-; rewrite B; auto].
  destruct (soft_update_func tau (f_state f1) (f_state g)) as [s|]; [|intros H; injection H as <- <-; rewrite B; auto].
  intros H. apply set_state_keeps in H. destruct H as (D & F & G & _). rewrite F, D, B, G. auto.
Qed.

(** Repeated soft updates. *)
Lemma smoothed_cons : forall tau x0 x xs, smoothed tau x0 (x :: xs) = smoothed tau ((1 - tau) * x0 + tau * x) xs.
Proof.
  intros tau x0 x xs. unfold smoothed. cbn [length]. replace (seq 0 (S (length xs))) with (0%nat :: map S (seq 0 (length xs))) by (cbn [seq]; now rewrite seq_shift). cbn [map nth]. rewrite total_cons, map_map.
  replace (S (length xs) - 1 - 0)%nat with (length xs) by lia.
  replace (map (fun i => (1 - tau) ^ (S (length xs) - 1 - S i) * nth i xs 0) (seq 0 (length xs))) with (map (fun i => (1 - tau) ^ (length xs - 1 - i) * nth i xs 0) (seq 0 (length xs))).
  - cbn [pow]. ring.
  - apply map_ext. intros i. do 2 f_equal. lia.
Qed.
Lemma entrywise_entry : forall h a c b path i x, entrywise h a c b -> shape c = shape a -> entry a path i = Some x -> exists y, entry c path i = Some y /\ entry b path i = Some (h x y).
Proof.
  intros h a c b path i x [S E] SC A. unfold entry in *. destruct (leaf_at a path) as [u|] eqn:LA; [|discriminate]. destruct (@leaf_shape _ a c path u (eq_sym SC) LA) as (v & LC & L). assert (I : (i < length v)%nat) by (rewrite L; apply nth_error_Some; congruence). destruct (nth_error v i) as [y|] eqn:Y; [|apply nth_error_None in Y; lia].
  exists y. rewrite LC. split; auto. specialize (E path i x y). rewrite LA, LC in E. now apply E.
Qed.
Lemma soft_updates_ema : forall sub tau gs f, (forall g, In g gs -> sub (f_cls g) (f_cls f) = true /\ shape (f_params g) = shape (f_params f) /\ shape (f_state g) = shape (f_state f)) ->
  exists f', soft_updates sub tau f gs = (f', Ok tt) /\ f_cls f' = f_cls f /\ shape (f_params f') = shape (f_params f) /\ shape (f_state f') = shape (f_state f) /\
    (forall path i x, entry (f_params f) path i = Some x -> exists ys, length ys = length gs /\ (forall k g, nth_error gs k = Some g -> entry (f_params g) path i = nth_error ys k) /\ entry (f_params f') path i = Some (smoothed tau x ys)) /\
    (forall path i x, entry (f_state f) path i = Some x -> exists ys, length ys = length gs /\ (forall k g, nth_error gs k = Some g -> entry (f_state g) path i = nth_error ys k) /\ entry (f_state f') path i = Some (smoothed tau x ys)).
Proof.
  intros sub tau gs. induction gs as [|g gs IH]; intros f H.
  - exists f. cbn. split; auto. split; auto. split; auto. split; auto. assert (S0 : forall x, smoothed tau x [] = x) by (intros x; unfold smoothed; cbn; lra). split; intros path i x A; exists []; (split; [auto|]; split; [intros [|k] g; discriminate|now rewrite S0]).
  - destruct (H g (or_introl eq_refl)) as (C & SP & SS). destruct (@soft_update_ok sub f g tau C) as (p & s & E & EP & ES); [now symmetry|now symmetry|]. set (f1 := mkFunc (f_cls f) p s (f_key f)) in *. cbn [soft_updates]. rewrite E.
    destruct (IH f1) as (f' & E' & C' & P' & S' & VP & VS).
    { intros g' I. destruct (H g' (or_intror I)) as (A1 & A2 & A3). split; auto. cbn [f_params f_state f1]. destruct EP as [-> _], ES as [-> _]. auto. }
    exists f'. split; auto. split; [auto|]. destruct EP as [EPs EPe], ES as [ESs ESe]. split; [rewrite P'; exact EPs|]. split; [rewrite S'; exact ESs|]. split; intros path i x A.
    + destruct (@entrywise_entry _ _ _ p path i x (conj EPs EPe) SP A) as (y & Y1 & Y2). destruct (VP path i _ Y2) as (ys & L & G & R). exists (y :: ys). split; [cbn; now rewrite L|]. split; [intros [|k] g' N; cbn in *; [injection N as <-; auto|now apply G]|]. now rewrite smoothed_cons.
    + destruct (@entrywise_entry _ _ _ s path i x (conj ESs ESe) SS A) as (y & Y1 & Y2). destruct (VS path i _ Y2) as (ys & L & G & R). exists (y :: ys). split; [cbn; now rewrite L|]. split; [intros [|k] g' N; cbn in *; [injection N as <-; auto|now apply G]|]. now rewrite smoothed_cons.
Qed.
(** A fixed target. *)
Lemma smoothed_const : forall tau x y k, smoothed tau x (repeat y k) - y = (1 - tau) ^ k * (x - y).
Proof.
  intros tau x y k. revert x. induction k as [|k IH]; intros x; [unfold smoothed; cbn; lra|]. cbn [repeat]. rewrite smoothed_cons, IH. cbn [pow]. ring.
Qed.

(** * The heap *)
Lemma upd_other : forall (A : Type) (l : list A) i k x, i <> k -> nth_error (upd l i x) k = nth_error l k.
Proof. intros A l. induction l as [|a l IH]; intros [|i] [|k] x N; cbn; auto; try congruence. Qed.
Lemma upd_len : forall (A : Type) (l : list A) i x, length (upd l i x) = length l.
Proof. intros A l. induction l as [|a l IH]; intros [|i] x; cbn; auto. Qed.
Lemma on_obj_other : forall h i g k, i <> k -> nth_error (fst (on_obj h i g)) k = nth_error h k.
Proof. intros h i g k N. unfold on_obj. destruct (nth_error h i) as [f|]; auto. destruct (g f) as [f' r]. cbn. now apply upd_other. Qed.
Lemma on_obj_len : forall h i g, length (fst (on_obj h i g)) = length h.
Proof. intros h i g. unfold on_obj. destruct (nth_error h i) as [f|]; auto. destruct (g f) as [f' r]. cbn. apply upd_len. Qed.
Lemma hstep_frame : forall sub h o k f, nth_error h k = Some f -> target o <> Some k -> nth_error (fst (hstep sub h o)) k = Some f.
Proof.
  intros sub h o k f H T. assert (K : (k < length h)%nat) by (apply nth_error_Some; congruence). destruct o as [i|i j tau|i p|i s|i]; cbn [hstep target] in *.
  - destruct (nth_error h i); [|auto]. cbn [fst]. now rewrite nth_error_app1.
  - destruct (nth_error h j); [|auto]. rewrite on_obj_other; [auto|congruence].
  - rewrite on_obj_other; [auto|congruence].
  - rewrite on_obj_other; [auto|congruence].
  - rewrite on_obj_other; [auto|congruence].
Qed.
Lemma hrun_frame : forall sub os h k f, nth_error h k = Some f -> (forall o, In o os -> target o <> Some k) -> nth_error (hrun sub h os) k = Some f.
Proof. intros sub os. induction os as [|o os IH]; intros h k f H T; [exact H|]. cbn [hrun fold_left]. apply IH; [apply hstep_frame; auto; apply T; now left|]. intros o' I. apply T. now right. Qed.
(** Structure is kept whatever happens. *)
Definition same_kind (f f' : func) : Prop := f_cls f' = f_cls f /\ bare (f_params f') = bare (f_params f) /\ bare (f_state f') = bare (f_state f).
Lemma on_obj_kind : forall h i g k f, (forall f f' r, g f = (f', r) -> same_kind f f') -> nth_error h k = Some f -> exists f', nth_error (fst (on_obj h i g)) k = Some f' /\ same_kind f f'.
Proof.
  intros h i g k f G H. destruct (Nat.eq_dec i k) as [->|N]; [|exists f; rewrite on_obj_other by auto; split; auto; split; auto].
  unfold on_obj. rewrite H. destruct (g f) as [f' r] eqn:E. cbn [fst]. exists f'. split; [|now apply (G f f' r)]. clear - H. revert k H. induction h as [|a h IH]; intros [|k] H; try discriminate; cbn in *; [reflexivity|now apply IH].
Qed.
Lemma hstep_kind : forall sub h o k f, nth_error h k = Some f -> exists f', nth_error (fst (hstep sub h o)) k = Some f' /\ same_kind f f'.
Proof.
  intros sub h o k f H. assert (RF : same_kind f f) by (split; auto). assert (K : (k < length h)%nat) by (apply nth_error_Some; congruence). destruct o as [i|i j tau|i p|i s|i]; cbn [hstep].
  - exists f. split; auto. destruct (nth_error h i); auto. cbn [fst]. now rewrite nth_error_app1.
  - destruct (nth_error h j) as [g|]; [|eauto]. apply on_obj_kind; auto. intros f0 f' r E. apply soft_keeps in E. unfold same_kind. tauto.
  - apply on_obj_kind; auto. intros f0 f' r E. apply set_params_keeps in E. destruct E as (A & B & C & _). unfold same_kind. now rewrite B.
  - apply on_obj_kind; auto. intros f0 f' r E. apply set_state_keeps in E. destruct E as (A & B & C & _). unfold same_kind. now rewrite B.
  - apply on_obj_kind; auto. intros f0 f' r E. injection E as <- _. split; auto.
Qed.
Lemma hrun_kind : forall sub os h k f, nth_error h k = Some f -> exists f', nth_error (hrun sub h os) k = Some f' /\ same_kind f f'.
Proof.
  intros sub os. induction os as [|o os IH]; intros h k f H; [exists f; split; auto; split; auto|]. cbn [hrun fold_left]. destruct (hstep_kind sub h o k H) as (f1 & H1 & A1 & A2 & A3). destruct (IH _ k f1 H1) as (f2 & H2 & B1 & B2 & B3). exists f2. split; auto. unfold same_kind. split; [|split]; congruence.
Qed.
Lemma all_equal_repeat : forall (A : Type) (y : A) k ys, length ys = k -> (forall j, (j < k)%nat -> nth_error ys j = Some y) -> ys = repeat y k.
Proof.
  intros A y k. induction k as [|k IH]; intros [|a ys] L H; try discriminate; auto. cbn [repeat]. pose proof (H 0%nat ltac:(lia)) as E. cbn in E. injection E as ->. f_equal. apply IH; [cbn in L; lia|]. intros j J. apply (H (S j)). lia.
Qed.
Lemma nth_repeat_some : forall (A : Type) (y : A) k j, (j < k)%nat -> nth_error (repeat y k) j = Some y.
Proof. intros A y k. induction k as [|k IH]; intros [|j] J; try lia; cbn; auto. apply IH. lia. Qed.
