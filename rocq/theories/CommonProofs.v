(** Lemmas about the array primitives of PyCommon.v. *)
From Coq Require Import List ZArith Lia Bool Sorting.Sorted.
From Verif Require Import PyCommon.
Import ListNotations.
Set Implicit Arguments.

Lemma upd_length : forall A (l : list A) i x, length (upd l i x) = length l.
Proof. induction l as [|y r IH]; intros [|i] x; simpl; auto. Qed.

Lemma nth_upd_same : forall A (l : list A) i x d, i < length l -> nth i (upd l i x) d = x.
Proof. induction l as [|y r IH]; intros [|i] x d H; simpl in *; try lia; auto. apply IH; lia. Qed.

Lemma nth_upd_other : forall A (l : list A) i j x d, i <> j -> nth j (upd l i x) d = nth j l d.
Proof.
  induction l as [|y r IH]; intros [|i] [|j] x d H; simpl; auto; try lia.
Qed.

Lemma nth_upd : forall A (l : list A) i j x d, i < length l ->
  nth j (upd l i x) d = if Nat.eqb i j then x else nth j l d.
Proof.
  intros. destruct (Nat.eqb_spec i j).
  - subst. now apply nth_upd_same.
  - now apply nth_upd_other.
Qed.

Lemma nth_error_upd : forall A (l : list A) i j x,
  nth_error (upd l i x) j = if Nat.eqb i j then (if Nat.ltb i (length l) then Some x else None) else nth_error l j.
Proof.
  induction l as [|y r IH]; intros [|i] [|j] x; simpl; auto.
  - destruct (Nat.eqb i j); auto.
  - rewrite IH. destruct (Nat.eqb_spec i j); auto.
Qed.

Lemma scatter_length : forall A ps (arr : list A) vs, length (scatter arr ps vs) = length arr.
Proof. induction ps as [|p ps IH]; intros arr [|v vs]; simpl; auto. rewrite IH. apply upd_length. Qed.

Lemma nth_scatter_notin : forall A ps (arr : list A) vs j d, ~ In j ps ->
  nth j (scatter arr ps vs) d = nth j arr d.
Proof.
  induction ps as [|p ps IH]; intros arr [|v vs] j d H; simpl; auto.
  rewrite IH by (intro; apply H; now right). apply nth_upd_other. intro; apply H; now left.
Qed.

(** In a scatter with distinct targets computed by a function, each target gets its own value. *)
Lemma nth_scatter_map : forall A (f : nat -> nat) (g : nat -> A) ks arr k d,
  (forall x y, f x = f y -> x = y) -> NoDup ks -> In k ks -> f k < length arr ->
  nth (f k) (scatter arr (map f ks) (map g ks)) d = g k.
Proof.
  induction ks as [|k0 ks IH]; intros arr k d Hinj Hnd Hin Hlt; simpl in *; [tauto|].
  inversion Hnd as [|? ? Hn0 Hnd']; subst.
  destruct Hin as [->|Hin].
  - rewrite nth_scatter_notin.
    + now apply nth_upd_same.
    + intros Hin. apply in_map_iff in Hin. destruct Hin as [y [Hy Hiny]].
      apply Hinj in Hy. subst. contradiction.
  - apply IH; auto. now rewrite upd_length.
Qed.

Lemma gather_ok : forall A (arr : list A) d ps, (forall p, In p ps -> p < length arr) ->
  gather arr ps = Ok (map (fun p => nth p arr d) ps).
Proof.
  induction ps as [|p ps IH]; intros H; simpl; auto.
  rewrite IH by (intros; apply H; now right).
  rewrite (nth_error_nth' arr d) by (apply H; now left). reflexivity.
Qed.

Lemma gather_err : forall A (arr : list A) ps p, In p ps -> length arr <= p -> gather arr ps = Err EIndex.
Proof.
  induction ps as [|q ps IH]; intros p Hin Hle; simpl in *; [tauto|].
  destruct Hin as [->|Hin].
  - apply nth_error_None in Hle. now rewrite Hle.
  - rewrite (IH p) by auto. now destruct (nth_error arr q).
Qed.

Lemma in_uinsert : forall x l y, In y (uinsert x l) <-> y = x \/ In y l.
Proof.
  induction l as [|z r IH]; intros y; simpl.
  - intuition.
  - destruct (Nat.ltb_spec x z); simpl; [intuition|].
    destruct (Nat.eqb_spec x z); simpl.
    + subst. intuition.
    + rewrite IH. intuition.
Qed.

Lemma in_unique : forall l y, In y (unique l) <-> In y l.
Proof.
  induction l as [|x r IH]; intros y; simpl; [tauto|].
  unfold unique in *. simpl. rewrite in_uinsert, IH. intuition.
Qed.

Lemma uinsert_sorted : forall x l, StronglySorted lt l -> StronglySorted lt (uinsert x l).
Proof.
  induction l as [|z r IH]; intros H; simpl.
  - constructor; constructor.
  - inversion H as [|? ? Hr Hall]; subst.
    destruct (Nat.ltb_spec x z).
    + constructor; auto. constructor; auto. eapply Forall_impl; [|apply Hall]. simpl. lia.
    + destruct (Nat.eqb_spec x z); auto.
      constructor; auto. apply Forall_forall. intros y Hy. apply in_uinsert in Hy.
      destruct Hy as [->|Hy]; [lia|]. rewrite Forall_forall in Hall. now apply Hall.
Qed.

Lemma unique_sorted : forall l, StronglySorted lt (unique l).
Proof. induction l; simpl; [constructor|]. now apply uinsert_sorted. Qed.

Lemma sorted_nodup : forall l, StronglySorted lt l -> NoDup l.
Proof.
  induction 1 as [|x l Hs IH Hall]; constructor; auto.
  intro Hin. rewrite Forall_forall in Hall. specialize (Hall x Hin). lia.
Qed.

Lemma unique_nodup : forall l, NoDup (unique l).
Proof. intros. apply sorted_nodup, unique_sorted. Qed.

Lemma nth_firstn_lt : forall A n (l : list A) i d, i < n -> nth i (firstn n l) d = nth i l d.
Proof.
  induction n as [|n IH]; intros [|x l] [|i] d H; simpl; auto; try lia. apply IH. lia.
Qed.

Lemma nth_skipn_add : forall A k (l : list A) i d, nth i (skipn k l) d = nth (k + i) l d.
Proof.
  induction k as [|k IH]; intros [|x l] i d; simpl; auto. now destruct i.
Qed.

Lemma list_eq_nth : forall A (d : A) l1 l2, length l1 = length l2 ->
  (forall i, i < length l1 -> nth i l1 d = nth i l2 d) -> l1 = l2.
Proof. intros. now apply (nth_ext l1 l2 d d). Qed.

Lemma nth_map_seq : forall A (f : nat -> A) n lo i d, i < n -> nth i (map f (seq lo n)) d = f (lo + i).
Proof.
  intros. rewrite (nth_indep _ d (f 0)) by (rewrite map_length, seq_length; lia).
  rewrite map_nth. now rewrite seq_nth.
Qed.
