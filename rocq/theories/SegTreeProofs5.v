(** Segment trees: level lookup, rejected lengths, wrapping of range bounds, MinTree and MaxTree. *)
From Coq Require Import List ZArith Lia Bool Reals Lra.
From Verif Require Import NatDivLia PyCommon CommonProofs SegTreeModel SegTreeSpec SegTreeProofs SegTreeProofs2 SegTreeProofs3 SegTreeProofs4.
Import ListNotations.
Set Implicit Arguments.

Section Reach.
Variable A : Type.
Variable op : A -> A -> A.
Variable init : A.
Hypothesis Hunit : unit_of op init.

Notation reach c cs := (run_sets op init (tree_init init c) cs).

Lemma reach_height : forall c cs, 1 <= c -> height (reach c cs) = Nat.log2_up c + 1.
Proof. intros c cs Hc. destruct (@reach_ok A op init Hunit c cs Hc) as [Ht Hcap]. destruct Ht as [_ [Hh _]]. now rewrite Hcap in Hh. Qed.

Lemma reach_level_bad : forall c cs level, 1 <= c -> ~ pyvalid (Nat.log2_up c + 1) level -> level_lookup (reach c cs) level = Err EIndex.
Proof.
  intros c cs level Hc Hl. unfold level_lookup. rewrite reach_height by auto. unfold pyvalid in Hl.
  destruct (Z.leb_spec (- Z.of_nat (Nat.log2_up c + 1)) level); [|reflexivity].
  destruct (Z.ltb_spec level (Z.of_nat (Nat.log2_up c + 1))); [|reflexivity]. exfalso. apply Hl. lia.
Qed.

Lemma reach_level_wrap : forall c cs level, 1 <= c -> pyvalid (Nat.log2_up c + 1) level ->
  level_lookup (reach c cs) level = level_lookup (reach c cs) (pynorm (Nat.log2_up c + 1) level).
Proof.
  intros c cs level Hc [H1 H2]. unfold level_lookup. rewrite reach_height by auto. set (h := Z.of_nat (Nat.log2_up c + 1)) in *.
  assert (Hn : (0 <= pynorm (Nat.log2_up c + 1) level < h)%Z) by (unfold pynorm; fold h; destruct (Z.ltb_spec level 0); lia).
  assert (E : (level mod h = pynorm (Nat.log2_up c + 1) level mod h)%Z).
  { unfold pynorm. fold h. destruct (Z.ltb_spec level 0); auto. rewrite <- (Z_mod_plus_full level 1 h). f_equal. lia. }
  rewrite E.
  destruct (Z.leb_spec (- h) level); [|lia]. destruct (Z.ltb_spec level h); [|lia].
  destruct (Z.leb_spec (- h) (pynorm (Nat.log2_up c + 1) level)); [|lia]. destruct (Z.ltb_spec (pynorm (Nat.log2_up c + 1) level) h); [|lia].
  reflexivity.
Qed.

Lemma reach_bad_length : forall c cs idx vs, 1 <= c -> (forall k, In k idx -> pyvalid c k) -> length vs <> length idx -> length vs <> 1 ->
  set_values_eff op init (reach c cs) idx vs = (reach c cs, Some EValue).
Proof.
  intros c cs idx vs Hc Hk H1 H2. destruct (@reach_ok A op init Hunit c cs Hc) as [Ht Hcap].
  unfold set_values_eff. destruct (check_idx (reach c cs) idx) as [is_|e] eqn:E.
  - assert (L : length is_ = length idx).
    { unfold check_idx in E. destruct (forallb _ idx); [|discriminate]. injection E as <-. now rewrite map_length. }
    unfold broadcast. rewrite L. destruct (Nat.eqb_spec (length vs) (length idx)); [contradiction|].
    destruct vs as [|v [|v' vs]]; try reflexivity. exfalso. now apply H2.
  - exfalso. rewrite (check_idx_spec idx Ht) in E; [discriminate|]. rewrite Hcap. auto.
Qed.

Lemma reach_range_wrap : forall c cs s e i j, 1 <= c ->
  partial_reduce op init (reach c cs) (s + i * Z.of_nat c) (e + j * Z.of_nat c) = partial_reduce op init (reach c cs) s e.
Proof.
  intros c cs s e i j Hc. destruct (@reach_ok A op init Hunit c cs Hc) as [Ht Hcap].
  unfold partial_reduce, partial_reduce_batch, check_ranges. cbn [map]. unfold range_to_ij. cbn [fst snd].
  rewrite (tree_ok_size Ht), Hcap. replace (e + j * Z.of_nat c - 1)%Z with (e - 1 + j * Z.of_nat c)%Z by lia.
  now rewrite !Z_mod_plus_full.
Qed.
End Reach.

Ltac xcases := repeat match goal with x : xr |- _ => destruct x end; cbn in *; try tauto; try congruence; try reflexivity.

Lemma xmin_assoc : associative xmin. Proof. intros x y z. xcases. now rewrite Rmin_assoc. Qed.
Lemma xmax_assoc : associative xmax. Proof. intros x y z. xcases. now rewrite Rmax_assoc. Qed.
Lemma xmin_comm : commutative xmin. Proof. intros x y. xcases. now rewrite Rmin_comm. Qed.
Lemma xmax_comm : commutative xmax. Proof. intros x y. xcases. now rewrite Rmax_comm. Qed.
Lemma xmin_unit : unit_of xmin PosInf. Proof. intros x. xcases; auto. Qed.
Lemma xmax_unit : unit_of xmax NegInf. Proof. intros x. xcases; auto. Qed.

Section Extreme.
Variable op : xr -> xr -> xr.
Variable init : xr.
Variable le : xr -> xr -> Prop.
Hypothesis Hunit : unit_of op init.
Hypothesis Hpick : forall a b, op a b = a \/ op a b = b.
Hypothesis Hl : forall a b, le (op a b) a.
Hypothesis Hr : forall a b, le (op a b) b.
Hypothesis Htr : forall a b c, le a b -> le b c -> le a c.
Hypothesis Hrefl : forall a, le a a.

Lemma fold_extreme : forall l x, extreme le (fold_left op l x) (x :: l).
Proof.
  induction l as [|y l IH]; intros x; cbn [fold_left].
  - split; [now left|]. intros y [<-|[]]. apply Hrefl.
  - destruct (IH (op x y)) as [I1 I2]. split.
    + destruct I1 as [E|I1]; [|right; now right]. rewrite <- E. destruct (Hpick x y) as [->| ->]; [now left|right; now left].
    + intros z [<-|[<-|Hz]].
      * apply Htr with (op x y); [apply I2; now left|apply Hl].
      * apply Htr with (op x y); [apply I2; now left|apply Hr].
      * apply I2. now right.
Qed.

Lemma reduce_extreme : forall l, l <> [] -> extreme le (reduce op init l) l.
Proof.
  intros [|x l] H; [contradiction|]. unfold reduce. cbn [fold_left]. rewrite (proj1 (Hunit x)). apply fold_extreme.
Qed.
End Extreme.

Lemma min_reduce : forall l, l <> [] -> extreme xle (reduce xmin PosInf l) l.
Proof.
  apply reduce_extreme; try apply xmin_unit; intros; xcases; auto; try lra;
    try (unfold Rmin; destruct (Rle_dec _ _); auto; lra).
Qed.
Lemma max_reduce : forall l, l <> [] -> extreme xge (reduce xmax NegInf l) l.
Proof.
  apply reduce_extreme; try apply xmax_unit; intros; unfold xge in *; xcases; auto; try lra;
    try (unfold Rmax; destruct (Rle_dec _ _); auto; lra).
Qed.

Lemma values_ne : forall A (op : A -> A -> A) init c cs, unit_of op init -> 1 <= c -> values (run_sets op init (tree_init init c) cs) <> [].
Proof.
  intros A op init c cs Hu Hc E. destruct (@reach_ok A op init Hu c cs Hc) as [Ht Hcap].
  pose proof (values_length Ht) as L. rewrite E, Hcap in L. cbn in L. lia.
Qed.

Lemma range_ne : forall A (l : list A) r, valid_range (length l) r -> range_of l r <> [].
Proof.
  intros A l r [[H1 H2] H3] E. apply (f_equal (@length A)) in E. unfold range_of, slice in E.
  rewrite firstn_length, skipn_length in E. cbn in E. lia.
Qed.
