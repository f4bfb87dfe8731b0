(** Proofs about reductions: root value, partial_reduce, batches. *)
From Coq Require Import List ZArith Lia Bool.
From Verif Require Import NatDivLia PyCommon CommonProofs SegTreeModel SegTreeSpec SegTreeProofs.
Import ListNotations.
Set Implicit Arguments.

Lemma parent_idx_eq : forall l x, parent_idx (level_off (S l)) (level_off l) (level_off (S l) + x) = level_off l + x / 2.
Proof. intros. unfold parent_idx. replace (level_off (S l) + x - level_off (S l)) with x by lia. lia. Qed.

Lemma nat_zdiv2 : forall z, (0 <= z)%Z -> Z.to_nat z / 2 = Z.to_nat (z / 2).
Proof. intros. lia. Qed.

Lemma mod_pynorm : forall c k, (0 <= pynorm c k < Z.of_nat c)%Z -> (k mod Z.of_nat c = pynorm c k)%Z.
Proof.
  intros c k H. unfold pynorm in *. destruct (Z.ltb_spec k 0).
  - rewrite <- (Z_mod_plus_full k 1), Z.mul_1_l. apply Z.mod_small. lia.
  - apply Z.mod_small. lia.
Qed.

Section Monoid.
Variable A : Type.
Variable op : A -> A -> A.
Variable init : A.
Hypothesis Hassoc : associative op.
Hypothesis Hunit : unit_of op init.
Notation get := (get init).
Notation tree_ok := (tree_ok op init).
Notation leaf := (leaf init).

Lemma unit_l : forall x, op init x = x. Proof. intros; apply Hunit. Qed.
Lemma unit_r : forall x, op x init = x. Proof. intros; apply Hunit. Qed.

Lemma fold_op : forall l x, fold_left op l x = op x (reduce op init l).
Proof.
  unfold reduce. induction l as [|y l IH]; intros x; simpl.
  - now rewrite unit_r.
  - rewrite IH, (IH (op init y)). rewrite unit_l. now rewrite Hassoc.
Qed.

Lemma reduce_app : forall l1 l2, reduce op init (l1 ++ l2) = op (reduce op init l1) (reduce op init l2).
Proof. intros. unfold reduce at 1. rewrite fold_left_app. now rewrite fold_op. Qed.

Definition red (t : tree A) (lo n : nat) : A := reduce op init (map (leaf t) (seq lo n)).

Lemma red_0 : forall t lo, red t lo 0 = init.
Proof. reflexivity. Qed.

Lemma red_1 : forall t lo, red t lo 1 = leaf t lo.
Proof. intros. unfold red, reduce. simpl. apply unit_l. Qed.

Lemma red_add : forall t lo n m, red t lo (n + m) = op (red t lo n) (red t (lo + n) m).
Proof. intros. unfold red. rewrite seq_app, map_app. apply reduce_app. Qed.

Lemma node_red : forall t, tree_ok t -> forall k l x,
  l + k = height t - 1 -> x < 2 ^ l ->
  get (arr t) (level_off l + x) = red t (x * 2 ^ k) (2 ^ k).
Proof.
  intros t Ht. pose proof Ht as [Hc [Hh [Hlen [Hnode Hpad]]]].
  induction k as [|k IH]; intros l x Hl Hx.
  - simpl. rewrite Nat.mul_1_r, red_1. unfold SegTreeProofs.leaf. replace (height t - 1) with l by lia. reflexivity.
  - assert (Hp : level_off l + x < level_off (height t - 1)).
    { rewrite <- Hl. unfold level_off. rewrite Nat.pow_add_r, pow2_S.
      pose proof (pow2_pos k). pose proof (pow2_pos l). nia. }
    rewrite (Hnode _ Hp).
    replace (2 * (level_off l + x) + 1) with (level_off (S l) + 2 * x) by (rewrite level_off_S; lia).
    replace (2 * (level_off l + x) + 2) with (level_off (S l) + (2 * x + 1)) by (rewrite level_off_S; lia).
    rewrite (IH (S l)) by (rewrite ?pow2_S; lia).
    rewrite (IH (S l)) by (rewrite ?pow2_S; lia).
    replace (2 ^ S k) with (2 ^ k + 2 ^ k) by (rewrite pow2_S; lia).
    rewrite red_add. f_equal; f_equal; nia.
Qed.

Lemma red_pad : forall t, tree_ok t -> forall n, capacity t + n <= 2 ^ (height t - 1) -> red t (capacity t) n = init.
Proof.
  intros t Ht. pose proof Ht as [Hc [Hh [Hlen [Hnode Hpad]]]].
  induction n as [|n IH]; intros Hn; auto.
  replace (S n) with (n + 1) by lia. rewrite red_add, IH by lia. rewrite red_1. rewrite unit_l.
  unfold SegTreeProofs.leaf. apply Hpad; lia.
Qed.

Lemma root_reduce : forall t, tree_ok t -> root_value init t = reduce op init (values t).
Proof.
  intros t Ht. pose proof (@node_red t Ht (height t - 1) 0 0) as H.
  unfold root_value. change 0 with (level_off 0 + 0) at 1. rewrite H by (simpl; lia).
  rewrite Nat.mul_0_l. pose proof (tree_ok_cap Ht) as Hc.
  replace (2 ^ (height t - 1)) with (capacity t + (2 ^ (height t - 1) - capacity t)) by lia.
  rewrite red_add. rewrite Nat.add_0_l. rewrite red_pad by (auto; lia). rewrite unit_r.
  unfold red. now rewrite <- (values_map Ht).
Qed.

Lemma level_lookup_spec : forall t level k, tree_ok t -> level < height t -> k < Nat.min (2 ^ level) (capacity t) ->
  exists ns, level_lookup t (Z.of_nat level) = Ok ns /\ length ns = Nat.min (2 ^ level) (capacity t) /\
  nth k ns init = red t (k * 2 ^ (height t - 1 - level)) (2 ^ (height t - 1 - level)).
Proof.
  intros t level k Ht Hl Hk. pose proof Ht as [Hc [Hh [Hlen [Hnode Hpad]]]].
  unfold level_lookup.
  assert (E : ((- Z.of_nat (height t) <=? Z.of_nat level) && (Z.of_nat level <? Z.of_nat (height t)))%Z = true).
  { apply andb_true_intro. split; [apply Z.leb_le|apply Z.ltb_lt]; lia. }
  rewrite E. eexists; split; [reflexivity|].
  rewrite Z.mod_small by lia. rewrite Nat2Z.id. split.
  - rewrite firstn_length, skipn_length, Hlen.
    assert (2 ^ S level <= 2 ^ height t) by (apply Nat.pow_le_mono_r; lia).
    rewrite pow2_S in *. unfold level_off. lia.
  - rewrite nth_firstn_lt by auto. rewrite nth_skipn_add.
    apply (@node_red t Ht); lia.
Qed.

(** * partial_reduce *)
Hypothesis Hcomm : commutative op.

Definition lane_inv (t : tree A) (n : nat) (l : lane A) (tgt : A) : Prop :=
  let w := 2 ^ (height t - 1 - n) in
  exists x y, li l = level_off n + x /\ lj l = level_off n + y /\ x <= y /\ y < 2 ^ n /\
  if ldone l then op (la l) (lb l) = tgt
  else x < y /\ op (op (la l) (red t ((x + 1) * w) ((y - x - 1) * w))) (lb l) = tgt.

Lemma forall2_map_l : forall X Y Z (P : Y -> Z -> Prop) (f : X -> Y) xs zs,
  Forall2 (fun x z => P (f x) z) xs zs -> Forall2 P (map f xs) zs.
Proof. induction 1; simpl; constructor; auto. Qed.

Lemma forall2_eq_map : forall X Y (f : X -> Y) xs ys, Forall2 (fun x y => f x = y) xs ys -> map f xs = ys.
Proof. induction 1; simpl; auto. now f_equal. Qed.

Lemma forall2_in : forall X Y (P : X -> Y -> Prop) xs ys x, Forall2 P xs ys -> In x xs -> exists y, In y ys /\ P x y.
Proof.
  induction 1; simpl; intros; [tauto|]. destruct H1 as [->|H1]; eauto. destruct (IHForall2 H1) as [y' [? ?]]. eauto.
Qed.

Definition mark (level : nat) (l : lane A) : lane A :=
  mkLane (li l) (lj l) (la l) (lb l)
    (ldone l || Nat.eqb (parent_idx (level_off (S level)) (level_off level) (li l))
                        (parent_idx (level_off (S level)) (level_off level) (lj l))).

Lemma mark_inv : forall t level l tgt, lane_inv t (S level) l tgt -> lane_inv t (S level) (mark level l) tgt.
Proof.
  intros t level l tgt (x & y & Hi & Hj & Hxy & Hy & H). exists x, y. cbn [mark li lj la lb ldone].
  split; [auto|split; [auto|split; [auto|split; [auto|]]]].
  destruct (ldone l) eqn:Ed; cbn [orb]; auto.
  rewrite Hi, Hj, !parent_idx_eq. destruct H as [Hlt H].
  destruct (Nat.eqb_spec (level_off level + x / 2) (level_off level + y / 2)) as [E|E]; auto.
  replace (y - x - 1) with 0 in H by lia. cbn [Nat.mul] in H. rewrite red_0, unit_r in H. auto.
Qed.

Lemma assoc_comm_shuffle : forall a r1 m r2 b, op (op a (op (op r1 m) r2)) b = op (op (op a r1) m) (op b r2).
Proof.
  intros. rewrite <- !Hassoc. f_equal. f_equal. f_equal. apply Hcomm.
Qed.

Definition step_lane (a : list A) (level : nat) (l : lane A) : lane A :=
  mkLane (parent_idx (level_off (S level)) (level_off level) (li l))
         (parent_idx (level_off (S level)) (level_off level) (lj l))
         (if Nat.eqb (li l mod 2) 1 && negb (ldone l) then op (la l) (get a (li l + 1)) else la l)
         (if Nat.eqb (lj l mod 2) 0 && negb (ldone l) then op (lb l) (get a (lj l - 1)) else lb l)
         (ldone l).

Lemma step_inv : forall t level l tgt, tree_ok t -> S level <= height t - 1 ->
  lane_inv t (S level) (mark level l) tgt -> lane_inv t level (step_lane (arr t) level (mark level l)) tgt.
Proof.
  intros t level l tgt Ht Hle (x & y & Hi & Hj & Hxy & Hy & H).
  set (l1 := mark level l) in *.
  exists (x / 2), (y / 2). unfold step_lane. cbn [li lj la lb ldone]. rewrite Hi, Hj, !parent_idx_eq.
  split; [auto|split; [auto|split; [lia|split; [rewrite pow2_S in Hy; lia|]]]].
  destruct (ldone l1) eqn:Ed.
  - cbn [negb]. rewrite !andb_false_r. auto.
  - cbn [negb]. rewrite !andb_true_r. destruct H as [Hlt H].
    assert (Hne : x / 2 <> y / 2).
    { unfold l1 in Ed. cbn [mark ldone] in Ed. apply orb_false_iff in Ed. destruct Ed as [_ Ed].
      apply Nat.eqb_neq in Ed. unfold l1 in Hi, Hj. cbn [mark li lj] in Hi, Hj.
      rewrite Hi, Hj, !parent_idx_eq in Ed. lia. }
    split; [lia|].
    set (w := 2 ^ (height t - 1 - S level)) in *.
    assert (Hw : 2 ^ (height t - 1 - level) = 2 * w).
    { unfold w. rewrite <- pow2_S. f_equal. lia. }
    rewrite Hw.
    set (r1 := if Nat.eqb (x mod 2) 0 then red t ((x + 1) * w) w else init).
    set (r2 := if Nat.eqb (y mod 2) 1 then red t ((y - 1) * w) w else init).
    assert (Hmid : red t ((x + 1) * w) ((y - x - 1) * w) =
       op (op r1 (red t ((x / 2 + 1) * (2 * w)) ((y / 2 - x / 2 - 1) * (2 * w)))) r2).
    { unfold r1, r2.
      assert (HXY : exists k, y / 2 = x / 2 + 1 + k) by (exists (y / 2 - x / 2 - 1); lia).
      destruct HXY as [k HXY]. rewrite HXY. replace (x / 2 + 1 + k - x / 2 - 1) with k by lia.
      destruct (Nat.eqb_spec (x mod 2) 0) as [Ex|Ex]; destruct (Nat.eqb_spec (y mod 2) 1) as [Ey|Ey].
      - assert (Hx : x = 2 * (x / 2)) by lia. assert (Hyy : y = 2 * (x / 2 + 1 + k) + 1) by lia.
        clear - Hx Hyy Hassoc Hunit. generalize dependent (x / 2). intros X -> ->.
        replace ((2 * (X + 1 + k) + 1 - 2 * X - 1) * w) with ((w + k * (2 * w)) + w).
        2:{ replace (2 * (X + 1 + k) + 1 - 2 * X - 1) with (2 * k + 2) by lia. lia. }
        rewrite !red_add. f_equal.
        + f_equal. f_equal. lia.
        + f_equal. replace (2 * (X + 1 + k) + 1 - 1) with (2 * (X + 1 + k)) by lia. lia.
      - assert (Hx : x = 2 * (x / 2)) by lia. assert (Hyy : y = 2 * (x / 2 + 1 + k)) by lia.
        clear - Hx Hyy Hassoc Hunit. generalize dependent (x / 2). intros X -> ->.
        rewrite unit_r.
        replace ((2 * (X + 1 + k) - 2 * X - 1) * w) with (w + k * (2 * w)).
        2:{ replace (2 * (X + 1 + k) - 2 * X - 1) with (2 * k + 1) by lia. lia. }
        rewrite red_add. f_equal. f_equal. lia.
      - assert (Hx : x = 2 * (x / 2) + 1) by lia. assert (Hyy : y = 2 * (x / 2 + 1 + k) + 1) by lia.
        clear - Hx Hyy Hassoc Hunit. generalize dependent (x / 2). intros X -> ->.
        rewrite unit_l.
        replace ((2 * (X + 1 + k) + 1 - (2 * X + 1) - 1) * w) with (k * (2 * w) + w).
        2:{ replace (2 * (X + 1 + k) + 1 - (2 * X + 1) - 1) with (2 * k + 1) by lia. lia. }
        rewrite red_add. f_equal.
        + f_equal. lia.
        + f_equal. replace (2 * (X + 1 + k) + 1 - 1) with (2 * (X + 1 + k)) by lia. lia.
      - assert (Hx : x = 2 * (x / 2) + 1) by lia. assert (Hyy : y = 2 * (x / 2 + 1 + k)) by lia.
        clear - Hx Hyy Hassoc Hunit. generalize dependent (x / 2). intros X -> ->.
        rewrite unit_l, unit_r.
        replace (2 * (X + 1 + k) - (2 * X + 1) - 1) with (2 * k) by lia.
        f_equal; lia. }
    rewrite Hmid, assoc_comm_shuffle in H. rewrite <- H.
    assert (Ho : level_off (S level) mod 2 = 1) by (rewrite level_off_S; lia).
    assert (Hk : S level + (height t - 1 - S level) = height t - 1) by lia.
    f_equal; [f_equal|].
    + unfold r1. destruct (Nat.eqb_spec (x mod 2) 0) as [Ex|Ex];
      destruct (Nat.eqb_spec ((level_off (S level) + x) mod 2) 1) as [E1|E1]; try lia.
      * f_equal. replace (level_off (S level) + x + 1) with (level_off (S level) + (x + 1)) by lia.
        apply (@node_red t Ht _ _ _ Hk). lia.
      * now rewrite unit_r.
    + unfold r2. destruct (Nat.eqb_spec (y mod 2) 1) as [Ey|Ey];
      destruct (Nat.eqb_spec ((level_off (S level) + y) mod 2) 0) as [E1|E1]; try lia.
      * f_equal. replace (level_off (S level) + y - 1) with (level_off (S level) + (y - 1)) by lia.
        apply (@node_red t Ht _ _ _ Hk). lia.
      * now rewrite unit_r.
Qed.

Lemma combine_map3 : forall X (f : X -> A) (g : X -> A) Y (h : X * (A * A) -> Y) (xs : list X),
  map h (combine xs (combine (map f xs) (map g xs))) = map (fun x => h (x, (f x, g x))) xs.
Proof. induction xs; simpl; auto. now f_equal. Qed.

Lemma loop_ok : forall t, tree_ok t -> forall n ls tgts,
  1 <= n -> n <= height t - 1 ->
  Forall2 (lane_inv t n) ls tgts ->
  (n < height t - 1 \/ (forall l, In l ls -> li l + 1 < length (arr t)) \/
     forallb (@ldone A) (map (mark (n - 1)) ls) = true) ->
  preduce_loop op n (level_off n) (arr t) ls = Ok tgts.
Proof.
  intros t Ht. pose proof Ht as [Hc [Hh [Hlen [Hnode Hpad]]]].
  induction n as [|level IH]; intros ls tgts Hn Hle Hls Hg; [lia|].
  cbn [preduce_loop].
  change (map _ ls) with (map (mark level) ls) at 1.
  assert (Hmark : Forall2 (lane_inv t (S level)) (map (mark level) ls) tgts).
  { apply forall2_map_l. clear - Hls Hunit. induction Hls; constructor; auto. now apply mark_inv. }
  change (map (fun l : lane A => mkLane (li l) (lj l) (la l) (lb l)
      (ldone l || (parent_idx (level_off (S level)) (level_off level) (li l)
        =? parent_idx (level_off (S level)) (level_off level) (lj l)))) ls) with (map (mark level) ls).
  set (ls1 := map (mark level) ls) in *.
  destruct (forallb (@ldone A) ls1) eqn:Edone.
  - f_equal. apply forall2_eq_map. rewrite forallb_forall in Edone.
    clear - Hmark Edone. induction Hmark; constructor.
    + destruct H as (x0 & y0 & _ & _ & _ & _ & H). rewrite (Edone x (or_introl eq_refl)) in H. auto.
    + apply IHHmark. intros; apply Edone; now right.
  - assert (Hsz : length (arr t) = 2 * 2 ^ (height t - 1) - 1).
    { rewrite Hlen. rewrite <- pow2_S. f_equal. f_equal. lia. }
    assert (Hrng : forall l, In l ls1 -> li l + 1 < length (arr t) /\ lj l - 1 < length (arr t)).
    { intros l Hin. destruct (@forall2_in _ _ _ _ _ _ Hmark Hin) as (tgt & _ & x & y & Hi & Hj & Hxy & Hy & _).
      assert (Hp : 2 ^ S level <= 2 ^ (height t - 1)) by (apply Nat.pow_le_mono_r; lia).
      pose proof (pow2_pos (S level)).
      split; [|rewrite Hj, Hsz; unfold level_off; lia].
      destruct Hg as [Hg|[Hg|Hg]].
      - assert (2 ^ S (S level) <= 2 ^ (height t - 1)) by (apply Nat.pow_le_mono_r; lia).
        rewrite pow2_S in H0. rewrite Hi, Hsz. unfold level_off. lia.
      - unfold ls1 in Hin. apply in_map_iff in Hin. destruct Hin as [l0 [<- Hin0]]. cbn [mark li]. now apply Hg.
      - replace (S level - 1) with level in Hg by lia. fold ls1 in Hg. congruence. }
    rewrite (@gather_ok _ (arr t) init).
    2:{ intros p Hp. apply in_map_iff in Hp. destruct Hp as [l [<- Hl]]. now apply Hrng. }
    cbn [bind].
    rewrite (@gather_ok _ (arr t) init).
    2:{ intros p Hp. apply in_map_iff in Hp. destruct Hp as [l [<- Hl]]. now apply Hrng. }
    cbn [bind]. rewrite !map_map.
    rewrite (@combine_map3 _ (fun l => nth (li l + 1) (arr t) init) (fun l => nth (lj l - 1) (arr t) init)).
    assert (Hlev : 1 <= level).
    { destruct level; [|lia]. exfalso. apply not_true_iff_false in Edone. apply Edone.
      apply forallb_forall. intros l Hin. destruct (@forall2_in _ _ _ _ _ _ Hmark Hin) as (tgt & _ & x & y & Hi & Hj & Hxy & Hy & _).
      unfold ls1 in Hin. apply in_map_iff in Hin. destruct Hin as [l0 [<- Hin0]].
      cbn [mark li lj] in Hi, Hj. cbn [mark ldone]. rewrite Hi, Hj, !parent_idx_eq.
      simpl in Hy. apply orb_true_iff. right. apply Nat.eqb_eq. lia. }
    apply IH; [auto|lia| |left; lia].
    change (Forall2 (lane_inv t level) (map (step_lane (arr t) level) ls1) tgts).
    unfold ls1. rewrite map_map. apply forall2_map_l.
    clear - Hls Ht Hle Hunit Hassoc Hcomm. induction Hls; constructor; auto. apply step_inv; auto. now apply mark_inv.
Qed.

(** A range is valid when the python-normalised bounds satisfy 0 <= start < stop <= capacity. *)

Definition range_reduce (t : tree A) (r : Z * Z) : A :=
  reduce op init (slice (values t) (Z.to_nat (pynorm (capacity t) (fst r))) (Z.to_nat (pynorm (capacity t) (snd r)))).

Lemma range_to_ij_spec : forall t r, tree_ok t -> valid_range (capacity t) r ->
  range_to_ij t r = (level_off (height t - 1) + Z.to_nat (pynorm (capacity t) (fst r)),
                     level_off (height t - 1) + (Z.to_nat (pynorm (capacity t) (snd r)) - 1)).
Proof.
  intros t [s e] Ht [H1 H2]. cbn [fst snd] in *. unfold range_to_ij. rewrite tree_ok_size with (1 := Ht). cbn [fst snd].
  f_equal.
  - f_equal. f_equal. apply mod_pynorm. lia.
  - f_equal. rewrite (@mod_pynorm (capacity t) (e - 1)).
    + unfold pynorm in *. destruct (Z.ltb_spec e 0); destruct (Z.ltb_spec (e - 1) 0); lia.
    + unfold pynorm in *. destruct (Z.ltb_spec e 0); destruct (Z.ltb_spec (e - 1) 0); lia.
Qed.

Lemma slice_values : forall t s e, tree_ok t -> s < e -> e <= capacity t ->
  reduce op init (slice (values t) s e) = red t s (e - s).
Proof.
  intros t s e Ht Hs He. unfold red. f_equal. rewrite values_map with (1 := Ht).
  unfold slice. rewrite skipn_map, firstn_map. f_equal.
  apply (@list_eq_nth _ 0).
  - rewrite firstn_length, skipn_length, !seq_length. lia.
  - intros i Hi. rewrite firstn_length, skipn_length, seq_length in Hi.
    rewrite nth_firstn_lt by lia. rewrite nth_skipn_add. rewrite !seq_nth by lia. lia.
Qed.

(** The batches on which the code fails: some range starts at the last leaf, the capacity is a power of two
    (so that this leaf is the last cell of the array) and some range of the batch is not finished at the
    first level. *)
Lemma batch_prep : forall t rs, tree_ok t -> (forall r, In r rs -> valid_range (capacity t) r) ->
  check_ranges t rs = Ok (map (range_to_ij t) rs).
Proof.
  intros t rs Ht Hv. unfold check_ranges.
  assert (E : forallb (fun ij => fst ij <=? snd ij) (map (range_to_ij t) rs) = true).
  { apply forallb_forall. intros ij Hin. apply in_map_iff in Hin. destruct Hin as [r [<- Hr]].
    rewrite range_to_ij_spec by auto. cbn [fst snd]. apply Nat.leb_le. destruct (Hv r Hr) as [H1 H2]. lia. }
  now rewrite E.
Qed.

Definition start_lane (t : tree A) (r : Z * Z) : lane A :=
  let ij := range_to_ij t r in
  let d := Nat.eqb (fst ij) (snd ij) in
  mkLane (fst ij) (snd ij) (get (arr t) (fst ij)) (if d then init else get (arr t) (snd ij)) d.

Lemma start_inv : forall t r, tree_ok t -> valid_range (capacity t) r ->
  lane_inv t (height t - 1) (start_lane t r) (range_reduce t r).
Proof.
  intros t r Ht Hv. pose proof (tree_ok_cap Ht) as Hcap.
  unfold start_lane. rewrite (range_to_ij_spec Ht Hv). cbn [fst snd].
  destruct Hv as [H1 H2].
  set (s := Z.to_nat (pynorm (capacity t) (fst r))) in *.
  set (e := Z.to_nat (pynorm (capacity t) (snd r))) in *.
  exists s, (e - 1). cbn [li lj la lb ldone].
  split; [auto|split; [auto|split; [lia|split; [lia|]]]].
  replace (height t - 1 - (height t - 1)) with 0 by lia. cbn [Nat.pow]. rewrite !Nat.mul_1_r.
  unfold range_reduce. fold s e.
  change (get (arr t) (level_off (height t - 1) + s)) with (leaf t s).
  change (get (arr t) (level_off (height t - 1) + (e - 1))) with (leaf t (e - 1)).
  rewrite slice_values by (auto; lia).
  destruct (Nat.eqb_spec (level_off (height t - 1) + s) (level_off (height t - 1) + (e - 1))) as [E|E].
  - rewrite unit_r. replace (e - s) with 1 by lia. now rewrite red_1.
  - split; [lia|]. replace (e - s) with (1 + (e - 1 - s - 1) + 1) by lia.
    rewrite !red_add, !red_1. f_equal. f_equal. lia.
Qed.

Lemma combine_map4 : forall X (k : X -> nat * nat) (f : X -> A) (g : X -> A) Y (h : (nat * nat) * (A * A) -> Y) (xs : list X),
  map h (combine (map k xs) (combine (map f xs) (map g xs))) = map (fun x => h (k x, (f x, g x))) xs.
Proof. induction xs; simpl; auto. now f_equal. Qed.

Lemma partial_reduce_batch_unfold : forall t rs, tree_ok t -> (forall r, In r rs -> valid_range (capacity t) r) ->
  partial_reduce_batch op init t rs =
  if forallb (fun r => Nat.eqb (fst (range_to_ij t r)) (snd (range_to_ij t r))) rs
  then Ok (map (range_reduce t) rs)
  else preduce_loop op (height t - 1) (level_off (height t - 1)) (arr t) (map (start_lane t) rs).
Proof.
  intros t rs Ht Hv. unfold partial_reduce_batch. rewrite batch_prep by auto. cbn [bind].
  assert (Hf : forallb (fun ij => fst ij =? snd ij) (map (range_to_ij t) rs) =
               forallb (fun r => fst (range_to_ij t r) =? snd (range_to_ij t r)) rs).
  { clear. induction rs; simpl; auto. now rewrite IHrs. }
  rewrite Hf.
  assert (Hrange : forall r, In r rs -> fst (range_to_ij t r) < length (arr t) /\ snd (range_to_ij t r) < length (arr t)).
  { intros r Hr. specialize (Hv r Hr). rewrite (range_to_ij_spec Ht Hv). cbn [fst snd].
    pose proof (tree_ok_cap Ht). destruct Hv as [H1 H2]. pose proof Ht as [Hc [Hh [Hlen _]]].
    rewrite Hlen. replace (2 ^ height t) with (2 * 2 ^ (height t - 1)) by (rewrite <- pow2_S; f_equal; lia).
    unfold level_off. lia. }
  destruct (forallb _ rs) eqn:E.
  - rewrite (@gather_ok _ (arr t) init).
    2:{ intros p Hp. rewrite map_map in Hp. apply in_map_iff in Hp. destruct Hp as [r [<- Hr]]. now apply Hrange. }
    f_equal. rewrite !map_map. apply map_ext_in. intros r Hr.
    pose proof (start_inv Ht (Hv r Hr)) as (x & y & _ & _ & _ & _ & H).
    rewrite forallb_forall in E. specialize (E r Hr).
    unfold start_lane in H. cbn [ldone la lb] in H. rewrite E in H. rewrite unit_r in H. exact H.
  - rewrite (@gather_ok _ (arr t) init).
    2:{ intros p Hp. rewrite map_map in Hp. apply in_map_iff in Hp. destruct Hp as [r [<- Hr]]. now apply Hrange. }
    cbn [bind]. rewrite (@gather_ok _ (arr t) init).
    2:{ intros p Hp. rewrite map_map in Hp. apply in_map_iff in Hp. destruct Hp as [r [<- Hr]]. now apply Hrange. }
    cbn [bind]. rewrite !map_map.
    rewrite (@combine_map4 _ (range_to_ij t) (fun x => nth (fst (range_to_ij t x)) (arr t) init)
                (fun x => nth (snd (range_to_ij t x)) (arr t) init)).
    reflexivity.
Qed.

Lemma height_pos_of_nontrivial : forall t r, tree_ok t -> valid_range (capacity t) r ->
  fst (range_to_ij t r) <> snd (range_to_ij t r) -> 1 <= height t - 1.
Proof.
  intros t r Ht Hv Hne. rewrite (range_to_ij_spec Ht Hv) in Hne. cbn [fst snd] in Hne. destruct Hv as [H1 H2].
  pose proof (tree_ok_cap Ht). destruct (height t - 1); [cbn in *; lia|lia].
Qed.

Lemma partial_reduce_batch_good : forall t rs, tree_ok t ->
  (forall r, In r rs -> valid_range (capacity t) r) -> ~ bad_batch (capacity t) rs ->
  partial_reduce_batch op init t rs = Ok (map (range_reduce t) rs).
Proof.
  intros t rs Ht Hv Hnb. rewrite partial_reduce_batch_unfold by auto.
  destruct (forallb _ rs) eqn:E; auto.
  assert (Hh1 : 1 <= height t - 1).
  { assert (Hex : exists r, In r rs /\ fst (range_to_ij t r) <> snd (range_to_ij t r)).
    { clear - E. induction rs as [|r rs IH]; simpl in *; [discriminate|].
      apply andb_false_iff in E. destruct E as [E|E].
      - exists r. apply Nat.eqb_neq in E. auto.
      - destruct (IH E) as [r' [? ?]]. exists r'. auto. }
    destruct Hex as [r [Hr Hne]]. eapply height_pos_of_nontrivial; eauto. }
  apply loop_ok; auto.
  - clear - Hv Ht Hunit Hassoc. induction rs; simpl; constructor.
    + apply start_inv; auto. apply Hv. now left.
    + apply IHrs. intros; apply Hv; now right.
  - right.
    pose proof Ht as [Hc [Hh [Hlen _]]]. pose proof (tree_ok_cap Ht) as Hcap.
    assert (Hsz : length (arr t) = 2 * 2 ^ (height t - 1) - 1).
    { rewrite Hlen. rewrite <- pow2_S. f_equal. f_equal. lia. }
    assert (Hlog : height t - 1 = Nat.log2_up (capacity t)) by lia.
    destruct (forallb (@ldone A) (map (mark (height t - 1 - 1)) (map (start_lane t) rs))) eqn:Ed; auto.
    left. intros l Hl. apply in_map_iff in Hl. destruct Hl as [r [<- Hr]].
    unfold start_lane. cbn [li]. pose proof (Hv r Hr) as Hvr. rewrite (range_to_ij_spec Ht Hvr). cbn [fst snd].
    destruct Hvr as [H1 H2].
    destruct (Z.eq_dec (pynorm (capacity t) (fst r)) (Z.of_nat (capacity t) - 1)) as [Elast|Elast].
    + destruct (Nat.eq_dec (capacity t) (2 ^ Nat.log2_up (capacity t))) as [Ec|Ec].
      * exfalso. apply Hnb. split; [auto|split; [exists r; auto|]].
        clear - Ed Hv Ht Hh1.
        induction rs as [|r rs IH]; cbn [map forallb] in Ed; [discriminate|].
        apply andb_false_iff in Ed. destruct Ed as [Ed|Ed].
        -- exists r. split; [now left|]. unfold start_lane in Ed. cbn [mark li lj ldone] in Ed.
           pose proof (Hv r (or_introl eq_refl)) as Hvr.
           rewrite (range_to_ij_spec Ht Hvr) in Ed. cbn [fst snd] in Ed.
           destruct Hvr as [H1 H2].
           apply orb_false_iff in Ed. destruct Ed as [_ Ed]. apply Nat.eqb_neq in Ed.
           replace (level_off (height t - 1)) with (level_off (S (height t - 1 - 1))) in Ed by (f_equal; lia).
           rewrite !parent_idx_eq in Ed. lia.
        -- destruct IH as [r' [? ?]]; auto. { intros; apply Hv; now right. } exists r'. split; [now right|auto].
      * rewrite Hsz. rewrite <- Hlog in Ec. unfold level_off. lia.
    + rewrite Hsz. unfold level_off. lia.
Qed.

Lemma partial_reduce_batch_bad : forall t rs, tree_ok t ->
  (forall r, In r rs -> valid_range (capacity t) r) -> bad_batch (capacity t) rs ->
  partial_reduce_batch op init t rs = Err EIndex.
Proof.
  intros t rs Ht Hv (Hc2 & [r1 [Hr1 Hlast]] & [r2 [Hr2 Hne]]).
  rewrite partial_reduce_batch_unfold by auto.
  pose proof Ht as [Hc [Hh [Hlen _]]]. pose proof (tree_ok_cap Ht) as Hcap.
  assert (Hsz : length (arr t) = 2 * 2 ^ (height t - 1) - 1).
  { rewrite Hlen. rewrite <- pow2_S. f_equal. f_equal. lia. }
  assert (Hlog : height t - 1 = Nat.log2_up (capacity t)) by lia.
  rewrite <- Hlog in Hc2.
  pose proof (Hv r2 Hr2) as Hvr2.
  assert (Hne' : fst (range_to_ij t r2) <> snd (range_to_ij t r2)).
  { rewrite (range_to_ij_spec Ht Hvr2). cbn [fst snd]. destruct Hvr2. lia. }
  assert (Hh1 : 1 <= height t - 1) by (eapply height_pos_of_nontrivial; eauto).
  destruct (forallb (fun r => fst (range_to_ij t r) =? snd (range_to_ij t r)) rs) eqn:E.
  { rewrite forallb_forall in E. specialize (E r2 Hr2). apply Nat.eqb_eq in E. contradiction. }
  destruct (height t - 1) as [|level] eqn:Ed; [lia|].
  cbn [preduce_loop].
  set (ls1 := map _ (map (start_lane t) rs)).
  assert (Enot : forallb (@ldone A) ls1 = false).
  { apply not_true_iff_false. intro Hall. rewrite forallb_forall in Hall.
    specialize (Hall (mark level (start_lane t r2))).
    assert (Hin : In (mark level (start_lane t r2)) ls1).
    { unfold ls1. rewrite map_map. apply in_map_iff. exists r2. split; auto. }
    specialize (Hall Hin). unfold start_lane in Hall. cbn [mark ldone li lj] in Hall.
    rewrite (range_to_ij_spec Ht Hvr2) in Hall. cbn [fst snd] in Hall. rewrite Ed in Hall.
    destruct Hvr2 as [H1 H2].
    rewrite !parent_idx_eq in Hall. apply orb_true_iff in Hall.
    destruct Hall as [Hall|Hall]; apply Nat.eqb_eq in Hall; lia. }
  rewrite Enot.
  assert (Hg : gather (arr t) (map (fun l : lane A => li l + 1) ls1) = Err EIndex).
  { eapply gather_err with (p := level_off (S level) + Z.to_nat (pynorm (capacity t) (fst r1)) + 1).
    - unfold ls1. rewrite !map_map. apply in_map_iff. exists r1. split; auto.
      unfold start_lane. cbn [li]. pose proof (Hv r1 Hr1) as Hvr1. rewrite (range_to_ij_spec Ht Hvr1). cbn [fst].
      now rewrite Ed.
    - rewrite Hsz, Hlast. unfold level_off. rewrite Hc2 at 1. lia. }
  now rewrite Hg.
Qed.

End Monoid.
