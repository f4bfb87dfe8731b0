(** Properties C01-C06: segment trees (coax/utils/_segment_tree.py).
    A tree is reachable when it results from the constructor and any history of set_values calls. *)
From Coq Require Import List ZArith Lia Bool Reals Lra.
From Verif Require Import PyCommon SegTreeModel SegTreeSpec SegTreeProofs SegTreeProofs3 SegTreeProofs4 SegTreeProofs5.
Import ListNotations.

(** C01: the leaves are those of a plain array under the same history. *)
Theorem C01_values_follow_history : forall A (op : A -> A -> A) init c cs, unit_of op init -> 1 <= c ->
  (exists f, array_after c init cs f) /\
  forall f, array_after c init cs f -> values (run_sets op init (tree_init init c) cs) = map f (seq 0 c).
Proof.
  exact (fun A op init c cs Hu Hc =>
    conj (match reach_values Hu cs Hc with ex_intro _ f (conj H _) => ex_intro _ f H end)
         (fun f Hf => reach_values_all Hu Hc Hf)).
Qed.
Print Assumptions C01_values_follow_history.

(** C01: root_value is the reduction of all values. *)
Theorem C01_root_is_reduction : forall A (op : A -> A -> A) init c cs,
  associative op -> unit_of op init -> 1 <= c ->
  let t := run_sets op init (tree_init init c) cs in
  root_value init t = reduce op init (values t).
Proof. exact (fun A op init c cs Ha Hu Hc => reach_root Ha Hu cs Hc). Qed.
Print Assumptions C01_root_is_reduction.

(** C01: node k of level l is the reduction of its own block of leaves. *)
Theorem C01_nodes_are_reductions : forall A (op : A -> A -> A) init c cs level k,
  associative op -> unit_of op init -> 1 <= c -> level <= Nat.log2_up c -> k < Nat.min (2 ^ level) c ->
  let t := run_sets op init (tree_init init c) cs in
  let w := 2 ^ (Nat.log2_up c - level) in
  exists ns, level_lookup t (Z.of_nat level) = Ok ns /\ length ns = Nat.min (2 ^ level) c /\
    nth_error ns k = Some (reduce op init (slice (values t) (k * w) ((k + 1) * w))).
Proof. exact (fun A op init c cs level k Ha Hu Hc Hl Hk => reach_nodes Ha Hu cs Hc Hl Hk). Qed.
Print Assumptions C01_nodes_are_reductions.

(** C01: levels are addressed like the entries of a list of length height; all others are refused. *)
Theorem C01_level_indices : forall A (op : A -> A -> A) init c cs level, unit_of op init -> 1 <= c ->
  let t := run_sets op init (tree_init init c) cs in let h := Nat.log2_up c + 1 in
  (pyvalid h level -> level_lookup t level = level_lookup t (pynorm h level)) /\
  (~ pyvalid h level -> level_lookup t level = Err EIndex).
Proof. exact (fun A op init c cs level Hu Hc => conj (fun H => reach_level_wrap Hu cs Hc H) (fun H => reach_level_bad Hu cs Hc H)). Qed.
Print Assumptions C01_level_indices.

Definition ex_history : list (list Z * list nat) := [([0; 2; -1; 2]%Z, [7; 1; 5; 3]); ([9]%Z, [1]); ([1; 3]%Z, [4])].

Example C01_example :
  let t := run_sets Nat.add 0 (tree_init 0 5) ex_history in
  values t = [7; 4; 3; 4; 5] /\ root_value 0 t = 23 /\ level_lookup t 1 = Ok [18; 5] /\
  associative Nat.add /\ unit_of Nat.add 0 /\ 1 <= 5 /\ 1 <= Nat.log2_up 5.
Proof.
  repeat split; try reflexivity; try (vm_compute; lia); try (intros x; lia); try (intros x y z; lia); try lia.
Qed.

Example C01_level_example : let t := run_sets Nat.add 0 (tree_init 0 5) ex_history in
  pyvalid (Nat.log2_up 5 + 1) (-3) /\ level_lookup t (-3) = Ok [18; 5] /\ ~ pyvalid (Nat.log2_up 5 + 1) 4.
Proof. unfold pyvalid. repeat split; try reflexivity; vm_compute; congruence || (intros [_ H]; discriminate). Qed.

(** C01: the root of a MinTree is the least of its values, the root of a MaxTree the greatest. *)
Theorem C01_min_max_root : forall c cs, 1 <= c ->
  (let t := mintree_run (mintree_init c) cs in extreme xle (mintree_root t) (values t)) /\
  (let t := maxtree_run (maxtree_init c) cs in extreme xge (maxtree_root t) (values t)).
Proof.
  intros c cs Hc. split.
  - unfold mintree_root, mintree_run, mintree_init. rewrite (C01_root_is_reduction _ xmin PosInf c cs xmin_assoc xmin_unit Hc).
    apply min_reduce. apply (values_ne cs xmin_unit Hc).
  - unfold maxtree_root, maxtree_run, maxtree_init. rewrite (C01_root_is_reduction _ xmax NegInf c cs xmax_assoc xmax_unit Hc).
    apply max_reduce. apply (values_ne cs xmax_unit Hc).
Qed.
Print Assumptions C01_min_max_root.

Example C01_min_max_example : 1 <= 3 /\
  values (mintree_run (mintree_init 3) [([0; 1; 2]%Z, [Fin 4; Fin 2; Fin 3])]) = [Fin 4; Fin 2; Fin 3] /\
  values (maxtree_run (maxtree_init 3) [([1]%Z, [Fin 2])]) = [NegInf; Fin 2; NegInf].
Proof. repeat split; auto. Qed.

(** C02: one range; negative bounds count from the end. *)
Theorem C02_partial_reduce_commutative : forall A (op : A -> A -> A) init c cs s e,
  associative op -> unit_of op init -> commutative op -> 1 <= c -> valid_range c (s, e) ->
  let t := run_sets op init (tree_init init c) cs in
  partial_reduce op init t s e = Ok [reduce op init (range_of (values t) (s, e))].
Proof. exact (fun A op init c cs s e Ha Hu Hco Hc Hv => reach_partial_reduce Ha Hu Hco cs Hc Hv). Qed.
Print Assumptions C02_partial_reduce_commutative.

Example C02_example :
  let t := run_sets Nat.add 0 (tree_init 0 5) ex_history in
  valid_range 5 (1%Z, (-1)%Z) /\ partial_reduce Nat.add 0 t 1 (-1) = Ok [11] /\
  range_of (values t) (1%Z, (-1)%Z) = [4; 3; 4].
Proof. repeat split; try reflexivity; vm_compute; discriminate. Qed.

(** C02: for MinTree and MaxTree the result is the least, or greatest, value of the range. *)
Theorem C02_min_max_range : forall c cs s e, 1 <= c -> valid_range c (s, e) ->
  (let t := mintree_run (mintree_init c) cs in exists m, mintree_reduce t s e = Ok [m] /\ extreme xle m (range_of (values t) (s, e))) /\
  (let t := maxtree_run (maxtree_init c) cs in exists m, maxtree_reduce t s e = Ok [m] /\ extreme xge m (range_of (values t) (s, e))).
Proof.
  intros c cs s e Hc Hv. split; cbv zeta; eexists.
  - split; [exact (C02_partial_reduce_commutative _ xmin PosInf c cs s e xmin_assoc xmin_unit xmin_comm Hc Hv)|].
    apply min_reduce, range_ne. unfold mintree_run, mintree_init. destruct (@reach_ok _ xmin PosInf xmin_unit c cs Hc) as [Ht Hcap].
    now rewrite (values_length Ht), Hcap.
  - split; [exact (C02_partial_reduce_commutative _ xmax NegInf c cs s e xmax_assoc xmax_unit xmax_comm Hc Hv)|].
    apply max_reduce, range_ne. unfold maxtree_run, maxtree_init. destruct (@reach_ok _ xmax NegInf xmax_unit c cs Hc) as [Ht Hcap].
    now rewrite (values_length Ht), Hcap.
Qed.
Print Assumptions C02_min_max_range.

Example C02_min_max_example : valid_range 3 (1%Z, 3%Z) /\
  range_of (values (mintree_run (mintree_init 3) [([0; 1; 2]%Z, [Fin 4; Fin 2; Fin 3])])) (1%Z, 3%Z) = [Fin 2; Fin 3].
Proof. repeat split; vm_compute; congruence. Qed.

(** C02: bounds outside the array are not refused, they are taken modulo the capacity: [2 + c : 4 + c] reads [2 : 4]. *)
Theorem C02_bounds_wrap : forall A (op : A -> A -> A) init c cs s e i j, unit_of op init -> 1 <= c ->
  let t := run_sets op init (tree_init init c) cs in
  partial_reduce op init t (s + i * Z.of_nat c) (e + j * Z.of_nat c) = partial_reduce op init t s e.
Proof. exact (fun A op init c cs s e i j Hu Hc => reach_range_wrap Hu cs s e i j Hc). Qed.
Print Assumptions C02_bounds_wrap.

Example C02_bounds_wrap_example : let t := run_sets Nat.add 0 (tree_init 0 5) ex_history in
  ~ valid_range 5 (7, 9)%Z /\ partial_reduce Nat.add 0 t 7 9 = Ok [7] /\ range_of (values t) (2, 4)%Z = [3; 4].
Proof. split; [intros [_ H]; vm_compute in H; congruence|]. split; reflexivity. Qed.

(** C02: the documentation does not ask for a commutative reducer; without it the claim is false. *)
Definition first_nonzero (a b : nat) : nat := if Nat.eqb a 0 then b else a.

Theorem C02_partial_reduce_refuted : exists (op : nat -> nat -> nat) init c cs s e,
  associative op /\ unit_of op init /\ 1 <= c /\ valid_range c (s, e) /\
  let t := run_sets op init (tree_init init c) cs in
  partial_reduce op init t s e <> Ok [reduce op init (range_of (values t) (s, e))].
Proof.
  exists first_nonzero, 0, 4, [([0; 1; 2; 3]%Z, [0; 0; 1; 2])], 0%Z, 4%Z.
  split. { intros x y z. unfold first_nonzero. destruct (Nat.eqb x 0) eqn:E; auto. now rewrite E. }
  split. { intros x. unfold first_nonzero. split; auto. destruct (Nat.eqb x 0) eqn:E; auto. now apply Nat.eqb_eq in E. }
  split; [lia|]. split; [split; [split|]; vm_compute; congruence|].
  vm_compute. discriminate.
Qed.
Print Assumptions C02_partial_reduce_refuted.

(** C02, boundary: stop = 0 means the end of the array, so the empty prefix [0:0] reduces everything;
    any other empty range is rejected. *)
Theorem C02_stop_zero_means_end : forall A (op : A -> A -> A) init c cs s, unit_of op init -> 1 <= c ->
  let t := run_sets op init (tree_init init c) cs in
  partial_reduce op init t s 0 = partial_reduce op init t s (Z.of_nat c).
Proof. exact (fun A op init c cs s Hu Hc => reach_stop_zero Hu cs s Hc). Qed.
Print Assumptions C02_stop_zero_means_end.

Theorem C02_empty_range_rejected : forall A (op : A -> A -> A) init c cs s, unit_of op init -> 1 <= c ->
  (1 <= s < Z.of_nat c)%Z -> partial_reduce op init (run_sets op init (tree_init init c) cs) s s = Err EIndex.
Proof. exact (fun A op init c cs s Hu Hc Hs => reach_empty_range Hu cs Hc Hs). Qed.
Print Assumptions C02_empty_range_rejected.

Example C02_boundary_example :
  let t := run_sets Nat.add 0 (tree_init 0 5) ex_history in
  partial_reduce Nat.add 0 t 0 0 = Ok [23] /\ partial_reduce Nat.add 0 t 2 2 = Err EIndex /\ (1 <= 2 < Z.of_nat 5)%Z.
Proof. repeat split; try reflexivity; lia. Qed.

(** C03: batches of valid ranges: exactly the batches described by [bad_batch] fail, all others are computed
    entry by entry. *)
Theorem C03_batched_partial_reduce_characterised : forall A (op : A -> A -> A) init c cs rs,
  associative op -> unit_of op init -> commutative op -> 1 <= c -> (forall r, In r rs -> valid_range c r) ->
  let t := run_sets op init (tree_init init c) cs in
  (~ bad_batch c rs -> partial_reduce_batch op init t rs = Ok (map (fun r => reduce op init (range_of (values t) r)) rs)) /\
  (bad_batch c rs -> partial_reduce_batch op init t rs = Err EIndex).
Proof. exact (fun A op init c cs rs Ha Hu Hco Hc Hv => reach_batch_iff Ha Hu Hco cs rs Hc Hv). Qed.
Print Assumptions C03_batched_partial_reduce_characterised.

Example C03_example :
  let t := run_sets Nat.add 0 (tree_init 0 5) ex_history in
  partial_reduce_batch Nat.add 0 t [(0, 5); (4, 5); (1, 3)]%Z = Ok [23; 5; 7] /\
  (forall r, In r [(0, 5); (4, 5); (1, 3)]%Z -> valid_range 5 r) /\ ~ bad_batch 5 [(0, 5); (4, 5); (1, 3)]%Z.
Proof.
  split; [reflexivity|]. split.
  - intros r [<-|[<-|[<-|[]]]]; (split; [split|]); vm_compute; congruence.
  - intros [H _]. vm_compute in H. discriminate.
Qed.

(** C03 as documented is false: two ranges, each fine on its own, raise IndexError together. *)
Theorem C03_batched_partial_reduce_refuted : exists (c : nat) cs r1 r2 v1 v2,
  let t := run_sets Nat.add 0 (tree_init 0 c) cs in
  1 <= c /\ valid_range c r1 /\ valid_range c r2 /\
  partial_reduce_batch Nat.add 0 t [r1] = Ok [v1] /\ partial_reduce_batch Nat.add 0 t [r2] = Ok [v2] /\
  partial_reduce_batch Nat.add 0 t [r1; r2] = Err EIndex.
Proof.
  exists 4, [([0; 1; 2; 3]%Z, [1; 2; 3; 4])], (3, 4)%Z, (0, 3)%Z, 4, 6.
  split; [lia|]. repeat split; try reflexivity; vm_compute; congruence.
Qed.
Print Assumptions C03_batched_partial_reduce_refuted.

(** C04: inverse_cdf brackets u between consecutive prefix sums and never returns a zero-weight entry. *)
Theorem C04_inverse_cdf_brackets : forall c cs us, 1 <= c ->
  let t := run_sets Rplus 0%R (sumtree_init c) cs in let w := values t in
  (forall x, In x w -> (0 <= x)%R) -> (0 < rsum w)%R -> (forall u, In u us -> (0 <= u < 1)%R) ->
  exists is_, inverse_cdf t us = Ok is_ /\
  Forall2 (fun u i => i < c /\ (0 < nth i w 0)%R /\ (prefix_sum w i <= u * rsum w < prefix_sum w (S i))%R) us is_.
Proof. exact sreach_inverse_cdf. Qed.
Print Assumptions C04_inverse_cdf_brackets.

(** C04: entry i is returned exactly for u in an interval of length w_i / sum(w). *)
Theorem C04_inverse_cdf_interval : forall c cs u i, 1 <= c ->
  let t := run_sets Rplus 0%R (sumtree_init c) cs in let w := values t in
  (forall x, In x w -> (0 <= x)%R) -> (0 < rsum w)%R -> (0 <= u < 1)%R -> i < c ->
  (inverse_cdf t [u] = Ok [i] <->
   (prefix_sum w i / rsum w <= u < prefix_sum w i / rsum w + nth i w 0 / rsum w)%R).
Proof. exact sreach_inverse_cdf_iff. Qed.
Print Assumptions C04_inverse_cdf_interval.

(** C04: no positive mass, no answer. *)
Theorem C04_no_mass_raises : forall c cs us, 1 <= c ->
  let t := run_sets Rplus 0%R (sumtree_init c) cs in (rsum (values t) <= 0)%R -> inverse_cdf t us = Err ERuntime.
Proof. exact sreach_nonpositive. Qed.
Print Assumptions C04_no_mass_raises.

Definition ex_weights : list (list Z * list R) := [([0; 1; 2]%Z, [1; 0; 3]%R)].

Example C04_example : let t := run_sets Rplus 0%R (sumtree_init 3) ex_weights in
  values t = [1; 0; 3]%R /\ (forall x, In x (values t) -> (0 <= x)%R) /\ (0 < rsum (values t))%R /\
  inverse_cdf t [(1/4)%R] = Ok [2].
Proof.
  assert (E : values (run_sets Rplus 0%R (sumtree_init 3) ex_weights) = [1; 0; 3]%R) by reflexivity.
  split; [exact E|]. cbv zeta. rewrite E.
  assert (Hnn : forall x, In x [1; 0; 3]%R -> (0 <= x)%R) by (intros x [<-|[<-|[<-|[]]]]; lra).
  assert (Hp : (0 < rsum [1; 0; 3])%R) by (simpl; lra).
  split; [exact Hnn|]. split; [exact Hp|].
  pose proof (C04_inverse_cdf_interval 3 ex_weights (1/4) 2) as H. cbv zeta in H. rewrite E in H.
  apply H; auto; try lia; try lra. unfold prefix_sum. simpl. split; [|]; lra.
Qed.

Example C04_no_mass_example : (rsum (values (run_sets Rplus 0%R (sumtree_init 3) [])) <= 0)%R.
Proof. assert (E : values (run_sets Rplus 0%R (sumtree_init 3) []) = [0; 0; 0]%R) by reflexivity. rewrite E. simpl. lra. Qed.

(** C05: u outside [0,1] is rejected, u in [0,1) is answered correctly (C04); at u = 1 the answer is always the
    last slot of the padded tree ... *)
Theorem C05_out_of_range_rejected : forall c cs us, 1 <= c ->
  let t := run_sets Rplus 0%R (sumtree_init c) cs in (0 < rsum (values t))%R ->
  (exists u, In u us /\ (u < 0 \/ 1 < u)%R) -> inverse_cdf t us = Err EValue.
Proof. exact sreach_out_of_range. Qed.
Print Assumptions C05_out_of_range_rejected.

Theorem C05_inverse_cdf_at_one : forall c cs, 1 <= c ->
  let t := run_sets Rplus 0%R (sumtree_init c) cs in let w := values t in
  (forall x, In x w -> (0 <= x)%R) -> (0 < rsum w)%R ->
  inverse_cdf t [1%R] = Ok [2 ^ Nat.log2_up c - 1].
Proof. exact sreach_one. Qed.
Print Assumptions C05_inverse_cdf_at_one.

(** ... which is not a valid index when the capacity is not a power of two: C05 as documented is false. *)
Theorem C05_total_on_unit_interval_refuted : exists c cs u i,
  let t := run_sets Rplus 0%R (sumtree_init c) cs in let w := values t in
  1 <= c /\ (forall x, In x w -> (0 < x)%R) /\ (0 <= u <= 1)%R /\ inverse_cdf t [u] = Ok [i] /\ c <= i.
Proof.
  exists 3, [([0; 1; 2]%Z, [1; 1; 1]%R)], 1%R, 3.
  assert (E : values (run_sets Rplus 0%R (sumtree_init 3) [([0; 1; 2]%Z, [1; 1; 1]%R)]) = [1; 1; 1]%R) by reflexivity.
  cbv zeta. rewrite E. split; [lia|]. split; [intros x [<-|[<-|[<-|[]]]]; lra|]. split; [lra|]. split; [|lia].
  pose proof (C05_inverse_cdf_at_one 3 [([0; 1; 2]%Z, [1; 1; 1]%R)]) as H. cbv zeta in H. rewrite E in H.
  apply H; [lia|intros x [<-|[<-|[<-|[]]]]; lra|simpl; lra].
Qed.
Print Assumptions C05_total_on_unit_interval_refuted.

(** C06: any bad index rejects the whole call and the object is left as it was. *)
Theorem C06_rejected_call_changes_nothing : forall A (op : A -> A -> A) init c cs idx vs, unit_of op init -> 1 <= c ->
  (exists k, In k idx /\ ~ pyvalid c k) ->
  let t := run_sets op init (tree_init init c) cs in
  set_values_eff op init t idx vs = (t, Some EIndex).
Proof. exact (fun A op init c cs idx vs Hu Hc Hk => @reach_rejected A op init Hu c cs idx vs Hc Hk). Qed.
Print Assumptions C06_rejected_call_changes_nothing.

(** C06: so does a wrong number of values. *)
Theorem C06_wrong_length_changes_nothing : forall A (op : A -> A -> A) init c cs idx vs, unit_of op init -> 1 <= c ->
  (forall k, In k idx -> pyvalid c k) -> length vs <> length idx -> length vs <> 1 ->
  let t := run_sets op init (tree_init init c) cs in
  set_values_eff op init t idx vs = (t, Some EValue).
Proof. exact (fun A op init c cs idx vs Hu Hc Hk H1 H2 => reach_bad_length Hu cs idx vs Hc Hk H1 H2). Qed.
Print Assumptions C06_wrong_length_changes_nothing.

Example C06_wrong_length_example : (forall k, In k [0; -5; 3]%Z -> pyvalid 5 k) /\ length [1; 2] <> length [0; -5; 3]%Z /\ length [1; 2] <> 1.
Proof. split; [|split; discriminate]. intros k [<-|[<-|[<-|[]]]]; unfold pyvalid; lia. Qed.

(** C06: a valid index, negative or not, addresses the entry Python lists would address, and no other. *)
Theorem C06_indices_wrap_like_python : forall A (op : A -> A -> A) init c cs k v, unit_of op init -> 1 <= c -> pyvalid c k ->
  let t := run_sets op init (tree_init init c) cs in
  exists t', set_values op init t [k] [v] = Ok t' /\ forall i, i < c ->
    nth_error (values t') i = if Z.eqb (Z.of_nat i) (pynorm c k) then Some v else nth_error (values t) i.
Proof. exact (fun A op init c cs k v Hu Hc Hk => @reach_set_get A op init Hu c cs k v Hc Hk). Qed.
Print Assumptions C06_indices_wrap_like_python.

Example C06_example : let t := run_sets Nat.add 0 (tree_init 0 5) ex_history in
  (exists k, In k [0; 5]%Z /\ ~ pyvalid 5 k) /\ set_values Nat.add 0 t [0; 5]%Z [1; 1] = Err EIndex /\
  pyvalid 5 (-2)%Z /\
  match set_values Nat.add 0 t [-2]%Z [50] with Ok t' => values t' = [7; 4; 3; 50; 5] /\ root_value 0 t' = 69 | Err _ => False end.
Proof.
  split. { exists 5%Z. split; [right; left; reflexivity|]. unfold pyvalid. lia. }
  split; [reflexivity|]. split; [unfold pyvalid; lia|]. vm_compute. auto.
Qed.
