(** Proofs about MiscModel.v: stacking, flattening, diagnostics, quantiles, sampling, activations. *)
From Coq Require Import List ZArith Bool Reals Lra Lia Permutation Sorted.
From Verif Require Import PyCommon CommonProofs UtilsModel UtilsSpec UtilsProofs2 WrappersProofs LossProofs DistProofs2 MiscModel MiscSpec MiscProofs.
Import ListNotations.
Local Open Scope R_scope.
Set Implicit Arguments.

(** * stack_trees *)

Lemma zip_lists_spec : forall A (d : A) n (ls : list (list A)) N, ls <> [] -> (forall l, In l ls -> (N <= length l)%nat) -> (exists l, In l ls /\ length l = N) -> (N <= n)%nat ->
  zip_lists n ls = map (fun i => map (fun l => nth i l d) ls) (seq 0 N).
Proof.
  intros A d. induction n as [|n IH]; intros ls N NE H [l0 [I0 E0]] B.
  - assert (N = 0)%nat by lia. subst. rewrite H0. reflexivity.
  - cbn [zip_lists].
    set (heads := fix heads (ls : list (list A)) : option (list A * list (list A)) := match ls with [] => Some ([], []) | (x :: r) :: ls' => match heads ls' with Some (h, t) => Some (x :: h, r :: t) | None => None end | [] :: _ => None end).
    destruct N as [|N].
    + assert (Q : heads ls = None).
      { clear -I0 E0. induction ls as [|l ls IHl]; [destruct I0|]. destruct I0 as [->|I0]; [destruct l0; [reflexivity|discriminate]|].
        simpl. destruct l as [|x r]; [reflexivity|]. now rewrite IHl. }
      rewrite Q. reflexivity.
    + assert (Q : heads ls = Some (map (fun l => nth 0 l d) ls, map (@tl A) ls)).
      { clear -H. induction ls as [|l ls IHl]; [reflexivity|]. simpl. destruct l as [|x r]; [exfalso; specialize (H [] (or_introl eq_refl)); simpl in H; lia|].
        rewrite IHl by (intros; apply H; now right). reflexivity. }
      rewrite Q. rewrite (IH (map (@tl A) ls) N).
      * change (seq 0 (S N)) with (0%nat :: seq 1 N). cbn [map]. f_equal. rewrite <- seq_shift, map_map. apply map_ext_in. intros i Hi. rewrite map_map. apply map_ext_in. intros l Hl. destruct l; simpl; auto. destruct i; reflexivity.
      * destruct ls; [congruence|discriminate].
      * intros l Hl. apply in_map_iff in Hl. destruct Hl as [m [<- Hm]]. apply H in Hm. destruct m; simpl in *; lia.
      * exists (tl l0). split; [now apply in_map|]. destruct l0; simpl in *; lia.
      * lia.
Qed.

Lemma same_tree_nodes : forall l m, length l = length m -> (forall i a b, nth_error l i = Some a -> nth_error m i = Some b -> same_tree a b) -> same_tree (TNode l) (TNode m).
Proof.
  induction l as [|a l IH]; intros [|b m] L H; simpl in *; try discriminate; auto. split; [apply (H 0%nat); reflexivity|]. apply IH; [lia|]. intros i x y Hx Hy. apply (H (S i)); auto.
Qed.

Lemma stack_trees_spec : forall ls N jx, ls <> [] -> (1 <= N)%nat -> (forall l, In l ls -> (N <= length l)%nat) -> (exists l, In l ls /\ length l = N) ->
  (forall l i a b, In l ls -> (i < N)%nat -> nth_error l 0 = Some a -> nth_error l i = Some b -> same_tree a b) ->
  exists ss, stack_trees ls = Ok (TNode ss) /\ length ss = length ls /\
    forall j i l s t, nth_error ls j = Some l -> nth_error ss j = Some s -> (i < N)%nat -> nth_error l i = Some t -> batch_to_single jx (Z.of_nat i) s = Ok t.
Proof.
  intros ls N jx NE N1 HL HE HS. unfold stack_trees.
  set (n := match ls with [] => 0%nat | l :: _ => length l end).
  assert (Hn : (N <= n)%nat) by (unfold n; destruct ls as [|l ls]; [congruence|apply HL; now left]).
  rewrite (@zip_lists_spec _ (TNode []) n ls N NE HL HE Hn). destruct N as [|N]; [lia|]. change (seq 0 (S N)) with (0%nat :: seq 1 N). cbn [map].
  set (col := fun i => map (fun l => nth i l (TNode [])) ls).
  change (map (fun i => map (fun l => nth i l (TNode [])) ls) (seq 1 N)) with (map col (seq 1 N)).
  destruct (@stack_rows (TNode (col 0%nat)) (map TNode (map col (seq 1 N))) jx) as [s [Es Hs]].
  { intros u Hu. rewrite map_map in Hu. apply in_map_iff in Hu. destruct Hu as [i [<- Hi]]. apply in_seq in Hi. apply same_tree_nodes; [unfold col; now rewrite !map_length|].
    intros j a b Ha Hb. unfold col in Ha, Hb. rewrite nth_error_map in Ha, Hb. destruct (nth_error ls j) as [l|] eqn:El; [|discriminate]. simpl in Ha, Hb. inversion Ha; inversion Hb; subst.
    assert (In l ls) by (eapply nth_error_In; eauto). pose proof (HL l H).
    apply (HS l i); auto; [lia|apply nth_error_nth'; lia|apply nth_error_nth'; lia]. }
  change (map (fun l => nth 0 l (TNode [])) ls) with (col 0%nat). rewrite Es.
  assert (HR : forall i, (i < S N)%nat -> batch_to_single jx (Z.of_nat i) s = Ok (TNode (col i))).
  { intros i Hi. apply Hs. destruct i as [|i]; [reflexivity|]. cbn [nth_error]. rewrite map_map, nth_error_map. rewrite (nth_error_nth' _ 0%nat) by (rewrite seq_length; lia). rewrite seq_nth by lia. reflexivity. }
  destruct s as [x|ss].
  { specialize (HR 0%nat ltac:(lia)). unfold batch_to_single in HR. cbn [tree_map] in HR. destruct (arr_index jx (Z.of_nat 0) x); discriminate. }
  assert (HC : forall i, (i < S N)%nat -> map (tree_map (arr_index jx (Z.of_nat i))) ss = map Ok (col i)).
  { intros i Hi. specialize (HR i Hi). unfold batch_to_single in HR. cbn [tree_map] in HR. destruct (collect_all (map (tree_map (arr_index jx (Z.of_nat i))) ss)) as [m|] eqn:E; [|discriminate]. cbn [bind] in HR. inversion HR; subst. now apply collect_all_ok in E. }
  exists ss. split; auto. split.
  { pose proof (f_equal (@length _) (HC 0%nat ltac:(lia))) as Q. rewrite !map_length in Q. unfold col in Q. now rewrite map_length in Q. }
  intros j i l s t Hl Hss Hi Ht. specialize (HC i Hi). apply (f_equal (fun z => nth_error z j)) in HC. rewrite !nth_error_map, Hss in HC. unfold col in HC. rewrite nth_error_map, Hl in HC. cbn [option_map] in HC. inversion HC as [Q]. unfold batch_to_single. rewrite Q. f_equal. now apply nth_error_nth.
Qed.

(** * Flattening *)

Lemma ravel_values : forall a, ravel a = arr_values a.
Proof. induction a as [x|l IH] using arr_ind'; simpl; auto. rewrite flat_map_concat_map. f_equal. apply map_ext_in. auto. Qed.
Lemma component_leaves : forall t x, component t x <-> In x (flat_map ravel (tree_leaves t)).
Proof.
  induction t as [a|l IH] using tree_ind'; intros x; simpl.
  - rewrite app_nil_r, ravel_values. split; [intros H; inversion H; auto|constructor; auto].
  - split.
    + intros H. inversion H as [|? t ? Ht Hc]; subst. apply IH in Hc; auto. apply in_flat_map in Hc. destruct Hc as [a [Ha Hx]]. apply in_flat_map. exists a. split; auto. apply in_flat_map. exists t. auto.
    + intros H. apply in_flat_map in H. destruct H as [a [Ha Hx]]. apply in_flat_map in Ha. destruct Ha as [t [Ht Ha]]. apply comp_node with t; auto. apply IH; auto. apply in_flat_map. exists a. auto.
Qed.

Lemma leaves_values : forall t, flat_map ravel (tree_leaves t) = values_of t.
Proof.
  induction t as [a|l IH] using tree_ind'; simpl; [rewrite app_nil_r; apply ravel_values|].
  induction l as [|t l IHl]; simpl; auto. rewrite flat_map_app, IH by now left. f_equal. apply IHl. intros; apply IH; now right.
Qed.
Lemma component_values : forall t x, component t x <-> In x (values_of t).
Proof. intros. now rewrite component_leaves, leaves_values. Qed.

Lemma fold_total : forall l, fold_right Rplus 0 l = total l. Proof. reflexivity. Qed.

Lemma sumsq_ravel : forall a, sumsq_arr a = total (map (fun y => y * y) (ravel a)).
Proof.
  induction a as [x|l IH] using arr_ind'; simpl; [unfold total; simpl; ring|]. induction l as [|a l IHl]; simpl; [reflexivity|].
  rewrite map_app, total_app, <- IH by now left. rewrite <- IHl by (intros; apply IH; now right). reflexivity.
Qed.
Lemma sumsq_leaves : forall t, sumsq t = total (map (fun y => y * y) (flat_map ravel (tree_leaves t))).
Proof.
  induction t as [a|l IH] using tree_ind'; simpl; [rewrite app_nil_r; apply sumsq_ravel|]. induction l as [|a l IHl]; simpl; [reflexivity|].
  rewrite flat_map_app, map_app, total_app, <- IH by now left. rewrite <- IHl by (intros; apply IH; now right). reflexivity.
Qed.

Lemma tree_ravel_ok : forall t x, component t x -> exists v, tree_ravel t = Ok v /\ v <> [] /\ (forall y, In y v <-> component t y) /\ total (map (fun y => y * y) v) = sumsq t /\ v = values_of t.
Proof.
  intros t x H. exists (flat_map ravel (tree_leaves t)). assert (Hx := H). apply component_leaves in Hx.
  unfold tree_ravel. destruct (tree_leaves t) as [|a l] eqn:E; [destruct Hx|]. split; [reflexivity|].
  split; [intros Q; rewrite Q in Hx; destruct Hx|]. split; [intros y; rewrite component_leaves, E; reflexivity|]. split; [now rewrite sumsq_leaves, E|]. now rewrite <- leaves_values, E.
Qed.

Lemma diagnostics_spec : forall t x, component t x -> exists mx norm, grads_diagnostics t = Ok (mx, norm) /\
  (forall y, component t y -> Rabs y <= mx) /\ (exists y, component t y /\ Rabs y = mx) /\ 0 <= norm /\ norm * norm = sumsq t.
Proof.
  intros t x H. destruct (tree_ravel_ok H) as [v [E1 [E2 [E3 [E4 _]]]]]. unfold grads_diagnostics. rewrite E1. cbn [bind]. unfold leaf_diagnostics.
  destruct (map Rabs v) as [|m l] eqn:Em; [destruct v; [congruence|discriminate]|]. eexists. eexists. split; [reflexivity|].
  destruct (rmax_list_ge l m) as [G1 G2]. split; [|split; [|split]].
  - intros y Hy. apply E3 in Hy. apply (in_map Rabs) in Hy. rewrite Em in Hy. destruct Hy as [<-|Hy]; auto.
  - pose proof (rmax_list_in l m) as I. rewrite <- Em in I. apply in_map_iff in I. destruct I as [y [Ey Hy]]. exists y. split; auto. now apply E3.
  - apply sqrt_pos.
  - rewrite sqrt_sqrt; [rewrite rsum_total; auto|]. apply rsum_nonneg. intros z Hz. apply in_map_iff in Hz. destruct Hz as [y [<- _]]. apply Rle_0_sqr.
Qed.

Lemma diagnostics_empty : forall t, (forall x, ~ component t x) -> grads_diagnostics t = Err EValue.
Proof.
  intros t H. unfold grads_diagnostics, tree_ravel. destruct (tree_leaves t) as [|a l] eqn:E; auto. cbn [bind].
  assert (Q : flat_map ravel (a :: l) = []). { destruct (flat_map ravel (a :: l)) as [|x r] eqn:F; auto. exfalso. apply (H x). apply component_leaves. rewrite E, F. now left. }
  rewrite Q. reflexivity.
Qed.

Lemma leaf_diag_bounds : forall v mx norm, leaf_diagnostics v = Ok (mx, norm) -> mx <= norm /\ norm <= sqrt (INR (length v)) * mx.
Proof.
  intros v mx norm H. unfold leaf_diagnostics in H. destruct (map Rabs v) as [|m l] eqn:E; [discriminate|]. inversion H; subst. clear H.
  pose proof (rmax_list_in l m) as I. rewrite <- E in I. apply in_map_iff in I. destruct I as [y [Ey Hy]]. destruct (rmax_list_ge l m) as [G1 G2].
  set (mx := rmax_list m l) in *. assert (M0 : 0 <= mx) by (rewrite <- Ey; apply Rabs_pos). split.
  - rewrite <- (sqrt_square mx M0). apply sqrt_le_1_alt. rewrite <- Ey, <- Rabs_mult, Rabs_pos_eq by apply Rle_0_sqr.
    clear -Hy. induction v as [|z v IH]; [destruct Hy|]. simpl. assert (0 <= rsum (map (fun y => y * y) v)) by (apply rsum_nonneg; intros q Hq; apply in_map_iff in Hq; destruct Hq as [p [<- _]]; apply Rle_0_sqr).
    change (rsum (z * z :: map (fun y0 => y0 * y0) v)) with (rsum ((z*z) :: map (fun y0 => y0 * y0) v)). rewrite rsum_total in *. unfold total in *. simpl in *. destruct Hy as [->|Hy]; [lra|]. specialize (IH Hy). rewrite rsum_total in IH. unfold total in IH. pose proof (Rle_0_sqr z). unfold Rsqr in *. lra.
  - replace (sqrt (INR (length v)) * mx) with (sqrt (INR (length v)) * sqrt (mx * mx)) by (rewrite sqrt_square; auto). rewrite <- sqrt_mult_alt by apply pos_INR. apply sqrt_le_1_alt.
    assert (B : forall z, In z v -> Rabs z <= mx) by (intros z Hz; apply (in_map Rabs) in Hz; rewrite E in Hz; destruct Hz as [<-|Hz]; auto).
    rewrite rsum_total. clear -B M0. induction v as [|z v IH]; [simpl; unfold total; simpl; lra|]. change (length (z :: v)) with (S (length v)). rewrite S_INR. simpl map. unfold total in *. simpl.
    assert (z * z <= mx * mx). { rewrite <- (Rabs_pos_eq (z * z)) by apply Rle_0_sqr. rewrite Rabs_mult. pose proof (B z (or_introl eq_refl)). pose proof (Rabs_pos z). nra. }
    specialize (IH (fun z H => B z (or_intror H))). lra.
Qed.

(** * Quantiles *)

Lemma rinsert_perm : forall x l, Permutation (rinsert x l) (x :: l).
Proof. induction l as [|y l IH]; simpl; auto. destruct Rle_dec; auto. rewrite IH. apply perm_swap. Qed.
Lemma rsort_perm : forall l, Permutation (rsort l) l.
Proof. induction l as [|x l IH]; simpl; auto. rewrite rinsert_perm. auto. Qed.
Lemma rsort_length : forall l, length (rsort l) = length l. Proof. intros. apply Permutation_length, rsort_perm. Qed.
Lemma rinsert_sorted : forall x l, StronglySorted Rle l -> StronglySorted Rle (rinsert x l).
Proof.
  induction l as [|y l IH]; intros H; simpl; [repeat constructor|]. inversion H as [|? ? Hs Hf]; subst. destruct Rle_dec as [L|L].
  - constructor; auto. constructor; auto. rewrite Forall_forall in *. intros z Hz. apply Rle_trans with y; auto.
  - constructor; auto. rewrite Forall_forall in *. intros z Hz. apply (Permutation_in z (rinsert_perm x l)) in Hz. destruct Hz as [<-|Hz]; auto. lra.
Qed.
Lemma rsort_sorted : forall l, StronglySorted Rle (rsort l).
Proof. induction l; simpl; [constructor|]. now apply rinsert_sorted. Qed.
Lemma sorted_nth : forall l, StronglySorted Rle l -> forall i j, (i <= j)%nat -> (j < length l)%nat -> nth i l 0 <= nth j l 0.
Proof.
  induction 1 as [|x l Hs IH Hf]; intros i j Hij Hj; simpl in Hj; [lia|]. destruct i as [|i], j as [|j]; simpl; try lra; try lia.
  - rewrite Forall_forall in Hf. apply Hf. apply nth_In. lia.
  - apply IH; lia.
Qed.

(** The interpolated position. *)
Definition interp (s : list R) (pos : R) : R :=
  let lo := Z.to_nat (Int_part pos) in let w := pos - INR lo in (1 - w) * nth lo s 0 + w * nth (if Rle_dec w 0 then lo else S lo) s 0.
Lemma quantile_interp : forall v q, v <> [] -> quantile v q = Ok (interp (rsort v) (q * INR (length v - 1))).
Proof. intros [|x v] q H; [congruence|]. reflexivity. Qed.

Lemma floor_nat : forall pos, 0 <= pos -> INR (Z.to_nat (Int_part pos)) <= pos < INR (Z.to_nat (Int_part pos)) + 1.
Proof.
  intros pos H. destruct (base_Int_part pos) as [A B].
  assert (Z0 : (0 <= Int_part pos)%Z). { assert (-1 < IZR (Int_part pos)) by lra. apply lt_IZR in H0. lia. }
  rewrite INR_IZR_INZ, Z2Nat.id by auto. lra.
Qed.

Section Interp.
Variable s : list R.
Hypothesis Hs : StronglySorted Rle s.
Hypothesis Hn : s <> [].
Let n := length s.
Lemma n_pos : (1 <= n)%nat. Proof. unfold n. destruct s; [congruence|simpl; lia]. Qed.

Lemma interp_between : forall pos, 0 <= pos <= INR (n - 1) -> exists k, (k < n)%nat /\ INR k <= pos < INR k + 1 /\
  ((pos = INR k /\ interp s pos = nth k s 0) \/ ((S k < n)%nat /\ INR k < pos /\ interp s pos = nth k s 0 + (pos - INR k) * (nth (S k) s 0 - nth k s 0))).
Proof.
  intros pos [P0 P1]. destruct (floor_nat P0) as [A B]. pose proof n_pos as N. exists (Z.to_nat (Int_part pos)). set (k := Z.to_nat (Int_part pos)) in *.
  assert (K : (k <= n - 1)%nat) by (apply INR_le; lra). split; [lia|]. split; [lra|]. unfold interp. fold k. destruct (Rle_dec (pos - INR k) 0) as [L|L].
  - left. split; [lra|]. assert (pos = INR k) by lra. rewrite H. ring.
  - right. split; [|split; [lra|ring]]. assert (INR k < INR (n - 1)) by lra. apply INR_lt in H. lia.
Qed.

Lemma interp_bounds : forall pos k, 0 <= pos <= INR (n - 1) -> (k < n)%nat -> (INR k <= pos -> nth k s 0 <= interp s pos) /\ (pos <= INR k -> interp s pos <= nth k s 0).
Proof.
  intros pos k P K. destruct (interp_between P) as [j [Hj [Hp C]]]. split; intros H.
  - assert (k <= j)%nat. { assert (INR k < INR (S j)) by (rewrite S_INR; lra). apply INR_lt in H0. lia. }
    pose proof (@sorted_nth s Hs k j H0 Hj). destruct C as [[_ ->]|[L1 [L2 ->]]]; auto.
    assert (nth j s 0 <= nth (S j) s 0) by (apply sorted_nth; auto; lia). pose proof (Rmult_le_pos (pos - INR j) (nth (S j) s 0 - nth j s 0)). lra.
  - destruct C as [[E ->]|[L1 [L2 ->]]].
    + apply sorted_nth; auto. apply INR_le. lra.
    + assert (S j <= k)%nat. { assert (INR j < INR k) by lra. apply INR_lt in H0. lia. }
      pose proof (@sorted_nth s Hs (S j) k H0 K). assert (nth j s 0 <= nth (S j) s 0) by (apply sorted_nth; auto; lia).
      assert ((pos - INR j) * (nth (S j) s 0 - nth j s 0) <= 1 * (nth (S j) s 0 - nth j s 0)) by (apply Rmult_le_compat_r; lra). lra.
Qed.

Lemma interp_mono : forall p q, 0 <= p -> p <= q -> q <= INR (n - 1) -> interp s p <= interp s q.
Proof.
  intros p q P0 PQ Q1. destruct (@interp_between p) as [j [Hj [Hp C]]]; [lra|]. destruct (Rle_dec (INR j + 1) q) as [L|L].
  - assert (Hk : (S j < n)%nat). { assert (INR (S j) <= INR (n - 1)) by (rewrite S_INR; lra). apply INR_le in H. pose proof n_pos. lia. }
    apply Rle_trans with (nth (S j) s 0); apply interp_bounds; auto; try lra; rewrite S_INR; lra.
  - destruct (@interp_between q) as [i [Hi [Hq D]]]; [lra|].
    assert (i = j). { assert (INR i < INR (S j)) by (rewrite S_INR; lra). assert (INR j < INR (S i)) by (rewrite S_INR; lra). apply INR_lt in H. apply INR_lt in H0. lia. }
    subst i. destruct C as [[E1 ->]|[L1 [L2 ->]]], D as [[E3 ->]|[L3 [L4 ->]]]; try lra.
    + assert (nth j s 0 <= nth (S j) s 0) by (apply sorted_nth; auto; lia). pose proof (Rmult_le_pos (q - INR j) (nth (S j) s 0 - nth j s 0)). lra.
    + assert (nth j s 0 <= nth (S j) s 0) by (apply sorted_nth; auto; lia).
      assert ((p - INR j) * (nth (S j) s 0 - nth j s 0) <= (q - INR j) * (nth (S j) s 0 - nth j s 0)) by (apply Rmult_le_compat_r; lra). lra.
Qed.
End Interp.

Lemma filter_perm_length : forall A (p : A -> bool) l m, Permutation l m -> length (filter p l) = length (filter p m).
Proof. induction 1; simpl; auto; [destruct (p x); simpl; auto|destruct (p x), (p y); simpl; auto|congruence]. Qed.
Lemma filter_firstn : forall A (d : A) (p : A -> bool) k l, (k <= length l)%nat -> (forall i, (i < k)%nat -> p (nth i l d) = true) -> (k <= length (filter p l))%nat.
Proof.
  induction k as [|k IH]; intros [|x l] L H; simpl in *; try lia. rewrite (H 0%nat) by lia. simpl. apply le_n_S. apply IH; [lia|]. intros i Hi. apply (H (S i)). lia.
Qed.
Lemma filter_skipn : forall A (d : A) (p : A -> bool) k l, (forall i, (k <= i < length l)%nat -> p (nth i l d) = true) -> (length l - k <= length (filter p l))%nat.
Proof.
  induction k as [|k IH]; intros l H.
  - rewrite Nat.sub_0_r. apply filter_firstn with d; auto. intros. apply H. lia.
  - destruct l as [|x l]; simpl; [lia|]. assert (length l - k <= length (filter p l))%nat by (apply IH; intros i Hi; apply (H (S i)); simpl; lia). destruct (p x); simpl; lia.
Qed.

Lemma quantile_spec : forall v q, v <> [] -> 0 <= q <= 1 -> exists x, quantile v q = Ok x /\
  q * INR (length v - 1) < INR (count_le v x) /\ (1 - q) * INR (length v - 1) < INR (count_ge v x).
Proof.
  intros v q NE Q. rewrite quantile_interp by auto. eexists. split; [reflexivity|].
  set (s := rsort v). assert (Ls : length s = length v) by apply rsort_length. pose proof (rsort_sorted v) as S. fold s in S.
  assert (NEs : s <> []) by (destruct s; [destruct v; [congruence|simpl in Ls; discriminate]|discriminate]).
  assert (NV : (1 <= length v)%nat) by (destruct v; [congruence|simpl; lia]).
  set (pos := q * INR (length v - 1)). assert (P0 : 0 <= INR (length v - 1)) by apply pos_INR.
  assert (P : 0 <= pos <= INR (length s - 1)) by (rewrite Ls; unfold pos; nra).
  destruct (@interp_between s S NEs pos P) as [k [Hk [Hp C]]].
  assert (E1 : count_le v (interp s pos) = count_le s (interp s pos)) by (unfold count_le; apply filter_perm_length; symmetry; apply rsort_perm).
  assert (E2 : count_ge v (interp s pos) = count_ge s (interp s pos)) by (unfold count_ge; apply filter_perm_length; symmetry; apply rsort_perm).
  rewrite E1, E2. split.
  - assert ((k + 1 <= count_le s (interp s pos))%nat).
    { unfold count_le. apply filter_firstn with 0; [lia|]. intros i Hi. destruct Rle_dec as [_|B]; auto. exfalso. apply B.
      apply (proj1 (@interp_bounds s S NEs pos i P ltac:(lia))). apply Rle_trans with (INR k); [apply le_INR; lia|lra]. }
    apply le_INR in H. rewrite plus_INR in H. simpl in H. lra.
  - destruct C as [[E _]|[L1 [L2 _]]].
    + assert ((length s - k <= count_ge s (interp s pos))%nat).
      { unfold count_ge. apply filter_skipn with 0. intros i Hi. destruct Rle_dec as [_|B]; auto. exfalso. apply B.
        apply (proj2 (@interp_bounds s S NEs pos i P ltac:(lia))). rewrite E. apply le_INR. lia. }
      apply le_INR in H. rewrite minus_INR in H by lia. rewrite Ls in H. rewrite minus_INR in * by lia. unfold pos in *. rewrite minus_INR in * by lia. simpl in *. nra.
    + assert ((length s - Datatypes.S k <= count_ge s (interp s pos))%nat).
      { unfold count_ge. apply filter_skipn with 0. intros i Hi. destruct Rle_dec as [_|B]; auto. exfalso. apply B.
        apply (proj2 (@interp_bounds s S NEs pos i P ltac:(lia))). apply Rle_trans with (INR (Datatypes.S k)); [rewrite S_INR; lra|apply le_INR; lia]. }
      apply le_INR in H. rewrite minus_INR in H by lia. rewrite Ls, S_INR in H. unfold pos in *. rewrite minus_INR in * by lia. simpl in *. nra.
Qed.

Lemma quantile_mono : forall v p q x y, 0 <= p -> p <= q -> q <= 1 -> quantile v p = Ok x -> quantile v q = Ok y -> x <= y.
Proof.
  intros v p q x y P PQ Q Hx Hy. assert (NE : v <> []) by (destruct v; [discriminate|discriminate]). rewrite quantile_interp in Hx, Hy by auto. inversion Hx; inversion Hy; subst. clear Hx Hy.
  pose proof (pos_INR (length v - 1)) as P0. assert (NEs : rsort v <> []). { intros E. pose proof (rsort_length v) as L. rewrite E in L. destruct v; [congruence|discriminate]. }
  apply interp_mono; auto; [apply rsort_sorted|nra|apply Rmult_le_compat_r; auto|]. rewrite rsort_length. nra.
Qed.

Lemma quantile_ends : forall v, v <> [] -> exists a b, quantile v 0 = Ok a /\ quantile v 1 = Ok b /\ In a v /\ In b v /\ forall x, In x v -> a <= x <= b.
Proof.
  intros v NE. rewrite !quantile_interp by auto. eexists. eexists. split; [reflexivity|]. split; [reflexivity|].
  set (s := rsort v). assert (Ls : length s = length v) by apply rsort_length. pose proof (rsort_sorted v) as S. fold s in S.
  assert (NEs : s <> []) by (intros E; rewrite E in Ls; destruct v; [congruence|discriminate]). assert (NV : (1 <= length v)%nat) by (destruct v; [congruence|simpl; lia]).
  rewrite Rmult_0_l, Rmult_1_l. pose proof (pos_INR (length v - 1)) as P0.
  assert (E0 : interp s 0 = nth 0 s 0). { destruct (@interp_between s S NEs 0) as [k [Hk [Hp C]]]; [rewrite Ls; lra|]. pose proof (pos_INR k). destruct C as [[E ->]|[_ [L _]]]; [|lra]. assert (k = 0)%nat by (apply INR_eq; simpl; lra). now subst. }
  assert (E1 : interp s (INR (length v - 1)) = nth (length v - 1) s 0). { destruct (@interp_between s S NEs (INR (length v - 1))) as [k [Hk [Hp C]]]; [rewrite Ls; lra|].
    assert (k = length v - 1)%nat. { destruct Hp as [H1 H2]. apply INR_le in H1. rewrite <- S_INR in H2. apply INR_lt in H2. lia. } subst k. destruct C as [[_ ->]|[L1 [L _]]]; [reflexivity|lra]. }
  rewrite E0, E1. assert (I : forall i, (i < length v)%nat -> In (nth i s 0) v) by (intros i Hi; apply (Permutation_in _ (rsort_perm v)); apply nth_In; fold s; lia).
  split; [apply I; lia|]. split; [apply I; lia|]. intros x Hx. apply (Permutation_in _ (Permutation_sym (rsort_perm v))) in Hx. fold s in Hx. destruct (In_nth s x 0 Hx) as [i [Hi <-]]. split; apply sorted_nth; auto; lia.
Qed.

Lemma rinsert_comm : forall x y l, rinsert x (rinsert y l) = rinsert y (rinsert x l).
Proof.
  induction l as [|z l IH]; simpl.
  - destruct (Rle_dec x y), (Rle_dec y x); auto; [assert (x = y) by lra; now subst|lra].
  - destruct (Rle_dec y z), (Rle_dec x z); simpl; repeat (destruct Rle_dec; try lra); auto; try (assert (x = y) by lra; now subst). now rewrite IH.
Qed.
Lemma rsort_perm_eq : forall l m, Permutation l m -> rsort l = rsort m.
Proof. induction 1; simpl; auto; [congruence|apply rinsert_comm|congruence]. Qed.
Lemma quantile_perm : forall l m q, Permutation l m -> quantile l q = quantile m q.
Proof.
  intros l m q H. destruct l as [|x l]; [apply Permutation_nil in H; now subst|]. destruct m as [|y m]; [apply Permutation_sym, Permutation_nil in H; discriminate|].
  rewrite !quantile_interp by discriminate. rewrite (rsort_perm_eq H), (Permutation_length H). reflexivity.
Qed.

Lemma magnitude_quantiles_spec : forall t x, component t x -> exists a b c d e, magnitude_quantiles t = Ok [a; b; c; d; e] /\ a <= b <= c /\ c <= d <= e /\
  (exists y, component t y /\ Rabs y = a) /\ (exists y, component t y /\ Rabs y = e) /\ (forall y, component t y -> a <= Rabs y <= e) /\
  forall q z, (q = / 4 /\ z = b) \/ (q = / 2 /\ z = c) \/ (q = 3 * / 4 /\ z = d) ->
    q * INR (length (values_of t) - 1) < INR (count_le (map Rabs (values_of t)) z) /\ (1 - q) * INR (length (values_of t) - 1) < INR (count_ge (map Rabs (values_of t)) z).
Proof.
  intros t x H. destruct (tree_ravel_ok H) as [v [E1 [E2 [E3 [_ EV]]]]]. rewrite <- EV. unfold magnitude_quantiles. rewrite E1. cbn [bind].
  set (m := map Rabs v). assert (NE : m <> []) by (unfold m; destruct v; [congruence|discriminate]).
  destruct (quantile_ends NE) as [a [e [Qa [Qe [Ia [Ie B]]]]]].
  destruct (@quantile_spec m (/4) NE) as [b [Qb [B1 B2]]]; [lra|]. destruct (@quantile_spec m (/2) NE) as [c [Qc [C1 C2]]]; [lra|]. destruct (@quantile_spec m (3 * /4) NE) as [d [Qd [D1 D2]]]; [lra|].
  exists a, b, c, d, e. cbn [map collect_all]. rewrite Qa, Qb, Qc, Qd, Qe. cbn [bind]. split; [reflexivity|].
  assert (M : forall p q x y, 0 <= p -> p <= q -> q <= 1 -> quantile m p = Ok x -> quantile m q = Ok y -> x <= y) by apply quantile_mono.
  split; [split; [apply (M 0 (/4)); auto; lra|apply (M (/4) (/2)); auto; lra]|]. split; [split; [apply (M (/2) (3*/4)); auto; lra|apply (M (3*/4) 1); auto; lra]|].
  unfold m in Ia, Ie. apply in_map_iff in Ia. apply in_map_iff in Ie. destruct Ia as [ya [Ea Ia]]. destruct Ie as [ye [Ee Ie]].
  split; [exists ya; split; auto; now apply E3|]. split; [exists ye; split; auto; now apply E3|]. split; [intros y Hy; apply B; unfold m; apply in_map; now apply E3|].
  assert (Lm : length m = length v) by (unfold m; apply map_length). rewrite Lm in *. intros q z [[-> ->]|[[-> ->]|[-> ->]]]; auto.
Qed.

(** * Sampling *)

Lemma check_batch_size_spec : forall t n, check_batch_size t = Ok n <-> tree_leaves t <> [] /\ forall a, In a (tree_leaves t) -> exists l, a = AArr l /\ length l = n.
Proof.
  intros t n. unfold check_batch_size. destruct (tree_leaves t) as [|[x|l] r]; [split; [discriminate|intros [H _]; congruence]| |].
  - split; [discriminate|]. intros [_ H]. destruct (H (AScal x)) as [l [E _]]; [now left|discriminate].
  - destruct (forallb _ r) eqn:F.
    + rewrite forallb_forall in F. split.
      * intros E. inversion E; subst. split; [discriminate|]. intros a [<-|Ha]; [eauto|]. specialize (F a Ha). destruct a as [x|m]; [discriminate|]. apply Nat.eqb_eq in F. eauto.
      * intros [_ H]. destruct (H (AArr l)) as [m [E <-]]; [now left|]. now inversion E.
    + split; [discriminate|]. intros [_ H]. exfalso. assert (Q : forallb (fun a => match a with AScal _ => false | AArr m => Nat.eqb (length m) (length l) end) r = true).
      { apply forallb_forall. intros a Ha. destruct (H (AArr l)) as [m [E E2]]; [now left|]. inversion E; subst m. destruct (H a) as [m [-> E3]]; [now right|]. apply Nat.eqb_eq. congruence. }
      congruence.
Qed.

Lemma tree_map_leaves : forall (f : arr -> outcome arr) (g : arr -> arr) t, (forall a, In a (tree_leaves t) -> f a = Ok (g a)) -> exists u, tree_map f t = Ok u /\ tree_leaves u = map g (tree_leaves t).
Proof.
  intros f g. induction t as [a|l IH] using tree_ind'; intros H.
  - exists (TLeaf (g a)). cbn [tree_map tree_leaves map]. rewrite H by now left. auto.
  - assert (Q : exists m, collect_all (map (tree_map f) l) = Ok m /\ flat_map tree_leaves m = map g (flat_map tree_leaves l)).
    { induction l as [|x l IHl]; [exists []; auto|]. destruct (IH x (or_introl eq_refl)) as [u [E1 E2]]; [intros a Ha; apply H; simpl; apply in_or_app; now left|].
      destruct IHl as [m [E3 E4]]; [intros t Ht; apply IH; now right|intros a Ha; apply H; simpl; apply in_or_app; now right|].
      exists (u :: m). cbn [map collect_all]. rewrite E1. cbn [bind]. rewrite E3. cbn [bind flat_map]. split; auto. rewrite map_app. congruence. }
    destruct Q as [m [E1 E2]]. exists (TNode m). cbn [tree_map]. rewrite E1. auto.
Qed.

Definition take_rows (ix : list nat) (a : arr) : arr := match a with AScal x => AScal x | AArr l => AArr (map (fun i => nth i l (AArr [])) ix) end.
Lemma tree_sample_spec : forall t n replace axis ix b, check_batch_size t = Ok b -> (replace = true \/ (n <= b)%nat) -> (forall i, In i ix -> (i < b)%nat) ->
  exists u, tree_sample t n replace axis ix = Ok u /\ tree_leaves u = map (take_rows ix) (tree_leaves t).
Proof.
  intros t n replace axis ix b C R I. unfold tree_sample. rewrite C. cbn [bind].
  assert (Q : negb replace && Nat.ltb b n = false) by (destruct R as [->|R]; [reflexivity|destruct (Nat.ltb_spec b n); [lia|apply andb_false_r]]). rewrite Q.
  apply tree_map_leaves. intros a Ha. apply check_batch_size_spec in C. destruct C as [_ C]. destruct (C a Ha) as [l [-> E]]. unfold take0. rewrite (gather_ok l (AArr [])) by (intros; rewrite E; auto). reflexivity.
Qed.

(** * double_relu *)

Lemma double_relu_spec : forall v, length (double_relu v) = (2 * length v)%nat /\ forall i, (i < length v)%nat ->
  let lo := nth i (double_relu v) 0 in let hi := nth (length v + i) (double_relu v) 0 in lo <= 0 <= hi /\ lo + hi = nth i v 0 /\ (lo = 0 \/ hi = 0).
Proof.
  intros v. unfold double_relu. split; [rewrite app_length, !map_length; lia|]. intros i Hi. cbv zeta.
  rewrite app_nth1 by (rewrite map_length; auto). rewrite app_nth2 by (rewrite map_length; lia). rewrite map_length. replace (length v + i - length v)%nat with i by lia.
  rewrite !(@nth_map_any _ _ _ v i 0 0) by auto. unfold relu, Rmax. repeat destruct Rle_dec; lra.
Qed.
