(** chunks_pow2 and StepwiseLinearFunction. *)
From Coq Require Import List ZArith NArith Lia Bool Reals Lra Sorted.
From Verif Require Import PyCommon TransModel TransSpec TransProofs UtilsModel.
Import ListNotations.
Set Implicit Arguments.

(** * chunks_pow2 *)
Fixpoint bits_val (ds : list bool) : nat := match ds with [] => 0 | b :: ds' => (if b then 2 ^ length ds' else 0) + bits_val ds' end.

Lemma bits_val_snoc : forall ds b, bits_val (ds ++ [b]) = 2 * bits_val ds + (if b then 1 else 0).
Proof.
  induction ds as [|a ds IH]; intros b; [destruct b; reflexivity|]. cbn [app bits_val]. rewrite IH, app_length. cbn [length].
  rewrite Nat.add_1_r, Nat.pow_succ_r'. destruct a; lia.
Qed.

Lemma bin_val : forall n, bits_val (bin n) = n.
Proof.
  intros n. unfold bin. destruct (N.of_nat n) as [|p] eqn:E; [cbn; lia|].
  assert (H : forall p, bits_val (pos_bits p) = Pos.to_nat p).
  { clear. induction p; cbn [pos_bits]; rewrite ?bits_val_snoc, ?IHp; try lia. reflexivity. }
  rewrite H. lia.
Qed.

Lemma slice_app2 : forall A k m (l : list A), k <= m -> firstn k l ++ list_slice k m l = firstn m l.
Proof.
  intros A k m l H. unfold list_slice. rewrite <- (firstn_skipn k (firstn m l)). rewrite firstn_firstn, Nat.min_l by auto.
  f_equal. rewrite skipn_firstn_comm. reflexivity.
Qed.

Section Chunks.
Variable O : Type.
Notation field := (tree (list (row O))).

Lemma tmap2_slice : forall k m (t : field), k <= m -> tmap2 (@app (row O)) (tmap (firstn k) t) (tmap (list_slice k m) t) = Ok (tmap (firstn m) t).
Proof.
  intros k m t Hk. revert t. apply tree_ind'; intros; auto.
  - cbn [tmap tmap2]. now rewrite slice_app2.
  - cbn [tmap tmap2].
    assert (E : (fix go (ts us : list field) : outcome (list field) := match ts, us with
                             | [], [] => Ok []
                             | t :: ts', u :: us' => bind (tmap2 (@app (row O)) t u) (fun x => bind (go ts' us') (fun xs => Ok (x :: xs)))
                             | _, _ => Err EValue
                             end) (map (tmap (firstn k)) ts) (map (tmap (list_slice k m)) ts) = Ok (map (tmap (firstn m)) ts)).
    { induction H as [|t ts Ht H IH]; [reflexivity|]. cbn [map]. rewrite Ht. cbn [bind]. rewrite IH. reflexivity. }
    rewrite E. reflexivity.
Qed.

Lemma chunk_id : forall (b : batch O) r, b_W b <> TNone -> b_idx b <> TNone ->
  chunk b r = (let f := tmap (list_slice (fst r) (snd r)) in
   mkB (f (b_S b)) (f (b_A b)) (f (b_logP b)) (list_slice (fst r) (snd r) (b_Rn b)) (f (b_In b)) (f (b_S_next b))
    (f (b_A_next b)) (f (b_logP_next b)) (f (b_W b)) (f (b_idx b)) (f (b_extra b))).
Proof. intros. unfold chunk. apply new_batch_id; now apply tmap_not_none. Qed.

Lemma concat2_chunk : forall k m (b : batch O), k <= m -> b_W b <> TNone -> b_idx b <> TNone ->
  concat2 (prefix k b) (chunk b (k, m)) = Ok (prefix m b).
Proof.
  intros k m b Hk HW HI. rewrite (chunk_id b (k, m) HW HI). unfold concat2, prefix.
  cbn [b_S b_A b_logP b_Rn b_In b_S_next b_A_next b_logP_next b_W b_idx b_extra fst snd].
  rewrite !tmap2_slice by auto. cbn [bind]. rewrite slice_app2 by auto. f_equal. apply new_batch_id; now apply tmap_not_none.
Qed.

Lemma concat_chunks : forall (b : batch O), b_W b <> TNone -> b_idx b <> TNone -> forall ds start,
  concat_from (prefix start b) (map (chunk b) (chunk_ranges start ds)) = Ok (prefix (start + bits_val ds) b).
Proof.
  intros b HW HI. induction ds as [|d ds IH]; intros start; cbn [chunk_ranges map concat_from bits_val]; [now rewrite Nat.add_0_r|].
  destruct d; [|apply IH]. cbn [map concat_from]. rewrite concat2_chunk by (auto; lia). cbn [bind]. rewrite IH. do 2 f_equal. lia.
Qed.

Lemma tmap_slice_0 : forall m (t : field), tmap (list_slice 0 m) t = tmap (firstn m) t.
Proof. intros m t. unfold list_slice. rewrite Nat.sub_0_r. reflexivity. Qed.

Lemma chunk_first : forall m (b : batch O), b_W b <> TNone -> b_idx b <> TNone -> chunk b (0, m) = prefix m b.
Proof.
  intros m b HW HI. rewrite (chunk_id b (0, m) HW HI). unfold prefix. cbn [fst snd]. rewrite !tmap_slice_0. unfold list_slice. rewrite Nat.sub_0_r. reflexivity.
Qed.

Lemma chunks_concat : forall (b : batch O), b_W b <> TNone -> b_idx b <> TNone -> forall ds, bits_val ds <> 0 ->
  concat_batches (map (chunk b) (chunk_ranges 0 ds)) = Ok (prefix (bits_val ds) b).
Proof.
  intros b HW HI. induction ds as [|d ds IH]; intros H; [cbn in H; congruence|]. destruct d; cbn [chunk_ranges map concat_batches bits_val Nat.add].
  - rewrite chunk_first by auto. now rewrite concat_chunks.
  - apply IH. exact H.
Qed.

Lemma ranges_ok : forall ds start s e, In (s, e) (chunk_ranges start ds) ->
  start <= s /\ e <= start + bits_val ds /\ exists k, k < length ds /\ e = s + 2 ^ k.
Proof.
  induction ds as [|d ds IH]; intros start s e H; [destruct H|]. destruct d; cbn [chunk_ranges bits_val length] in *.
  - destruct H as [E|H].
    + injection E as <- <-. split; [auto|]. split; [lia|]. exists (length ds). auto.
    + destruct (IH _ _ _ H) as [H1 [H2 [k [Hk He]]]]. split; [lia|]. split; [lia|]. exists k. split; [lia|auto].
  - destruct (IH _ _ _ H) as [H1 [H2 [k [Hk He]]]]. split; [lia|]. split; [lia|]. exists k. split; [lia|auto].
Qed.

Lemma ranges_sorted : forall ds start, StronglySorted (fun a b => b < a) (map (fun r => snd r - fst r) (chunk_ranges start ds)).
Proof.
  induction ds as [|d ds IH]; intros start; [constructor|]. destruct d; cbn [chunk_ranges map]; auto. constructor; auto.
  apply Forall_forall. intros x Hx. apply in_map_iff in Hx. destruct Hx as [[s e] [<- Hx]]. cbn [fst snd].
  destruct (ranges_ok _ _ _ _ Hx) as [_ [_ [k [Hk ->]]]]. replace (start + 2 ^ length ds - start) with (2 ^ length ds) by lia.
  replace (s + 2 ^ k - s) with (2 ^ k) by lia. apply Nat.pow_lt_mono_r; lia.
Qed.

Lemma leaves_tmap : forall L M (f : L -> M) (t : tree L), leaves (tmap f t) = map f (leaves t).
Proof.
  intros L M f. apply tree_ind'; auto. intros ts H. cbn. induction H as [|t ts Ht H IH]; cbn; auto. now rewrite map_app, Ht, IH.
Qed.

Lemma chunk_consistent : forall n (b : batch O) s e, consistent n b -> s <= e -> e <= n -> consistent (e - s) (chunk b (s, e)).
Proof.
  intros n b s e H Hs He. pose proof H as [_ [HW HI]]. destruct (consistent_fields H) as (F1 & F2 & F3 & F4 & F5 & F6 & F7 & F8 & F9 & F10 & F11).
  rewrite (chunk_id b (s, e) HW HI). cbn [fst snd]. split; [|cbn; split; now apply tmap_not_none].
  assert (L : forall l : list (row O), length l = n -> length (list_slice s e l) = e - s).
  { intros l Hl. unfold list_slice. rewrite firstn_length, skipn_length. lia. }
  assert (T : forall t : field, leaves_have n t -> leaves_have (e - s) (tmap (list_slice s e) t)).
  { intros t Ht l Hl. rewrite leaves_tmap in Hl. apply in_map_iff in Hl. destruct Hl as [l0 [<- Hl]]. apply L. now apply Ht. }
  unfold batch_tree. cbn [b_S b_A b_logP b_Rn b_In b_S_next b_A_next b_logP_next b_W b_idx b_extra]. apply leaves_have_node.
  repeat constructor; auto. intros l [<-|[]]. auto.
Qed.

Lemma chunks_spec : forall n (b : batch O), consistent n b -> 1 <= n ->
  concat_batches (chunks_pow2 b) = Ok b /\
  (forall c, In c (chunks_pow2 b) -> exists k, batch_size c = 2 ^ k /\ consistent (2 ^ k) c) /\
  StronglySorted (fun x y => y < x) (map (@batch_size O) (chunks_pow2 b)).
Proof.
  intros n b H Hn. pose proof H as [_ [HW HI]]. destruct (consistent_fields H) as (_ & _ & _ & F4 & _).
  assert (EN : batch_size b = n) by exact F4. unfold chunks_pow2. rewrite EN.
  assert (SZ : forall s e, s <= e -> e <= n -> batch_size (chunk b (s, e)) = e - s).
  { intros s e Hs He. unfold batch_size. rewrite (chunk_id b (s, e) HW HI). cbn. unfold list_slice. rewrite firstn_length, skipn_length. lia. }
  split; [|split].
  - rewrite chunks_concat by (auto; rewrite bin_val; lia). rewrite bin_val. f_equal. now apply prefix_all.
  - intros c Hc. apply in_map_iff in Hc. destruct Hc as [[s e] [<- Hr]]. destruct (ranges_ok _ _ _ _ Hr) as [_ [H2 [k [_ He]]]].
    rewrite bin_val in H2. exists k. assert (e - s = 2 ^ k) as <- by lia. split; [apply SZ; lia|apply (@chunk_consistent n); auto; lia].
  - rewrite map_map. pose proof (ranges_sorted (bin n) 0) as R.
    replace (map (fun x => batch_size (chunk b x)) (chunk_ranges 0 (bin n))) with (map (fun r : nat * nat => snd r - fst r) (chunk_ranges 0 (bin n))); auto.
    apply map_ext_in. intros [s e] Hr. destruct (ranges_ok _ _ _ _ Hr) as [_ [H2 [k [_ He]]]]. rewrite bin_val in H2. cbn. symmetry. apply SZ; lia.
Qed.
End Chunks.

(** * StepwiseLinearFunction *)
Local Open Scope R_scope.

Lemma ascending_cons : forall t v t' v' l, ascending ((t, v) :: (t', v') :: l) = true <-> (t < t')%Z /\ ascending ((t', v') :: l) = true.
Proof. intros. cbn. rewrite andb_true_iff, Z.ltb_lt. reflexivity. Qed.

Lemma ascending_head : forall l t v, ascending ((t, v) :: l) = true -> forall t' v', In (t', v') l -> (t < t')%Z.
Proof.
  induction l as [|[t1 v1] l IH]; intros t v H t' v' Hin; [destruct Hin|]. apply ascending_cons in H. destruct H as [H1 H2].
  destruct Hin as [E|Hin]; [injection E as <- <-; auto|]. specialize (IH _ _ H2 _ _ Hin). lia.
Qed.

Lemma ascending_tail : forall s l, ascending (s :: l) = true -> ascending l = true.
Proof. intros [t v] [|[t' v'] l] H; auto. apply ascending_cons in H. tauto. Qed.

Lemma ascending_app : forall l1 l2, ascending (l1 ++ l2) = true -> ascending l2 = true.
Proof. induction l1 as [|s l1 IH]; intros l2 H; auto. apply IH. now apply ascending_tail in H. Qed.

Definition le_mask (x : R) (t : Z) : bool := if Rle_dec (IZR t) x then true else false.
Lemma le_mask_true : forall x t, le_mask x t = true <-> IZR t <= x.
Proof. intros. unfold le_mask. destruct (Rle_dec (IZR t) x); split; intros; auto; try discriminate; lra. Qed.
Lemma le_mask_false : forall x t, le_mask x t = false <-> x < IZR t.
Proof. intros. unfold le_mask. destruct (Rle_dec (IZR t) x); split; intros; auto; try discriminate; lra. Qed.

Lemma max_index_app : forall m1 m2 k best, max_index (m1 ++ m2) k best = max_index m2 (k + length m1) (max_index m1 k best).
Proof.
  induction m1 as [|b m1 IH]; intros m2 k best; cbn; [now rewrite Nat.add_0_r|]. rewrite IH. f_equal. lia.
Qed.
Lemma max_index_false : forall m k best, forallb negb m = true -> max_index m k best = best.
Proof. induction m as [|b m IH]; intros k best H; auto. cbn in *. apply andb_true_iff in H. destruct H as [H1 H2]. destruct b; [discriminate|]. now apply IH. Qed.

Lemma slopes_app : forall l1 t v t' v' l2, nth_error (slopes (l1 ++ (t, v) :: (t', v') :: l2)) (length l1) = Some ((v' - v) / (IZR t' - IZR t)).
Proof.
  induction l1 as [|[t0 v0] l1 IH]; intros t v t' v' l2; auto. cbn [app length]. specialize (IH t v t' v' l2).
  destruct l1 as [|[t1 v1] l1]; cbn [app slopes length nth_error] in *; auto.
Qed.

Lemma ascending_before : forall l1 t v l2, ascending (l1 ++ (t, v) :: l2) = true -> forall t' v', In (t', v') l1 -> (t' < t)%Z.
Proof.
  induction l1 as [|[t0 v0] l1 IH]; intros t v l2 H t' v' Hin; [destruct Hin|]. destruct Hin as [E|Hin].
  - injection E as -> ->. cbn [app] in H. eapply (ascending_head _ _ _ H t v). apply in_or_app. right. now left.
  - refine (IH t v l2 _ t' v' Hin). cbn [app] in H. exact (ascending_tail _ _ H).
Qed.

Section Slf.
Variables (steps : list (Z * R)) (f : slf).
Hypothesis Hf : slf_new steps = Ok f.

Lemma slf_fields : (2 <= length steps)%nat /\ ascending steps = true /\
  f = mkSlf (snd (hd (0%Z, 0) steps)) (snd (last steps (0%Z, 0))) (map fst steps) (map snd steps) (slopes steps).
Proof.
  unfold slf_new in Hf. destruct (Nat.ltb_spec (length steps) 2); [discriminate|]. destruct (ascending steps) eqn:E; cbn [negb] in Hf; [|discriminate].
  injection Hf as <-. auto.
Qed.

Lemma slf_before : forall t v l x, steps = (t, v) :: l -> x < IZR t -> slf_call f x = Ok v.
Proof.
  intros t v l x E Hx. destruct slf_fields as [_ [HA Ef]]. unfold slf_call. rewrite Ef. cbn [f_offsets f_start f_final].
  assert (EX : existsb (fun b => b) (map (fun t => if Rle_dec (IZR t) x then true else false) (map fst steps)) = false).
  { destruct (existsb _ _) eqn:EE; auto. exfalso. apply existsb_exists in EE. destruct EE as [b [Hb ->]]. apply in_map_iff in Hb. destruct Hb as [t' [Hb Ht']].
    apply in_map_iff in Ht'. destruct Ht' as [[t2 v2] [<- Hin]]. cbn [fst] in Hb. apply le_mask_true in Hb. rewrite E in Hin, HA. destruct Hin as [Eq|Hin].
    - injection Eq as <- <-. lra.
    - pose proof (ascending_head _ _ _ HA _ _ Hin) as Hlt. apply IZR_lt in Hlt. lra. }
  rewrite EX. cbn [negb]. rewrite E. reflexivity.
Qed.

Lemma slf_after : forall t v l x, steps = l ++ [(t, v)] -> IZR t <= x -> slf_call f x = Ok v.
Proof.
  intros t v l x E Hx. destruct slf_fields as [HL [HA Ef]]. unfold slf_call. rewrite Ef. cbn [f_offsets f_start f_final].
  assert (AL : forallb (fun b => b) (map (fun t => if Rle_dec (IZR t) x then true else false) (map fst steps)) = true).
  { apply forallb_forall. intros b Hb. apply in_map_iff in Hb. destruct Hb as [t' [<- Ht']]. apply in_map_iff in Ht'. destruct Ht' as [[t2 v2] [<- Hin]].
    cbn [fst]. apply le_mask_true. rewrite E in Hin, HA. apply in_app_or in Hin. destruct Hin as [Hin|[Eq|[]]].
    - pose proof (ascending_before _ _ _ _ HA _ _ Hin) as Hlt. apply IZR_lt in Hlt. lra.
    - injection Eq as <- <-. auto. }
  rewrite AL.
  assert (EX : existsb (fun b => b) (map (fun t => if Rle_dec (IZR t) x then true else false) (map fst steps)) = true).
  { rewrite forallb_forall in AL. destruct steps as [|s r]; [cbn in HL; lia|]. cbn [map]. cbn [existsb]. rewrite (AL _ (or_introl eq_refl)). reflexivity. }
  rewrite EX. cbn [negb]. rewrite E, last_last. reflexivity.
Qed.

Lemma slf_between : forall l1 t v t' v' l2 x, steps = l1 ++ (t, v) :: (t', v') :: l2 -> IZR t <= x < IZR t' ->
  slf_call f x = Ok (v + (v' - v) / (IZR t' - IZR t) * (x - IZR t)).
Proof.
  intros l1 t v t' v' l2 x E Hx. destruct slf_fields as [_ [HA Ef]]. unfold slf_call. rewrite Ef. cbn [f_offsets f_start f_final f_intercepts f_slopes].
  rewrite E. rewrite map_map. change (fun s : Z * R => if Rle_dec (IZR (fst s)) x then true else false) with (fun s : Z * R => le_mask x (fst s)).
  set (g := fun s : Z * R => le_mask x (fst s)).
  assert (G1 : g (t, v) = true) by (apply le_mask_true; cbn; lra). assert (G2 : g (t', v') = false) by (apply le_mask_false; cbn; lra).
  assert (G3 : forallb negb (map g ((t', v') :: l2)) = true).
  { apply forallb_forall. intros b Hb. apply in_map_iff in Hb. destruct Hb as [[t2 v2] [<- Hin]]. apply negb_true_iff. destruct Hin as [Eq|Hin].
    - injection Eq as <- <-. exact G2.
    - apply le_mask_false. cbn. rewrite E in HA. apply ascending_app, ascending_tail in HA. pose proof (ascending_head _ _ _ HA _ _ Hin) as Hlt. apply IZR_lt in Hlt. lra. }
  assert (EX : existsb (fun b => b) (map g (l1 ++ (t, v) :: (t', v') :: l2)) = true).
  { apply existsb_exists. exists true. split; auto. rewrite map_app. cbn [map]. rewrite G1. apply in_or_app. right. now left. }
  assert (AL : forallb (fun b => b) (map g (l1 ++ (t, v) :: (t', v') :: l2)) = false).
  { apply not_true_is_false. intros EE. rewrite forallb_forall in EE. enough (false = true) by discriminate. apply EE. rewrite map_app. cbn [map]. rewrite G2.
    apply in_or_app. right. right. now left. }
  rewrite EX, AL. cbn [negb].
  assert (MI : max_index (map g (l1 ++ (t, v) :: (t', v') :: l2)) 0 0 = length l1).
  { rewrite map_app, max_index_app. rewrite map_length. cbn [Nat.add]. change (map g ((t, v) :: (t', v') :: l2)) with (g (t, v) :: map g ((t', v') :: l2)).
    cbn [max_index]. rewrite G1. rewrite max_index_false by exact G3. reflexivity. }
  rewrite MI. assert (N : nth_error (l1 ++ (t, v) :: (t', v') :: l2) (length l1) = Some (t, v)) by (rewrite nth_error_app2, Nat.sub_diag by lia; reflexivity).
  rewrite !nth_error_map, N. cbn [option_map fst snd]. rewrite slopes_app. reflexivity.
Qed.

(** Every argument falls in exactly one of the three cases. *)
Lemma slf_cases : forall x, (exists t v l, steps = (t, v) :: l /\ x < IZR t) \/ (exists t v l, steps = l ++ [(t, v)] /\ IZR t <= x) \/
  (exists l1 t v t' v' l2, steps = l1 ++ (t, v) :: (t', v') :: l2 /\ IZR t <= x < IZR t').
Proof.
  intros x. destruct slf_fields as [HL [HA _]]. destruct steps as [|[t v] l]; [cbn in HL; lia|].
  destruct (Rlt_dec x (IZR t)) as [Hx|Hx]; [left; exists t, v, l; auto|right]. assert (Hge : IZR t <= x) by lra. clear Hx HL Hf.
  revert t v HA Hge. induction l as [|[t' v'] l IH]; intros t v HA Hge.
  - left. exists t, v, []. auto.
  - destruct (Rlt_dec x (IZR t')) as [Hx|Hx]; [right; exists [], t, v, t', v', l; auto|].
    apply ascending_cons in HA. destruct HA as [_ HA]. destruct (IH t' v' HA ltac:(lra)) as [(a & b & m & E & H)|(l1 & a & b & a' & b' & l2 & E & H)].
    + left. exists a, b, ((t, v) :: m). cbn. rewrite <- E. auto.
    + right. exists ((t, v) :: l1), a, b, a', b', l2. cbn. rewrite <- E. auto.
Qed.

Lemma slf_knot : forall t v, In (t, v) steps -> slf_call f (IZR t) = Ok v.
Proof.
  intros t v Hin. apply in_split in Hin. destruct Hin as [l1 [l2 E]]. destruct l2 as [|[t' v'] l2].
  - eapply slf_after; eauto. lra.
  - destruct slf_fields as [_ [HA _]]. rewrite E in HA. apply ascending_app, ascending_cons in HA. destruct HA as [HA _]. apply IZR_lt in HA.
    rewrite (@slf_between l1 t v t' v' l2 (IZR t) E) by lra. f_equal. replace (IZR t - IZR t) with 0 by lra. lra.
Qed.

Lemma slf_range : forall x lo hi, (forall t v, In (t, v) steps -> lo <= v <= hi) -> exists y, slf_call f x = Ok y /\ lo <= y <= hi.
Proof.
  intros x lo hi H. destruct (slf_cases x) as [(t & v & l & E & Hx)|[(t & v & l & E & Hx)|(l1 & t & v & t' & v' & l2 & E & Hx)]].
  - exists v. split; [eapply slf_before; eauto|]. apply (H t). rewrite E. now left.
  - exists v. split; [eapply slf_after; eauto|]. apply (H t). rewrite E. apply in_or_app. right. now left.
  - eexists. split; [eapply slf_between; eauto|].
    assert (B1 : lo <= v <= hi) by (apply (H t); rewrite E; apply in_or_app; right; now left).
    assert (B2 : lo <= v' <= hi) by (apply (H t'); rewrite E; apply in_or_app; right; right; now left).
    set (q := (x - IZR t) / (IZR t' - IZR t)). assert (Q : 0 <= q <= 1).
    { unfold q. split; [apply Rmult_le_pos; [lra|apply Rlt_le, Rinv_0_lt_compat; lra]|]. apply (Rmult_le_reg_r (IZR t' - IZR t)); [lra|].
      unfold Rdiv. rewrite Rmult_assoc, Rinv_l by lra. lra. }
    replace ((v' - v) / (IZR t' - IZR t) * (x - IZR t)) with ((v' - v) * q) by (unfold q; field; lra). nra.
Qed.
End Slf.

Lemma slf_new_ok : forall steps, (2 <= length steps)%nat -> ascending steps = true -> exists f, slf_new steps = Ok f.
Proof. intros steps H1 H2. unfold slf_new. destruct (Nat.ltb_spec (length steps) 2); [lia|]. rewrite H2. cbn. eauto. Qed.

(** [ascending] in plain words. *)
Lemma ascending_iff : forall steps, ascending steps = true <-> forall i t v t' v', nth_error steps i = Some (t, v) -> nth_error steps (S i) = Some (t', v') -> (t < t')%Z.
Proof.
  induction steps as [|[t v] l IH]; [split; auto; intros _ [|i]; discriminate|]. destruct l as [|[t1 v1] l].
  - split; auto. intros _ i a b a' b' H1 H2. destruct i as [|[|]]; discriminate.
  - rewrite ascending_cons, IH. split.
    + intros [H1 H2] [|i] a b a' b' E1 E2; cbn in *; [congruence|]. eapply (H2 i); eauto.
    + intros H. split; [eapply (H 0%nat); reflexivity|]. intros i a b a' b' E1 E2. eapply (H (S i)); eauto.
Qed.

Lemma slf_rejects : forall steps,
  ((length steps < 2)%nat <-> slf_new steps = Err EType) /\
  ((2 <= length steps)%nat -> (~ ascending steps = true <-> slf_new steps = Err EValue)).
Proof.
  intros steps. unfold slf_new. split.
  - destruct (Nat.ltb_spec (length steps) 2); split; auto; try lia. destruct (ascending steps); discriminate.
  - intros H. destruct (Nat.ltb_spec (length steps) 2); [lia|]. destruct (ascending steps); cbn; split; auto; try discriminate. congruence.
Qed.
