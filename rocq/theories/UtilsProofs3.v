(** merge_dicts and sync_shared_params. *)
From Coq Require Import List ZArith Lia Bool Reals Lra.
From Verif Require Import PyCommon UtilsModel UtilsSpec UtilsProofs2.
Import ListNotations.
Set Implicit Arguments.

(** * Dicts *)
Section Dicts.
Variable V : Type.
Lemma dget_dset : forall (d : dict V) k v j, dget j (dset k v d) = if Nat.eqb j k then Some v else dget j d.
Proof.
  induction d as [|[k' v'] d IH]; intros k v j; cbn [dset dget].
  - destruct (Nat.eqb j k); auto.
  - destruct (Nat.eqb_spec k k') as [->|Hk]; cbn [dget].
    + destruct (Nat.eqb j k'); auto.
    + rewrite IH. destruct (Nat.eqb_spec j k') as [->|]; auto. destruct (Nat.eqb_spec k' k); auto. congruence.
Qed.
Lemma dset_same : forall (d : dict V) k v, dget k d = Some v -> dset k v d = d.
Proof.
  induction d as [|[k' v'] d IH]; intros k v H; cbn in *; [discriminate|]. destruct (Nat.eqb_spec k k') as [->|]; [congruence|]. now rewrite IH.
Qed.
Lemma dget_key : forall (d : dict V) k v, dget k d = Some v -> In k (map fst d).
Proof.
  induction d as [|[k' v'] d IH]; intros k v H; cbn in *; [discriminate|]. destruct (Nat.eqb_spec k k') as [->|]; [now left|]. right. eapply IH; eauto.
Qed.

Lemma dget_dupdate : forall (e d : dict V) k, NoDup (map fst e) -> dget k (dupdate d e) = match dget k e with Some v => Some v | None => dget k d end.
Proof.
  induction e as [|[k' v'] e IH]; intros d k H; [reflexivity|]. cbn [map fst] in H. inversion H as [|? ? Hn Hd]; subst. unfold dupdate. cbn [fold_left fst snd].
  change (dget k (dupdate (dset k' v' d) e) = match dget k ((k', v') :: e) with Some v => Some v | None => dget k d end). rewrite IH by auto. cbn [dget].
  rewrite dget_dset. destruct (Nat.eqb_spec k k') as [->|]; auto. destruct (dget k' e) eqn:E; auto. apply dget_key in E. contradiction.
Qed.

(** The last dict of the list that has the key. *)
Fixpoint last_has (k : nat) (ds : list (dict V)) (acc : option V) : option V :=
  match ds with [] => acc | d :: ds' => last_has k ds' (match dget k d with Some v => Some v | None => acc end) end.
Lemma merge_from : forall (ds : list (dict V)) m k, Forall (fun d => NoDup (map fst d)) ds -> dget k (fold_left (fun m d => dupdate m d) ds m) = last_has k ds (dget k m).
Proof.
  induction ds as [|d ds IH]; intros m k H; [reflexivity|]. inversion H; subst. cbn [fold_left last_has]. rewrite IH by auto. now rewrite dget_dupdate.
Qed.

Lemma last_has_none : forall (ds : list (dict V)) k acc, (forall d, In d ds -> dget k d = None) -> last_has k ds acc = acc.
Proof. induction ds as [|d ds IH]; intros k acc H; auto. cbn. rewrite (H d (or_introl eq_refl)). apply IH. intros; apply H; now right. Qed.
Lemma last_has_app : forall (a b : list (dict V)) k acc, last_has k (a ++ b) acc = last_has k b (last_has k a acc).
Proof. induction a; intros; cbn; auto. Qed.

Lemma merge_spec : forall ds : list (dict V), Forall (fun d => NoDup (map fst d)) ds ->
  (forall k v ds1 d ds2, ds = ds1 ++ d :: ds2 -> dget k d = Some v -> (forall e, In e ds2 -> dget k e = None) -> dget k (merge_dicts ds) = Some v) /\
  (forall k, (forall d, In d ds -> dget k d = None) -> dget k (merge_dicts ds) = None).
Proof.
  intros ds H. unfold merge_dicts. split.
  - intros k v ds1 d ds2 -> E H2. rewrite merge_from by auto. rewrite last_has_app. cbn [last_has]. rewrite E. now apply last_has_none.
  - intros k Hk. rewrite merge_from by auto. now apply last_has_none.
Qed.

(** Keys stay distinct, so the result is a dict again. *)
Lemma dset_in : forall (d : dict V) k v j, In j (map fst (dset k v d)) -> j = k \/ In j (map fst d).
Proof.
  induction d as [|[k' v'] d IH]; intros k v j H; cbn in *; [destruct H; auto|]. destruct (Nat.eqb_spec k k') as [->|]; cbn in H.
  - destruct H; auto.
  - destruct H as [H|H]; auto. destruct (IH _ _ _ H); auto.
Qed.
Lemma dset_nodup : forall (d : dict V) k v, NoDup (map fst d) -> NoDup (map fst (dset k v d)).
Proof.
  induction d as [|[k' v'] d IH]; intros k v H; cbn in *; [constructor; auto|]. inversion H; subst. destruct (Nat.eqb_spec k k') as [->|]; cbn; constructor; auto.
  intros C. apply dset_in in C. destruct C; [congruence|contradiction].
Qed.
Lemma dupdate_nodup : forall (e d : dict V), NoDup (map fst d) -> NoDup (map fst (dupdate d e)).
Proof. induction e as [|[k v] e IH]; intros d H; auto. unfold dupdate. cbn [fold_left fst snd]. apply IH. now apply dset_nodup. Qed.
Lemma merge_nodup : forall ds : list (dict V), NoDup (map fst (merge_dicts ds)).
Proof.
  intros ds. unfold merge_dicts. assert (H : forall ds m, NoDup (map fst m) -> NoDup (map fst (fold_left (fun m d => @dupdate V m d) ds m))).
  { induction ds0 as [|d ds0 IH]; intros m Hm; auto. cbn. apply IH. now apply dupdate_nodup. }
  apply H. constructor.
Qed.
End Dicts.

Local Open Scope R_scope.
Definition col {V} (k : nat) (ps : list (dict V)) : list (option V) := map (dget k) ps.

Lemma count_col : forall V k (ps : list (dict V)), count_key k ps = owners (col k ps).
Proof.
  intros V k ps. unfold count_key, owners, col. induction ps as [|p ps IH]; auto. cbn [filter map]. unfold has_key at 1. destruct (dget k p); cbn [length]; auto.
Qed.

(** The effect of one key, in terms of its column only. *)
Definition shared_of (c : list (option group)) : list group := flat_map (fun o => match o with Some g => [g] | None => [] end) c.
Definition rel_of (ws : list R) (c : list (option group)) : list R := flat_map (fun wo => match snd wo with Some _ => [fst wo] | None => [] end) (combine ws c).
Definition agg_of (ws : list R) (c : list (option group)) : group :=
  sum_groups (map (fun wg => scale_group (fst wg / rsum (rel_of ws c)) (snd wg)) (combine (rel_of ws c) (shared_of c))).
Definition same_len (gs : list group) : bool := forallb (fun g => Nat.eqb (length g) (length (hd [] gs))) gs.

Lemma shared_col : forall k (ps : list (dict group)), flat_map (fun p => match dget k p with Some g => [g] | None => [] end) ps = shared_of (col k ps).
Proof. intros. unfold shared_of, col. induction ps as [|p ps IH]; auto. cbn. now rewrite IH. Qed.
Lemma rel_col : forall k (ps : list (dict group)) ws, flat_map (fun wp => if has_key k (snd wp) then [fst wp] else []) (combine ws ps) = rel_of ws (col k ps).
Proof.
  intros k. unfold rel_of, col. induction ps as [|p ps IH]; intros [|w ws]; auto. cbn [combine map flat_map fst snd]. rewrite IH. unfold has_key. destruct (dget k p); auto.
Qed.

Lemma sync_key_unfold : forall ws ps k, sync_key ws ps k =
  (let c := col k ps in
   if Nat.ltb (owners c) 2 then Ok ps
   else if negb (same_len (shared_of c)) then Err EAssertion
   else if Rlt_dec 0 (rsum (rel_of ws c)) then Ok (map (fun p => if has_key k p then dset k (agg_of ws c) p else p) ps) else Err EAssertion).
Proof. intros. unfold sync_key, agg_of, same_len. rewrite shared_col, rel_col, count_col. reflexivity. Qed.

Definition newcol (ws : list R) (c : list (option group)) : list (option group) :=
  if Nat.ltb (owners c) 2 then c else map (option_map (fun _ => agg_of ws c)) c.

Lemma col_update : forall k a j (ps : list (dict group)), col j (map (fun p => if has_key k p then dset k a p else p) ps) =
  if Nat.eqb j k then map (option_map (fun _ => a)) (col k ps) else col j ps.
Proof.
  intros k a j ps. unfold col. rewrite map_map. destruct (Nat.eqb_spec j k) as [->|Hj].
  - rewrite map_map. apply map_ext. intros p. unfold has_key. destruct (dget k p) eqn:E; cbn; [rewrite dget_dset, Nat.eqb_refl; auto|auto].
  - apply map_ext. intros p. destruct (has_key k p); auto. rewrite dget_dset. destruct (Nat.eqb_spec j k); congruence.
Qed.

Lemma sync_key_cols : forall ws ps k ps', sync_key ws ps k = Ok ps' -> length ps' = length ps /\
  forall j, col j ps' = if Nat.eqb j k then newcol ws (col k ps) else col j ps.
Proof.
  intros ws ps k ps' H. rewrite sync_key_unfold in H. cbv zeta in H. unfold newcol. destruct (Nat.ltb (owners (col k ps)) 2) eqn:E.
  - injection H as <-. split; auto. intros j. destruct (Nat.eqb_spec j k) as [->|]; auto.
  - destruct (same_len (shared_of (col k ps))); [|discriminate]. cbn [negb] in H. destruct (Rlt_dec 0 (rsum (rel_of ws (col k ps)))); [|discriminate].
    injection H as <-. split; [apply map_length|]. intros j. apply col_update.
Qed.

Lemma sync_keys_cols : forall ws ks ps ps', NoDup ks -> sync_keys ws ps ks = Ok ps' -> length ps' = length ps /\
  (forall k, In k ks -> col k ps' = newcol ws (col k ps)) /\ (forall k, ~ In k ks -> col k ps' = col k ps).
Proof.
  intros ws. induction ks as [|k ks IH]; intros ps ps' HN H; cbn [sync_keys] in H.
  - injection H as <-. split; [auto|split; [intros k []|auto]].
  - inversion HN as [|? ? Hk HN']; subst. destruct (sync_key ws ps k) as [ps1|] eqn:E; [|discriminate]. cbn [bind] in H.
    destruct (sync_key_cols _ _ _ E) as [L1 C1]. destruct (IH _ _ HN' H) as [L2 [I2 O2]]. split; [congruence|]. split.
    + intros j [<-|Hj].
      * rewrite O2 by auto. rewrite C1, Nat.eqb_refl. auto.
      * rewrite I2 by auto. rewrite C1. destruct (Nat.eqb_spec j k) as [->|]; [contradiction|auto].
    + intros j Hj. rewrite O2 by (intros C; apply Hj; now right). rewrite C1. destruct (Nat.eqb_spec j k) as [->|]; auto. exfalso. apply Hj. now left.
Qed.

Lemma distinct_in : forall l k, In k (distinct l) <-> In k l.
Proof.
  induction l as [|a l IH]; intros k; [reflexivity|]. cbn. rewrite filter_In, IH. destruct (Nat.eqb_spec k a) as [->|]; cbn; intuition auto; congruence.
Qed.
Lemma distinct_nodup : forall l, NoDup (distinct l).
Proof.
  induction l as [|a l IH]; cbn; constructor.
  - rewrite filter_In. intros [_ C]. rewrite Nat.eqb_refl in C. discriminate.
  - now apply NoDup_filter.
Qed.

Lemma owners_in : forall V k (ps : list (dict V)), ~ In k (flat_map (map fst) ps) -> owners (col k ps) = 0%nat.
Proof.
  intros V k. induction ps as [|p ps IH]; intros H; auto. cbn [flat_map] in H. unfold owners, col. cbn [map filter]. destruct (dget k p) eqn:E.
  - exfalso. apply H. apply in_or_app. left. eapply dget_key; eauto.
  - apply IH. intros C. apply H. apply in_or_app. now right.
Qed.

Lemma sync_all_cols : forall ws ps qs, sync_keys ws ps (distinct (flat_map (map fst) ps)) = Ok qs -> length qs = length ps /\ forall k, col k qs = newcol ws (col k ps).
Proof.
  intros ws ps qs H. destruct (sync_keys_cols _ _ (distinct_nodup _) H) as [L [I O]]. split; auto. intros k.
  destruct (in_dec Nat.eq_dec k (distinct (flat_map (map fst) ps))) as [Hin|Hin]; auto. rewrite O by auto. unfold newcol.
  rewrite owners_in; auto. rewrite distinct_in in Hin. auto.
Qed.

(** * The aggregate is the weighted average *)
Lemma add_groups_nth : forall a b j, length a = length b -> nth j (add_groups a b) 0 = nth j a 0 + nth j b 0 /\ length (add_groups a b) = length a.
Proof.
  induction a as [|x a IH]; intros [|y b] j H; try discriminate; cbn in *; [destruct j; split; auto; lra|]. destruct (IH b (Nat.pred j) ltac:(lia)) as [H1 H2].
  split; [|now rewrite H2]. destruct j; cbn in *; auto.
Qed.
Lemma fold_add : forall gs acc j, (forall g, In g gs -> length g = length acc) ->
  nth j (fold_left add_groups gs acc) 0 = nth j acc 0 + rsum (map (fun g => nth j g 0) gs) /\ length (fold_left add_groups gs acc) = length acc.
Proof.
  induction gs as [|g gs IH]; intros acc j H; cbn [fold_left map rsum]; [split; auto; lra|].
  destruct (@add_groups_nth acc g j) as [H1 H2]; [symmetry; apply H; now left|].
  destruct (IH (add_groups acc g) j) as [H3 H4]; [intros g' Hg'; rewrite H2; apply H; now right|]. rewrite H3, H4, H1, H2. split; auto. lra.
Qed.
Lemma nth_zeros : forall (g : group) j, nth j (map (fun _ => 0) g) 0 = 0.
Proof. induction g; intros [|j]; cbn; auto. Qed.
Lemma sum_groups_nth : forall gs L j, gs <> [] -> (forall g, In g gs -> length g = L) -> nth j (sum_groups gs) 0 = rsum (map (fun g => nth j g 0) gs) /\ length (sum_groups gs) = L.
Proof.
  intros gs L j Hg H. destruct gs as [|g gs]; [congruence|]. unfold sum_groups. destruct (@fold_add (g :: gs) (map (fun _ => 0) g) j) as [H1 H2].
  - intros g' Hg'. rewrite map_length. rewrite !H; auto. now left.
  - rewrite H1, H2, nth_zeros, map_length. split; [lra|]. apply H. now left.
Qed.
Lemma scale_nth : forall w g j, nth j (scale_group w g) 0 = w * nth j g 0.
Proof. unfold scale_group. induction g; intros [|j]; cbn; auto; lra. Qed.

Lemma total_cons : forall x l, total (x :: l) = x + total l. Proof. reflexivity. Qed.
Lemma rel_weight : forall ws c, rsum (rel_of ws c) = owner_weight ws c.
Proof.
  unfold rel_of, owner_weight. induction ws as [|w ws IH]; intros [|o c]; auto. cbn [combine flat_map map fst snd]. rewrite rsum_app, IH, total_cons. destruct o; cbn [rsum]; lra.
Qed.
Lemma rel_length : forall c ws, length ws = length c -> length (rel_of ws c) = length (shared_of c).
Proof.
  unfold rel_of, shared_of. induction c as [|o c IH]; intros [|w ws] H; try discriminate; auto. cbn [combine flat_map fst snd]. rewrite !app_length, IH by (cbn in H; lia).
  destruct o; auto.
Qed.
Lemma rel_sum : forall c ws j s, length ws = length c -> rsum (map (fun wg : R * group => fst wg / s * nth j (snd wg) 0) (combine (rel_of ws c) (shared_of c))) = owner_sum j ws c / s.
Proof.
  unfold rel_of, shared_of, owner_sum. induction c as [|o c IH]; intros [|w ws] j s H; try discriminate; [cbn; lra|]. cbn [combine flat_map map fst snd].
  rewrite total_cons. destruct o as [g|]; cbn [app combine map rsum fst snd]; rewrite IH by (cbn in H; lia); lra.
Qed.
Lemma shared_in : forall g c, In g (shared_of c) <-> In (Some g) c.
Proof.
  intros g. unfold shared_of. induction c as [|o c IH]; cbn; [tauto|]. rewrite in_app_iff, IH. destruct o as [g'|]; cbn; split; intros [H|H]; auto; try congruence.
  - destruct H as [->|[]]. auto.
  - injection H as ->. auto.
  - destruct H.
Qed.
Lemma owners_shared : forall (c : list (option group)), owners c = length (shared_of c).
Proof. unfold owners, shared_of. induction c as [|[g|] c IH]; cbn; auto. Qed.
Lemma same_len_iff : forall gs, same_len gs = true <-> exists L, forall g, In g gs -> length g = L.
Proof.
  intros gs. unfold same_len. rewrite forallb_forall. split.
  - intros H. exists (length (hd [] gs)). intros g Hg. apply Nat.eqb_eq. auto.
  - intros [L H] g Hg. apply Nat.eqb_eq. rewrite (H g Hg). destruct gs as [|g0 gs]; [destruct Hg|]. symmetry. apply H. now left.
Qed.

Lemma agg_spec : forall ws c L j, length ws = length c -> (1 <= owners c)%nat -> (forall g, In (Some g) c -> length g = L) ->
  nth j (agg_of ws c) 0 = owner_sum j ws c / owner_weight ws c /\ length (agg_of ws c) = L.
Proof.
  intros ws c L j HW HO HL. unfold agg_of. rewrite rel_weight.
  destruct (@sum_groups_nth (map (fun wg => scale_group (fst wg / owner_weight ws c) (snd wg)) (combine (rel_of ws c) (shared_of c))) L j) as [H1 H2].
  - intros C. apply (f_equal (@length group)) in C. rewrite map_length, combine_length, rel_length in C by auto. rewrite <- owners_shared in C. cbn [length] in C. lia.
  - intros g Hg. apply in_map_iff in Hg. destruct Hg as [[w g'] [<- Hg]]. apply in_combine_r in Hg. cbn [snd]. unfold scale_group. rewrite map_length. apply HL. now apply shared_in.
  - rewrite H1, H2. split; auto. rewrite map_map. rewrite <- rel_sum by auto. f_equal. apply map_ext. intros [w g]. now rewrite scale_nth.
Qed.

Lemma owners_map : forall (c : list (option group)) (a : group), owners (map (option_map (fun _ => a)) c) = owners c.
Proof. unfold owners. induction c as [|[g|] c IH]; intros a; cbn; auto. Qed.
Lemma weight_map : forall (c : list (option group)) (a : group) ws, owner_weight ws (map (option_map (fun _ => a)) c) = owner_weight ws c.
Proof. unfold owner_weight. induction c as [|o c IH]; intros a [|w ws]; auto. cbn [map combine fst snd]. rewrite !total_cons, IH. destruct o; auto. Qed.
Lemma sum_map : forall (c : list (option group)) (a : group) ws j, owner_sum j ws (map (option_map (fun _ => a)) c) = owner_weight ws c * nth j a 0.
Proof.
  unfold owner_sum, owner_weight. induction c as [|o c IH]; intros a [|w ws] j; cbn [map combine fst snd]; try (cbn; lra). rewrite !total_cons, IH. destruct o; cbn [option_map]; lra.
Qed.

Lemma agg_again : forall ws c, length ws = length c -> (1 <= owners c)%nat -> owner_weight ws c <> 0 -> (exists L, forall g, In (Some g) c -> length g = L) ->
  agg_of ws (map (option_map (fun _ => agg_of ws c)) c) = agg_of ws c.
Proof.
  intros ws c HW HO HS [L HL]. set (a := agg_of ws c). destruct (@agg_spec ws c L 0%nat HW HO HL) as [_ La]. fold a in La.
  assert (HL' : forall g, In (Some g) (map (option_map (fun _ => a)) c) -> length g = L).
  { intros g Hg. apply in_map_iff in Hg. destruct Hg as [[g0|] [E _]]; cbn in E; [injection E as <-; auto|discriminate]. }
  assert (HO' : (1 <= owners (map (option_map (fun _ => a)) c))%nat) by (rewrite owners_map; auto).
  assert (HW' : length ws = length (map (option_map (fun _ => a)) c)) by (now rewrite map_length).
  apply nth_ext with (d := 0) (d' := 0).
  - destruct (@agg_spec ws _ L 0%nat HW' HO' HL') as [_ ->]. auto.
  - intros j _. destruct (@agg_spec ws _ L j HW' HO' HL') as [-> _]. rewrite sum_map, weight_map. field. auto.
Qed.

(** Both passes. *)
Definition the_weights (ps : list (dict group)) (weights : option (list R)) : list R := match weights with Some w => w | None => map (fun _ => 1) ps end.

Lemma sync_keys_ok : forall ws ks ps, NoDup ks -> (forall k, In k ks -> (2 <= owners (col k ps))%nat -> same_len (shared_of (col k ps)) = true /\ 0 < rsum (rel_of ws (col k ps))) ->
  exists qs, sync_keys ws ps ks = Ok qs.
Proof.
  intros ws. induction ks as [|k ks IH]; intros ps HN H; [exists ps; reflexivity|]. inversion HN as [|? ? Hk HN']; subst. cbn [sync_keys].
  assert (E : exists ps1, sync_key ws ps k = Ok ps1).
  { rewrite sync_key_unfold. cbv zeta. destruct (Nat.ltb_spec (owners (col k ps)) 2); [eauto|]. destruct (H k (or_introl eq_refl) H0) as [-> H2]. cbn [negb].
    destruct (Rlt_dec 0 (rsum (rel_of ws (col k ps)))); [eauto|lra]. }
  destruct E as [ps1 E]. rewrite E. cbn [bind]. destruct (sync_key_cols _ _ _ E) as [_ C]. apply IH; auto. intros j Hj. rewrite C.
  destruct (Nat.eqb_spec j k) as [->|]; [contradiction|]. apply H. now right.
Qed.

Lemma owner_weight_pos : forall ws c, length ws = length c -> (forall w, In w ws -> 0 < w) -> (1 <= owners c)%nat -> 0 < owner_weight ws c.
Proof.
  intros ws c HL HP HO. rewrite <- rel_weight. apply rsum_pos.
  - intros C. apply (f_equal (@length R)) in C. rewrite rel_length in C by auto. rewrite <- owners_shared in C. cbn in C. lia.
  - intros x Hx. unfold rel_of in Hx. apply in_flat_map in Hx. destruct Hx as [[w o] [Hin Hx]]. cbn [fst snd] in Hx. apply in_combine_l in Hin.
    destruct o; [destruct Hx as [<-|[]]; auto|destruct Hx].
Qed.

Lemma nth_col : forall V k (ps : list (dict V)) i p, nth_error ps i = Some p -> nth_error (col k ps) i = Some (dget k p).
Proof. intros. unfold col. rewrite nth_error_map, H. reflexivity. Qed.

Lemma sync_spec : forall ps weights, (2 <= length ps)%nat -> let ws := the_weights ps weights in
  length ws = length ps -> (forall w, In w ws -> 0 < w) ->
  (forall k p p' g g', In p ps -> In p' ps -> dget k p = Some g -> dget k p' = Some g' -> length g = length g') ->
  exists qs, sync_shared_params ps weights = Ok qs /\ length qs = length ps /\
    (forall i p q k, nth_error ps i = Some p -> nth_error qs i = Some q ->
       (dget k p = None -> dget k q = None) /\
       ((owners (map (dget k) ps) < 2)%nat -> dget k q = dget k p) /\
       ((2 <= owners (map (dget k) ps))%nat -> forall g, dget k p = Some g -> exists a, dget k q = Some a /\ length a = length g /\
          forall j, nth j a 0 = owner_sum j ws (map (dget k) ps) / owner_weight ws (map (dget k) ps))) /\
    sync_shared_params qs weights = Ok qs.
Proof.
  intros ps weights H2 ws HW HP HS.
  assert (SL : forall k, exists L, forall g, In (Some g) (col k ps) -> length g = L).
  { intros k. destruct (shared_of (col k ps)) as [|g0 r] eqn:E.
    - exists 0%nat. intros g Hg. apply shared_in in Hg. rewrite E in Hg. destruct Hg.
    - exists (length g0). intros g Hg. assert (H0 : In (Some g0) (col k ps)) by (apply shared_in; rewrite E; now left).
      unfold col in Hg, H0. apply in_map_iff in Hg, H0. destruct Hg as [p [Ep Hp]], H0 as [p0 [Ep0 Hp0]]. exact (HS k p p0 g g0 Hp Hp0 Ep Ep0). }
  assert (LC : forall k, length ws = length (col k ps)) by (intros k; unfold col; now rewrite map_length).
  assert (WP : forall k, (1 <= owners (col k ps))%nat -> 0 < owner_weight ws (col k ps)) by (intros k Hk; now apply owner_weight_pos).
  destruct (@sync_keys_ok ws (distinct (flat_map (map fst) ps)) ps (distinct_nodup _)) as [qs E].
  { intros k _ Hk. split; [|rewrite rel_weight; apply WP; lia]. apply same_len_iff. destruct (SL k) as [L HL]. exists L. intros g Hg. apply HL. now apply shared_in. }
  destruct (sync_all_cols _ _ E) as [LQ CQ].
  exists qs. split; [|split; [auto|split]].
  - unfold sync_shared_params. destruct (Nat.ltb_spec (length ps) 2); [lia|]. cbv zeta. fold (the_weights ps weights). fold ws. rewrite HW, Nat.eqb_refl. exact E.
  - intros i p q k Ep Eq. pose proof (nth_col k _ _ Ep) as Cp. pose proof (nth_col k _ _ Eq) as Cq. rewrite CQ in Cq. unfold newcol in Cq. change (map (dget k) ps) with (col k ps).
    destruct (Nat.ltb_spec (owners (col k ps)) 2) as [Hlt|Hge].
    + assert (dget k q = dget k p) as -> by congruence. split; [auto|split; [auto|lia]].
    + rewrite nth_error_map, Cp in Cq. cbn [option_map] in Cq. injection Cq as Cq. split; [|split; [lia|]].
      * intros N. rewrite N in Cq. cbn in Cq. congruence.
      * intros _ g Eg. rewrite Eg in Cq. cbn in Cq. exists (agg_of ws (col k ps)). split; [congruence|]. destruct (SL k) as [L HL]. split.
        -- destruct (@agg_spec ws (col k ps) L 0%nat (LC k) ltac:(lia) HL) as [_ ->]. symmetry. apply HL. apply nth_error_In in Cp. congruence.
        -- intros j. destruct (@agg_spec ws (col k ps) L j (LC k) ltac:(lia) HL) as [-> _]. reflexivity.
  - unfold sync_shared_params. rewrite LQ. destruct (Nat.ltb_spec (length ps) 2); [lia|]. cbv zeta.
    assert (EW : match weights with Some w => w | None => map (fun _ => 1) qs end = ws).
    { unfold ws, the_weights. destruct weights; auto. clear -LQ. revert ps LQ. induction qs as [|q qs IH]; intros [|p ps] H; try discriminate; auto. cbn. f_equal. apply IH. cbn in H; lia. }
    rewrite EW, HW, Nat.eqb_refl. cbn [negb].
    assert (K : forall k, sync_key ws qs k = Ok qs).
    { intros k. rewrite sync_key_unfold. cbv zeta. rewrite CQ. unfold newcol. destruct (Nat.ltb_spec (owners (col k ps)) 2) as [Hlt|Hge].
      - destruct (Nat.ltb_spec (owners (col k ps)) 2); [auto|lia].
      - rewrite owners_map. destruct (Nat.ltb_spec (owners (col k ps)) 2); [lia|]. destruct (SL k) as [L HL].
        assert (SLn : same_len (shared_of (map (option_map (fun _ => agg_of ws (col k ps))) (col k ps))) = true).
        { apply same_len_iff. exists L. intros g Hg. apply shared_in in Hg. apply in_map_iff in Hg. destruct Hg as [[g0|] [Eg _]]; cbn in Eg; [injection Eg as <-|discriminate].
          destruct (@agg_spec ws (col k ps) L 0%nat (LC k) ltac:(lia) HL) as [_ ->]. auto. }
        rewrite SLn. cbn [negb]. rewrite rel_weight, weight_map. destruct (Rlt_dec 0 (owner_weight ws (col k ps))) as [_|N]; [|exfalso; apply N, WP; lia].
        f_equal. rewrite agg_again; [|auto|lia|pose proof (WP k ltac:(lia)); lra|exists L; auto].
        transitivity (map (fun p : dict group => p) qs); [|apply map_id]. apply map_ext_in. intros q Hq. unfold has_key. destruct (dget k q) as [g|] eqn:Eg; auto. apply dset_same.
        apply In_nth_error in Hq. destruct Hq as [i Hi]. pose proof (nth_col k _ _ Hi) as Cq. rewrite CQ in Cq. unfold newcol in Cq.
        destruct (Nat.ltb_spec (owners (col k ps)) 2); [lia|]. apply nth_error_In in Cq. apply in_map_iff in Cq. destruct Cq as [[g0|] [E0 _]]; cbn in E0; congruence. }
    clear -K. induction (distinct (flat_map (map fst) qs)) as [|k ks IH]; auto. cbn [sync_keys]. rewrite K. exact IH.
Qed.
