(** n-step entropy, q-based objectives, log-propensities. *)
From Coq Require Import List Bool Arith Lia Reals Lra.
From Verif Require Import PyCommon CommonProofs UtilsModel UtilsSpec UtilsProofs2 UtilsProofs3 WrappersProofs DistModel DistSpec DistProofs LossModel LossSpec LossProofs QModel TDModel TDSpec TDProofs TDProofs2 TDProofs3 TracerModel TracerSpec PolicyModel PolicySpec PolicyProofs PolicyProofs2.
Import ListNotations.
Set Implicit Arguments.
Local Open Scope R_scope.

(** * The mask *)
Fixpoint mask (b : bool) (l : list bool) : list R := match l with [] => [] | d :: l' => (if b then 0 else 1) :: mask (b || d) l' end.
Lemma rmin_count : forall c, 1 - Rmin (INR c) 1 = if Nat.eqb c 0 then 1 else 0.
Proof. intros [|c]; cbn [Nat.eqb]; [cbn; rewrite Rmin_left; lra|]. rewrite Rmin_right; [lra|]. change 1 with (INR 1). apply le_INR. lia. Qed.
Lemma mask_cumsum : forall l d acc, mask (negb (Nat.eqb acc 0)) (d :: l) = (1 - Rmin (INR acc) 1) :: map (fun c => 1 - Rmin (INR c) 1) (cumsum acc (removelast (d :: l))).
Proof.
  induction l as [|e l IH]; intros d acc.
  - cbn [mask removelast cumsum map]. rewrite rmin_count. now destruct (Nat.eqb acc 0).
  - cbn [mask]. rewrite rmin_count. f_equal; [now destruct (Nat.eqb acc 0)|]. change (removelast (d :: e :: l)) with (d :: removelast (e :: l)). cbn [cumsum map]. rewrite <- IH. f_equal. destruct d, acc; cbn; auto; now rewrite Nat.add_0_r, ?Nat.add_1_r.
Qed.
Lemma valid_mask : forall l, valid_from_done l = mask false l.
Proof. intros [|d l]; auto. unfold valid_from_done. pose proof (@mask_cumsum l d 0) as M. cbn [Nat.eqb negb] in M. rewrite M. f_equal. cbn. rewrite Rmin_left; lra. Qed.

Lemma filter_map_S : forall (p : nat -> bool) l, filter p (map S l) = map S (filter (fun j => p (S j)) l).
Proof. induction l as [|j l IH]; auto. cbn [map filter]. rewrite IH. now destruct (p (S j)). Qed.
Section Bonus.
Variable gamma : R.
Variable h : nat -> R.       (* entropy at offset k *)
Variable dn : nat -> bool.   (* done flag at offset k *)
Fixpoint bonus (b : bool) (ns : list nat) : R := match ns with [] => 0 | k :: ns' => gamma ^ k * h k * (if b then 0 else 1) + bonus (b || dn k) ns' end.
Lemma osum_bonus : forall ns b, osum (ozip (ozip (map (fun k => Some (gamma ^ k)) ns) (map (fun k => Some (h k)) ns)) (map Some (mask b (map dn ns)))) = Some (bonus b ns).
Proof.
  unfold ozip. induction ns as [|k ns IH]; intros b; auto. cbn [map mask combine osum bonus]. rewrite IH. reflexivity.
Qed.
Lemma bonus_true : forall ns, bonus true ns = 0. Proof. induction ns as [|k ns IH]; cbn [bonus orb]; auto. rewrite IH. lra. Qed.
Lemma bonus_none : forall ns, (forall k, In k ns -> dn k = false) -> bonus false ns = total (map (fun k => gamma ^ k * h k) ns).
Proof. induction ns as [|k ns IH]; intros H; auto. cbn [bonus map]. rewrite total_cons, (H k) by now left. cbn [orb]. rewrite IH; [lra|]. intros; apply H; now right. Qed.
Lemma bonus_app : forall ns ns', (forall k, In k ns -> dn k = false) -> bonus false (ns ++ ns') = total (map (fun k => gamma ^ k * h k) ns) + bonus false ns'.
Proof. induction ns as [|k ns IH]; intros ns' H; [cbn [app map bonus]; change (total []) with 0; lra|]. cbn [app bonus map]. rewrite total_cons, (H k) by now left. cbn [orb]. rewrite IH; [lra|]. intros; apply H; now right. Qed.
Lemma bonus_index : forall ns b, bonus b ns = total (map (fun j => gamma ^ (nth j ns 0%nat) * h (nth j ns 0%nat)) (filter (fun j => negb b && forallb (fun k => negb (dn k)) (firstn j ns)) (seq 0 (length ns)))).
Proof.
  induction ns as [|k ns IH]; intros b; auto. cbn [bonus length seq filter firstn forallb]. rewrite andb_true_r, IH. rewrite <- seq_shift.
  assert (E : total (map (fun j => gamma ^ nth j ns 0%nat * h (nth j ns 0%nat)) (filter (fun j => negb (b || dn k) && forallb (fun k0 => negb (dn k0)) (firstn j ns)) (seq 0 (length ns))))
    = total (map (fun j => gamma ^ nth j (k :: ns) 0%nat * h (nth j (k :: ns) 0%nat)) (filter (fun j => negb b && forallb (fun k0 => negb (dn k0)) (firstn j (k :: ns))) (map S (seq 0 (length ns)))))).
  { rewrite filter_map_S, map_map. cbn [nth firstn forallb]. f_equal. f_equal. apply filter_ext. intros j. now rewrite negb_orb, <- andb_assoc. }
  rewrite E. destruct b; cbn [negb andb map nth]; rewrite ?total_cons; lra.
Qed.
End Bonus.
Lemma bonus_consecutive : forall gamma h last m s, (s <= last)%nat -> bonus gamma h (fun k => Nat.leb last k) false (seq s m) = total (map (fun k => gamma ^ k * h k) (filter (fun k => Nat.leb k last) (seq s m))).
Proof.
  intros gamma h last. induction m as [|m IH]; intros s Hs; auto. cbn [seq bonus filter orb]. rewrite (proj2 (Nat.leb_le s last) Hs). cbn [map]. rewrite total_cons. destruct (Nat.leb_spec last s) as [L|L].
  - rewrite bonus_true. replace (filter (fun k => Nat.leb k last) (seq (S s) m)) with (@nil nat); [cbn [map]; change (total []) with 0; lra|]. symmetry. rewrite <- (@filter_ext_in _ (fun _ => false)); [induction (seq (S s) m); auto|]. intros k Hk. apply in_seq in Hk. symmetry. apply Nat.leb_gt. lia.
  - rewrite IH by lia. lra.
Qed.
Lemma bonus_ext : forall gamma h h' dn dn' ns b, (forall k, In k ns -> h k = h' k) -> (forall k, In k ns -> dn k = dn' k) -> bonus gamma h dn b ns = bonus gamma h' dn' b ns.
Proof.
  intros gamma h h' dn dn'. induction ns as [|k ns IH]; intros b H1 H2; auto. cbn [bonus]. rewrite (H1 k), (H2 k) by now left. f_equal. apply IH; intros; [apply H1|apply H2]; now right.
Qed.

Lemma take_some : forall (T : Type) (l : list T) ns (g : nat -> T), (forall k, In k ns -> nth_error l k = Some (g k)) -> take l ns = map (fun k => Some (g k)) ns.
Proof. intros. unfold take. now apply map_ext_in. Qed.
Lemma all_some_map : forall (T : Type) (g : nat -> T) ns, all_some (map (fun k => Some (g k)) ns) = Some (map g ns).
Proof. induction ns as [|k ns IH]; auto. cbn [map all_some]. now rewrite IH. Qed.
Lemma all_some_none : forall (T : Type) (l : list (option T)), In None l -> all_some l = None.
Proof. induction l as [|x l IH]; [contradiction|]. intros [->|H]; cbn [all_some]; auto. rewrite IH by auto. now destruct x. Qed.
Lemma osum_none : forall l, In None l -> osum l = None.
Proof. induction l as [|x l IH]; [contradiction|]. intros [->|H]; cbn [osum]; auto. rewrite IH by auto. now destruct x. Qed.

(** The entries that the tracer records, at offset k <= n. *)
Lemma nse_eval : forall S A n gamma beta g ns (H : S -> R) (ep : episode S A) fin t y, nstep_spec n g true ep fin t y -> ns <> [] -> (forall k, In k ns -> (k <= n)%nat /\ (k <= last ns 0)%nat) ->
  nstep_entropy 2 beta gamma ns H (x_extra y) =
  Ok (Some (- beta * bonus gamma (fun k => hstate H ep (Nat.min (t + k) (length ep - 1))) (fun k => fin && Nat.leb (length ep - 1) (t + k)) false ns)).
Proof.
  intros S A n gamma beta g ns H ep fin t y Sp NE Hk. destruct Sp as (x & r & Ht & _ & _ & _ & _ & _ & _ & _ & es & Ex & Le & Hes). rewrite Ex.
  assert (Lt : (t < length ep)%nat) by (apply nth_error_Some; congruence).
  assert (Ent : forall k, (k <= n)%nat -> exists x r, nth_error ep (Nat.min (t + k) (length ep - 1)) = Some (x, r) /\ nth_error es k = Some (mkEntry x r (fin && Nat.leb (length ep - 1) (t + k)))).
  { intros k Hkn. rewrite (Hes k Hkn). unfold extra_entry. destruct (nth_error ep (Nat.min (t + k) (length ep - 1))) as [[x' r']|] eqn:E; [eauto|]. exfalso. apply nth_error_None in E. lia. }
  unfold nstep_entropy, nse_gammas. destruct ns as [|n0 ns0]; [congruence|]. set (ns := n0 :: ns0) in *. cbn [bind Nat.eqb].
  rewrite (@take_some _ (map (fun k => gamma ^ k) (seq 0 (last ns 0%nat + 1))) ns (fun k => gamma ^ k)).
  2: { intros k Hi. destruct (Hk k Hi) as [_ Hl]. rewrite nth_error_map, (@nth_error_nth' _ (seq 0 (last ns 0%nat + 1)) k 0%nat) by (rewrite seq_length; lia). now rewrite seq_nth by lia. }
  rewrite (@take_some _ (map (@e_done S A) es) ns (fun k => fin && Nat.leb (length ep - 1) (t + k))).
  2: { intros k Hi. destruct (Ent k) as (x' & r' & _ & E); [now apply Hk|]. now rewrite nth_error_map, E. }
  rewrite (@take_some _ (map (fun e => H (st_s (e_step e))) es) ns (fun k => hstate H ep (Nat.min (t + k) (length ep - 1)))).
  2: { intros k Hi. destruct (Ent k) as (x' & r' & E' & E); [now apply Hk|]. rewrite nth_error_map, E. unfold hstate. now rewrite E'. }
  rewrite all_some_map. unfold nse_sum. rewrite valid_mask, osum_bonus. reflexivity.
Qed.
Lemma seq_last : forall m, (1 <= m)%nat -> last (seq 0 m) 0%nat = (m - 1)%nat.
Proof. intros [|m] Hm; [lia|]. rewrite seq_S, last_last. lia. Qed.
Lemma nse_consecutive : forall S A n gamma beta g m (H : S -> R) (ep : episode S A) t y, nstep_spec n g true ep true t y -> (1 <= m <= n + 1)%nat ->
  nstep_entropy 2 beta gamma (seq 0 m) H (x_extra y) = Ok (Some (- beta * valid_bonus gamma (seq 0 m) (fun k => hstate H ep (t + k)) (length ep - 1 - t))).
Proof.
  intros S A n gamma beta g m H ep t y Sp Hm. rewrite (@nse_eval S A n gamma beta g (seq 0 m) H ep true t y Sp).
  - assert (Lt : (t < length ep)%nat) by (destruct Sp as (x & r & Ht & _); apply nth_error_Some; congruence). do 3 f_equal. unfold valid_bonus. cbn [andb]. rewrite (@bonus_ext gamma _ (fun k => hstate H ep (Nat.min (t + k) (length ep - 1))) _ (fun k => Nat.leb (length ep - 1 - t) k)); auto.
    + rewrite bonus_consecutive by lia. apply total_ext. intros k Hk. apply filter_In in Hk. destruct Hk as [_ Hk]. apply Nat.leb_le in Hk. do 2 f_equal. lia.
    + intros k _. destruct (Nat.leb_spec (length ep - 1) (t + k)), (Nat.leb_spec (length ep - 1 - t) k); auto; lia.
  - destruct m; [lia|discriminate].
  - intros k Hk. apply in_seq in Hk. rewrite seq_last by lia. lia.
Qed.
Lemma nse_unfinished : forall S A n gamma beta g ns (H : S -> R) (ep : episode S A) t y, nstep_spec n g true ep false t y -> (t + n < length ep)%nat -> ns <> [] -> (forall k, In k ns -> (k <= n)%nat /\ (k <= last ns 0)%nat) ->
  nstep_entropy 2 beta gamma ns H (x_extra y) = Ok (Some (- beta * valid_bonus gamma ns (fun k => hstate H ep (t + k)) (length ep - 1 - t))).
Proof.
  intros S A n gamma beta g ns H ep t y Sp Hl NE Hk. rewrite (@nse_eval S A n gamma beta g ns H ep false t y Sp NE Hk). do 3 f_equal. rewrite bonus_none by auto. unfold valid_bonus. rewrite (@filter_ext_in _ _ (fun _ => true)).
  - replace (filter (fun _ => true) ns) with ns by (clear; induction ns as [|k ns IH]; auto; cbn; now rewrite <- IH). apply total_ext. intros k Hi. destruct (Hk k Hi). do 2 f_equal. lia.
  - intros k Hi. destruct (Hk k Hi). apply Nat.leb_le. lia.
Qed.
Lemma nse_general : forall S A n gamma beta g ns (H : S -> R) (ep : episode S A) t y, nstep_spec n g true ep true t y -> ns <> [] -> (forall k, In k ns -> (k <= n)%nat /\ (k <= last ns 0)%nat) ->
  nstep_entropy 2 beta gamma ns H (x_extra y) =
  Ok (Some (- beta * total (map (fun j => gamma ^ nth j ns 0%nat * hstate H ep (Nat.min (t + nth j ns 0%nat) (length ep - 1))) (filter (fun j => forallb (fun k => Nat.ltb (t + k) (length ep - 1)) (firstn j ns)) (seq 0 (length ns)))))).
Proof.
  intros S A n gamma beta g ns H ep t y Sp NE Hk. rewrite (@nse_eval S A n gamma beta g ns H ep true t y Sp NE Hk). do 3 f_equal. rewrite bonus_index. f_equal. f_equal. apply filter_ext. intros j. cbn [negb andb]. generalize (firstn j ns) as l. induction l as [|k l IH]; auto. cbn [forallb]. rewrite IH. f_equal.
  destruct (Nat.leb_spec (length ep - 1) (t + k)), (Nat.ltb_spec (t + k) (length ep - 1)); auto; lia.
Qed.
Lemma nse_nan : forall S A n gamma beta g ns (H : S -> R) (ep : episode S A) fin t y k, nstep_spec n g true ep fin t y -> In k ns -> (n < k)%nat -> nstep_entropy 2 beta gamma ns H (x_extra y) = Ok None.
Proof.
  intros S A n gamma beta g ns H ep fin t y k Sp Hk Hn. destruct Sp as (x & r & Ht & _ & _ & _ & _ & _ & _ & _ & es & Ex & Le & Hes). rewrite Ex. unfold nstep_entropy, nse_gammas. destruct ns as [|n0 ns0]; [contradiction|]. set (ns := n0 :: ns0) in *. cbn [bind Nat.eqb]. rewrite all_some_none; auto.
  unfold take. apply in_map_iff. exists k. split; auto. apply nth_error_None. rewrite map_length. lia.
Qed.
Lemma nse_unsorted : forall S A n gamma beta g ns (H : S -> R) (ep : episode S A) fin t y k, nstep_spec n g true ep fin t y -> (forall k, In k ns -> (k <= n)%nat) -> In k ns -> (last ns 0 < k)%nat -> nstep_entropy 2 beta gamma ns H (x_extra y) = Ok None.
Proof.
  intros S A n gamma beta g ns H ep fin t y k Sp Hn Hk Hl. destruct Sp as (x & r & Ht & _ & _ & _ & _ & _ & _ & _ & es & Ex & Le & Hes). rewrite Ex. unfold nstep_entropy, nse_gammas. destruct ns as [|n0 ns0]; [contradiction|]. set (ns := n0 :: ns0) in *. cbn [bind Nat.eqb].
  destruct (all_some (take (map (@e_done S A) es) ns)) as [dones|] eqn:ED; auto. unfold nse_sum. rewrite osum_none; auto. unfold ozip.
  assert (LD : length dones = length ns). { assert (LT : length (take (map (@e_done S A) es) ns) = length ns) by apply map_length. rewrite <- LT. clear - ED. revert dones ED. generalize (take (map (@e_done S A) es) ns) as l. induction l as [|x l IH]; intros dones E; cbn in E; [now injection E as <-|]. destruct x; [|discriminate]. destruct (all_some l) as [r|]; [|discriminate]. injection E as <-. cbn. f_equal. now apply IH. }
  apply (In_nth _ _ 0%nat) in Hk. destruct Hk as [j [Hj Ej]]. rewrite in_map_iff.
  assert (LV : length (valid_from_done dones) = length ns). { rewrite valid_mask, <- LD. generalize false as b. clear. induction dones as [|d l IH]; intros b; auto. cbn. f_equal. apply IH. }
  set (c1 := combine (take (map (fun k0 => gamma ^ k0) (seq 0 (last ns 0%nat + 1))) ns) (take (map (fun e => H (st_s (e_step e))) es) ns)).
  set (f := fun p : option R * option R => match p with (Some x, Some y) => Some (x * y) | _ => None end).
  assert (L1 : length c1 = length ns) by (unfold c1, take; rewrite combine_length, !map_length; lia).
  exists (nth j (combine (map f c1) (map Some (valid_from_done dones))) (None, None)). split.
  - rewrite combine_nth by (rewrite !map_length; lia). rewrite (@nth_map_any _ _ f c1 j None (None, None)) by lia. unfold c1. rewrite combine_nth by (unfold take; now rewrite !map_length). unfold take at 1. rewrite (@nth_map_any _ _ _ ns j None 0%nat) by auto. rewrite Ej.
    rewrite (proj2 (nth_error_None _ k)) by (rewrite map_length, seq_length; lia). reflexivity.
  - apply nth_In. rewrite combine_length, !map_length. lia.
Qed.

(** Offsets with a gap are counted wrongly for some episode. *)
Lemma ascending_tail : forall k ns, ascending (k :: ns) -> ascending ns /\ forall x, In x ns -> (k < x)%nat.
Proof.
  intros k ns A. split; [intros i j H; apply (A (S i) (S j)); cbn; lia|]. intros x Hx. apply (In_nth _ _ 0%nat) in Hx. destruct Hx as [i [Hi <-]]. apply (A 0%nat (S i)). cbn. lia.
Qed.
Lemma gap : forall ns s, ascending ns -> (forall k, In k ns -> (s <= k)%nat) -> ns = seq s (length ns) \/ exists j x rest, ns = seq s j ++ x :: rest /\ (s + j < x)%nat /\ forall y, In y rest -> (x < y)%nat.
Proof.
  induction ns as [|k ns IH]; intros s A H; [now left|]. destruct (ascending_tail A) as [A' T]. destruct (Nat.eq_dec k s) as [->|N].
  - destruct (IH (S s) A') as [E|(j & x & rest & E & L & R)]; [intros x Hx; specialize (T x Hx); lia| |].
    + left. cbn [length seq]. congruence.
    + right. exists (S j), x, rest. split; [cbn [seq app]; congruence|]. split; [lia|auto].
  - right. exists 0%nat, k, ns. split; auto. split; auto. specialize (H k ltac:(now left)). lia.
Qed.
Lemma last_ascending : forall ns, ascending ns -> forall k, In k ns -> (k <= last ns 0)%nat.
Proof.
  intros ns A k Hk. apply (In_nth _ _ 0%nat) in Hk. destruct Hk as [i [Hi <-]]. assert (NE : ns <> []) by (intros ->; cbn in Hi; lia). assert (E : last ns 0%nat = nth (length ns - 1) ns 0%nat).
  { destruct (exists_last NE) as [l [x ->]]. rewrite last_last, app_length. cbn [length]. rewrite app_nth2 by lia. replace (length l + 1 - 1 - length l)%nat with 0%nat by lia. reflexivity. }
  rewrite E. destruct (Nat.eq_dec i (length ns - 1)) as [->|N]; [lia|]. specialize (A i (length ns - 1)%nat). lia.
Qed.
