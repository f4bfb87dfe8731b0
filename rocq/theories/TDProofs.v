From Coq Require Import List Lia Bool Arith Reals Lra.
From Verif Require Import PyCommon CommonProofs UtilsModel UtilsSpec UtilsProofs2 UtilsProofs3 WrappersProofs DistModel DistSpec DistProofs DistProofs2 DistProofs3 LossModel LossSpec LossProofs QModel QProofs QProps TDModel TDSpec.
Import ListNotations.
Set Implicit Arguments.
Local Open Scope R_scope.

(** * bootstrap *)
Lemma bootstrap_ok : forall f g Rn In_ X, length Rn = length X -> length In_ = length X ->
  bootstrap f g Rn In_ X = Ok (map (fun k => f (nth k Rn 0 + nth k In_ 0 * g (nth k X 0))) (seq 0 (length X))).
Proof.
  intros f g Rn. induction Rn as [|r Rn IH]; intros [|i In_] [|x X] E1 E2; cbn in E1, E2; try lia; auto. cbn [bootstrap]. rewrite IH by lia. cbn [bind length seq map nth]. rewrite <- seq_shift, map_map. reflexivity.
Qed.
Lemma bootstrap_inv : forall f g Rn In_ X out, bootstrap f g Rn In_ X = Ok out -> length Rn = length X /\ length In_ = length X /\ out = map (fun k => f (nth k Rn 0 + nth k In_ 0 * g (nth k X 0))) (seq 0 (length X)).
Proof.
  intros f g Rn In_ X out H. assert (L : length Rn = length X /\ length In_ = length X).
  { revert In_ X out H. induction Rn as [|r Rn IH]; intros [|i In_] [|x X] out H; cbn in H; try discriminate; auto. destruct (bootstrap f g Rn In_ X) eqn:E; [|discriminate]. destruct (IH _ _ _ E). cbn. lia. }
  destruct L. rewrite bootstrap_ok in H by auto. split; auto. split; auto. congruence.
Qed.
Lemma bootstrap_terminal : forall f g Rn In_ X out k, bootstrap f g Rn In_ X = Ok out -> (k < length out)%nat -> nth k In_ 0 = 0 -> nth k out 0 = f (nth k Rn 0).
Proof.
  intros f g Rn In_ X out k H Hk E. apply bootstrap_inv in H. destruct H as (L1 & L2 & ->). rewrite map_length, seq_length in Hk. rewrite (@nth_map_any _ _ _ (seq 0 (length X)) k 0 0%nat) by (now rewrite seq_length). rewrite seq_nth by auto. cbn [Nat.add]. rewrite E. f_equal. lra.
Qed.
Section F.
Variable St : Type.
Implicit Types b : tbatch St.
Lemma finish_rows : forall f g b (boot : nat -> St -> R -> Prop) X, well_formed b -> length X = length (tb_Snext b) ->
  (forall k s, nth_error (tb_Snext b) k = Some s -> boot k s (nth k X 0)) -> exists out, finish f g b X = Ok out /\ bootstrapped f g b boot out.
Proof.
  intros f g b boot X [W1 W2] L H. eexists. split; [apply bootstrap_ok; congruence|]. split; [rewrite map_length, seq_length; auto|]. intros k s Hs. exists (nth k X 0). split; [auto|].
  assert (K : (k < length (tb_Snext b))%nat) by (apply nth_error_Some; congruence). rewrite (@nth_map_any _ _ _ (seq 0 (length X)) k 0 0%nat) by (rewrite seq_length; lia). now rewrite seq_nth by lia.
Qed.
Lemma nth_map_error : forall (A : Type) (h : A -> R) l k s, nth_error l k = Some s -> nth k (map h l) 0 = h s.
Proof. intros A h l k s H. assert (K : (k < length l)%nat) by (apply nth_error_Some; congruence). rewrite (@nth_map_any _ _ h l k 0 s) by auto. now rewrite (nth_error_nth l k s H). Qed.
Lemma nth_map_combine : forall (A B : Type) (h : A * B -> R) l l' k s a, nth_error l k = Some s -> nth_error l' k = Some a -> nth k (map h (combine l l')) 0 = h (s, a).
Proof.
  intros A B h l. induction l as [|x l IH]; intros [|y l'] [|k] s a H1 H2; cbn in H1, H2; try discriminate.
  - injection H1 as ->. injection H2 as ->. reflexivity.
  - cbn [combine map nth]. now apply IH.
Qed.

(** * Greedy mixture *)
Lemma rowmax_spec : forall l, l <> [] -> In (rowmax l) l /\ forall x, In x l -> x <= rowmax l.
Proof. intros [|x l] H; [congruence|]. cbn [rowmax]. split; [apply rmax_list_in|]. destruct (rmax_list_ge l x) as [A B]. intros y [<-|Hy]; auto. Qed.
Definition ind (m x : R) : R := if Req_EM_T x m then 1 else 0.
Lemma ind_count : forall m l, 0 <= rsum (map (ind m) l) /\ (In m l -> 1 <= rsum (map (ind m) l)).
Proof.
  intros m l. induction l as [|x l [I1 I2]]; [cbn; split; [lra|tauto]|]. cbn [map rsum]. unfold ind at 1 3. split.
  - destruct (Req_EM_T x m); lra.
  - intros [->|H]; [destruct (Req_EM_T m m); [lra|congruence]|]. specialize (I2 H). destruct (Req_EM_T x m); lra.
Qed.
Lemma greedy_length : forall q, length (greedy_mix q) = length q.
Proof. intros q. unfold greedy_mix. now rewrite !map_length. Qed.
Lemma greedy_nth : forall q k, (k < length q)%nat -> nth k (greedy_mix q) 0 = ind (rowmax q) (nth k q 0) / rsum (map (ind (rowmax q)) q).
Proof. intros q k Hk. unfold greedy_mix. rewrite map_map. fold (ind (rowmax q)). rewrite (@nth_map_any _ _ _ q k 0 0) by auto. reflexivity. Qed.
Lemma greedy_dist : forall q, q <> [] -> distribution (greedy_mix q).
Proof.
  intros q NE. destruct (ind_count (rowmax q) q) as [_ C]. specialize (C (proj1 (rowmax_spec NE))). set (c := rsum (map (ind (rowmax q)) q)) in *. split.
  - intros x Hx. apply (In_nth _ _ 0) in Hx. destruct Hx as (k & Hk & <-). rewrite greedy_length in Hk. rewrite greedy_nth by auto. fold c. apply Rmult_le_pos; [unfold ind; destruct (Req_EM_T _ _); lra|left; apply Rinv_0_lt_compat; lra].
  - unfold greedy_mix. rewrite <- rsum_total. change (map (fun x : R => if Req_EM_T x (rowmax q) then 1 else 0) q) with (map (ind (rowmax q)) q). fold c. rewrite rsum_map_div. fold c. field. lra.
Qed.
(** A distribution concentrated on entries equal to m averages them to m. *)
Lemma greedy_dot : forall q h, q <> [] -> length h = length q -> forall m, (forall k, (k < length q)%nat -> nth k q 0 = rowmax q -> nth k h 0 = m) -> dot (greedy_mix q) h = m.
Proof.
  intros q h NE L m H. destruct (ind_count (rowmax q) q) as [_ C]. specialize (C (proj1 (rowmax_spec NE))). rewrite dot_seq by (rewrite greedy_length; auto). rewrite greedy_length.
  rewrite (@total_ext _ _ (fun k => m * nth k (greedy_mix q) 0)).
  - rewrite total_scal. rewrite <- (greedy_length q). rewrite map_nth_seq. destruct (greedy_dist NE) as [_ ->]. lra.
  - intros k Hk. apply in_seq in Hk. rewrite greedy_nth by lia. unfold ind at 1 3. destruct (Req_EM_T (nth k q 0) (rowmax q)) as [E|E]; [rewrite (H k) by (auto; lia); lra|unfold Rdiv; lra].
Qed.
Lemma greedy_max : forall q, q <> [] -> dot (greedy_mix q) q = rowmax q.
Proof. intros q NE. apply greedy_dot; auto. Qed.
Lemma greedy_unique : forall q n a, length q = n -> unique_max n (fun k => nth k q 0) a -> greedy_mix q = one_hot n a.
Proof.
  intros q n a L [Ha U]. assert (NE : q <> []) by (destruct q; [cbn in L; lia|discriminate]). destruct (rowmax_spec NE) as [M1 M2].
  assert (EM : forall k, (k < n)%nat -> nth k q 0 = rowmax q <-> k = a).
  { apply (In_nth _ _ 0) in M1. destruct M1 as (j & Hj & Ej). assert (j = a). { destruct (Nat.eq_dec j a); auto. pose proof (U j ltac:(lia) n0). pose proof (M2 (nth a q 0) ltac:(apply nth_In; lia)). lra. } subst j.
    intros k Hk. split; [|intros ->; auto]. intros E. destruct (Nat.eq_dec k a); auto. pose proof (U k Hk n0). lra. }
  assert (C : rsum (map (ind (rowmax q)) q) = 1).
  { rewrite rsum_total. generalize dependent (rowmax q). intros m M1 M2 EM. rewrite <- (map_nth_seq q 0), map_map, L. rewrite (@total_ext _ _ (fun k => if Nat.eqb k a then 1 else 0)).
    - rewrite (@total_pick _ n a Ha); [now rewrite Nat.eqb_refl|]. intros k Hk. destruct (Nat.eqb_spec k a); congruence.
    - intros k Hk. apply in_seq in Hk. unfold ind. destruct (Req_EM_T _ _) as [E|E], (Nat.eqb_spec k a) as [F|F]; auto; exfalso; [apply F; apply EM; auto; lia|apply E; apply EM; auto; lia]. }
  apply (@list_eq_nth _ 0); [rewrite greedy_length, one_hot_length; auto|]. intros k Hk. rewrite greedy_length in Hk. rewrite greedy_nth, C, nth_one_hot by lia. unfold ind. destruct (Req_EM_T (nth k q 0) (rowmax q)) as [E|E].
  - apply EM in E; [|lia]. subst k. rewrite Nat.eqb_refl. lra.
  - destruct (Nat.eqb_spec k a) as [->|]; [|lra]. exfalso. apply E. apply EM; auto.
Qed.

(** * Evaluations *)
Variable n : nat.
Hypothesis Hn : (1 <= n)%nat.
Notation qf := (qfun St R).
Lemma eval2_ok : forall (q : qf) S, width n q -> eval2 (Some n) (one_hot n) q S = Ok (map (fun s => map (qval n q s) (seq 0 n)) S).
Proof.
  intros [f|f] S W; unfold eval2; [now apply type2_of_type1|]. cbn [function_type2]. f_equal. apply map_ext. intros s. cbn [qval]. cbn in W. rewrite <- (W s). symmetry. apply map_nth_seq.
Qed.
Lemma check_ok2 : forall (h : St -> nat -> R) S, check_width n (map (fun s => map (h s) (seq 0 n)) S) = Ok (map (fun s => map (h s) (seq 0 n)) S).
Proof.
  intros h S. unfold check_width. assert (F : forallb (fun q => length q =? n)%nat (map (fun s => map (h s) (seq 0 n)) S) = true); [|now rewrite F]. apply forallb_forall. intros x Hx. apply in_map_iff in Hx. destruct Hx as (s & <- & _). rewrite map_length, seq_length. apply Nat.eqb_refl.
Qed.
Definition qat (q : qf) (s : St) (v : list R) : R := match q with Type1 f => f s v | Type2 f => dot v (f s) end.
Lemma eval1_ok : forall (q : qf) S A, width n q -> length A = length S -> (forall a, In a A -> length a = n) -> eval1 (Some n) q S A = Ok (map (fun sa => qat q (fst sa) (snd sa)) (combine S A)).
Proof.
  intros [f|f] S A W L H; unfold eval1.
  - cbn [function_type1]. now rewrite vmap2_ok.
  - now rewrite type1_of_type2.
Qed.
Lemma map_combine_self : forall (A B C : Type) (h : A -> B) (k : A * B -> C) l, map k (combine l (map h l)) = map (fun x => k (x, h x)) l.
Proof. intros A B C h k l. induction l as [|x l IH]; auto. cbn [map combine]. now rewrite IH. Qed.
Lemma qat_one_hot : forall (q : qf) s a, width n q -> (a < n)%nat -> qat q s (one_hot n a) = qval n q s a.
Proof. intros [f|f] s a W Ha; cbn; auto. apply dot_one_hot_l; auto. Qed.
Lemma qat_mix2 : forall (q : qf) s v, width n q -> type2 q -> length v = n -> qat q s v = dot v (map (qval n q s) (seq 0 n)).
Proof. intros [f|f] s v W T L; [destruct T|]. cbn [qat qval]. cbn in W. f_equal. rewrite <- (W s). symmetry. apply map_nth_seq. Qed.
Lemma q_learning_eval : forall f g (qt q : qf) b, width n qt -> width n q -> q_learning (Some n) (one_hot n) f g n qt q b = finish f g b (map (fun s => qat q s (greedy_mix (map (qval n qt s) (seq 0 n)))) (tb_Snext b)).
Proof.
  intros f g qt q b Wt W. unfold q_learning. rewrite eval2_ok by auto. cbn [bind]. rewrite check_ok2. cbn [bind]. rewrite map_map. rewrite eval1_ok; auto.
  - cbn [bind]. f_equal. apply (map_combine_self (fun s => greedy_mix (map (qval n qt s) (seq 0 n))) (fun sa => qat q (fst sa) (snd sa))).
  - now rewrite map_length.
  - intros a Ha. apply in_map_iff in Ha. destruct Ha as (s & <- & _). now rewrite greedy_length, map_length, seq_length.
Qed.
Lemma vals_ne : forall (h : nat -> R), map h (seq 0 n) <> [].
Proof. intros h C. apply (f_equal (@length R)) in C. rewrite map_length, seq_length in C. cbn in C. lia. Qed.
Lemma rowmax_is : forall (h : nat -> R), is_maximum n h (rowmax (map h (seq 0 n))).
Proof.
  intros h. destruct (rowmax_spec (vals_ne h)) as [A B]. split.
  - apply in_map_iff in A. destruct A as (a & E & Ha). apply in_seq in Ha. exists a. split; [lia|auto].
  - intros a Ha. apply B. apply in_map. apply in_seq. lia.
Qed.
Lemma maximum_unique : forall h m m', is_maximum n h m -> is_maximum n h m' -> m = m'.
Proof. intros h m m' [(a & Ha & Ea) A] [(c & Hc & Ec) C]. apply Rle_antisym; [rewrite <- Ea; auto|rewrite <- Ec; auto]. Qed.
Lemma maximum_close : forall h h' m m' eps, (forall a, (a < n)%nat -> Rabs (h a - h' a) <= eps) -> is_maximum n h m -> is_maximum n h' m' -> Rabs (m - m') <= eps.
Proof.
  intros h h' m m' eps H [(a & Ha & Ea) A] [(c & Hc & Ec) C]. pose proof (H a Ha) as H1. pose proof (H c Hc) as H2. specialize (A c Hc). specialize (C a Ha). rewrite Ea in H1. rewrite Ec in H2.
  unfold Rabs in *. destruct (Rcase_abs (m - h' a)), (Rcase_abs (h c - m')), (Rcase_abs (m - m')); lra.
Qed.

(** * Soft maximum *)
Definition lse (t : R) (l : list R) : R := t * ln (sumexp (map (fun x => x / t) l)).
Lemma sumexp_total : forall (A : Type) (h : A -> R) l, sumexp (map h l) = total (map (fun a => exp (h a)) l).
Proof. intros A h l. unfold sumexp. rewrite rsum_total, map_map. reflexivity. Qed.
Lemma exp_le : forall x y, x <= y -> exp x <= exp y.
Proof. intros x y [H|H]; [left; now apply exp_increasing|subst; lra]. Qed.
Lemma ln_le' : forall x y, 0 < x -> x <= y -> ln x <= ln y.
Proof. intros x y Hx [H|H]; [left; now apply ln_increasing|subst; lra]. Qed.
Lemma total_in_le : forall (A : Type) (h : A -> R) l a, (forall x, In x l -> 0 <= h x) -> In a l -> h a <= total (map h l).
Proof.
  intros A h l a H Ha. induction l as [|x l IH]; [destruct Ha|]. cbn [map]. rewrite total_cons. assert (N : 0 <= total (map h l)). { rewrite <- rsum_total. apply rsum_nonneg. intros y Hy. apply in_map_iff in Hy. destruct Hy as (z & <- & Hz). apply H. now right. }
  destruct Ha as [->|Ha]; [lra|]. specialize (IH (fun x Hx => H x (or_intror Hx)) Ha). pose proof (H x (or_introl eq_refl)). lra.
Qed.
Lemma lse_bounds : forall t h m, 0 < t -> is_maximum n h m -> m <= lse t (map h (seq 0 n)) <= m + t * ln (INR n).
Proof.
  intros t h m Ht [(a & Ha & Ea) A]. unfold lse. rewrite map_map, sumexp_total. assert (I : 0 < / t) by now apply Rinv_0_lt_compat. assert (N0 : 0 < INR n) by (apply lt_0_INR; lia). split.
  - assert (L : exp (m / t) <= total (map (fun k => exp (h k / t)) (seq 0 n))). { rewrite <- Ea. apply (@total_in_le _ (fun k => exp (h k / t))); [intros; left; apply exp_pos|apply in_seq; lia]. }
    apply ln_le' in L; [|apply exp_pos]. rewrite ln_exp in L. apply (Rmult_le_compat_l t) in L; [|lra]. replace (t * (m / t)) with m in L by (field; lra). exact L.
  - assert (L : total (map (fun k => exp (h k / t)) (seq 0 n)) <= INR n * exp (m / t)).
    { replace (INR n * exp (m / t)) with (total (map (fun _ : nat => exp (m / t)) (seq 0 n))) by (now rewrite total_const, seq_length). apply total_le. intros k Hk. apply in_seq in Hk. apply exp_le. apply Rmult_le_compat_r; [lra|apply A; lia]. }
    assert (P : 0 < total (map (fun k => exp (h k / t)) (seq 0 n))). { apply Rlt_le_trans with (exp (h a / t)); [apply exp_pos|]. apply (@total_in_le _ (fun k => exp (h k / t))); [intros; left; apply exp_pos|apply in_seq; lia]. }
    apply ln_le' in L; auto. rewrite ln_mult, ln_exp in L by (auto; apply exp_pos). apply (Rmult_le_compat_l t) in L; [|lra]. replace (t * (ln (INR n) + m / t)) with (m + t * ln (INR n)) in L by (field; lra). exact L.
Qed.
Lemma lse_mono : forall t h h' c, 0 < t -> (forall a, (a < n)%nat -> h a <= h' a + c) -> lse t (map h (seq 0 n)) <= lse t (map h' (seq 0 n)) + c.
Proof.
  intros t h h' c Ht H. unfold lse. rewrite !map_map, !sumexp_total. assert (I : 0 < / t) by now apply Rinv_0_lt_compat.
  assert (P : forall h, 0 < total (map (fun k => exp (h k / t)) (seq 0 n))). { intros h0. apply Rlt_le_trans with (exp (h0 0%nat / t)); [apply exp_pos|]. apply (@total_in_le _ (fun k => exp (h0 k / t))); [intros; left; apply exp_pos|apply in_seq; lia]. }
  assert (L : total (map (fun k => exp (h k / t)) (seq 0 n)) <= exp (c / t) * total (map (fun k => exp (h' k / t)) (seq 0 n))).
  { rewrite <- total_scal. apply total_le. intros k Hk. apply in_seq in Hk. rewrite <- exp_plus. apply exp_le. replace (c / t + h' k / t) with ((h' k + c) * / t) by (field; lra). apply Rmult_le_compat_r; [lra|apply H; lia]. }
  apply ln_le' in L; auto. rewrite ln_mult, ln_exp in L by (auto; apply exp_pos). apply (Rmult_le_compat_l t) in L; [|lra]. replace (t * (c / t + ln (total (map (fun k => exp (h' k / t)) (seq 0 n))))) with (t * ln (total (map (fun k => exp (h' k / t)) (seq 0 n))) + c) in L by (field; lra). exact L.
Qed.
Lemma lse_close : forall t h h' eps, 0 < t -> (forall a, (a < n)%nat -> Rabs (h a - h' a) <= eps) -> Rabs (lse t (map h (seq 0 n)) - lse t (map h' (seq 0 n))) <= eps.
Proof.
  intros t h h' eps Ht H. assert (H1 : forall a, (a < n)%nat -> h a <= h' a + eps /\ h' a <= h a + eps) by (intros a Ha; specialize (H a Ha); unfold Rabs in H; destruct (Rcase_abs _); lra).
  pose proof (@lse_mono t h h' eps Ht (fun a Ha => proj1 (H1 a Ha))). pose proof (@lse_mono t h' h eps Ht (fun a Ha => proj2 (H1 a Ha))). apply abs_between. lra.
Qed.
Lemma expect_close : forall p h h' eps, length p = n -> distribution p -> (forall a, (a < n)%nat -> Rabs (h a - h' a) <= eps) -> Rabs (dot p (map h (seq 0 n)) - dot p (map h' (seq 0 n))) <= eps.
Proof.
  intros p h h' eps L [P T] H. rewrite !dot_seq by (rewrite ?map_length, ?seq_length; auto). rewrite L. rewrite <- total_minus. rewrite (@total_ext _ _ (fun k => nth k p 0 * (h k - h' k))).
  - assert (B : forall s, (s = 1 \/ s = -1) -> total (map (fun k => s * (nth k p 0 * (h k - h' k))) (seq 0 n)) <= eps).
    { intros s Hs. replace eps with (total (map (fun k => eps * nth k p 0) (seq 0 n))).
      - apply total_le. intros k Hk. apply in_seq in Hk. assert (0 <= nth k p 0) by (apply P, nth_In; lia). specialize (H k ltac:(lia)). unfold Rabs in H. destruct (Rcase_abs _), Hs as [->| ->]; nra.
      - rewrite total_scal. rewrite <- L, map_nth_seq, T. lra. }
    pose proof (B 1 (or_introl eq_refl)) as B1. pose proof (B (-1) (or_intror eq_refl)) as B2. rewrite total_scal in B1, B2. apply abs_between. lra.
  - intros k Hk. apply in_seq in Hk. rewrite !(@nth_map_any _ _ _ (seq 0 n) k 0 0%nat) by (rewrite seq_length; lia). rewrite seq_nth by lia. cbn [Nat.add]. lra.
Qed.
End F.
