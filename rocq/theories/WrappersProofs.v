(** FrameStacking, box wrappers, a_orig, StreamingSample. *)
From Coq Require Import List ZArith Lia Bool Reals Lra.
From Verif Require Import PyCommon CommonProofs UtilsModel UtilsSpec UtilsProofs2 WrappersModel WrappersSpec.
Import ListNotations.
Set Implicit Arguments.

(** * Frames *)
Section Frames.
Variable Obs : Type.
Lemma dq_append_lastn : forall n (q : list Obs) x, 1 <= n -> length q <= n -> dq_append n q x = lastn n (q ++ [x]).
Proof.
  intros n q x Hn Hq. unfold dq_append, lastn. destruct n as [|n]; [lia|]. rewrite app_length. cbn [length]. destruct (Nat.eqb_spec (length q) (S n)) as [E|E].
  - replace (length q + 1 - S n) with 1 by lia. destruct q; [cbn in E; lia|]. reflexivity.
  - replace (length q + 1 - S n) with 0 by lia. reflexivity.
Qed.
Lemma lastn_lastn_snoc : forall n (l : list Obs) x, lastn n (lastn n l ++ [x]) = lastn n (l ++ [x]).
Proof.
  intros n l x. destruct (Nat.le_gt_cases n (length l)) as [H|H].
  - destruct n as [|n]; [unfold lastn; rewrite !app_length, !Nat.sub_0_r; rewrite (skipn_all2 (n := length (skipn (length l) l) + length [x]) (skipn (length l) l ++ [x])) by (rewrite app_length; lia);
      rewrite skipn_all2 by (rewrite app_length; lia); reflexivity|].
    destruct (@lastn_snoc _ (S n) l x H ltac:(lia)) as [y [q [E1 E2]]]. rewrite E2, E1. unfold lastn. cbn [length app]. rewrite app_length. cbn [length].
    assert (L : length (y :: q) = S n) by (rewrite <- E1, lastn_length; lia). cbn [length] in L. replace (S (length q + 1) - S n) with 1 by lia. reflexivity.
  - rewrite (lastn_all (n := n) l) by lia. reflexivity.
Qed.
Lemma fold_append : forall n xs (q : list Obs), 1 <= n -> fold_left (dq_append n) xs (lastn n q) = lastn n (q ++ xs).
Proof.
  intros n. induction xs as [|x xs IH]; intros q Hn; cbn [fold_left]; [now rewrite app_nil_r|].
  rewrite dq_append_lastn by (auto; rewrite lastn_length; lia). rewrite lastn_lastn_snoc, IH by auto. now rewrite <- app_assoc.
Qed.
Lemma lastn_app_long : forall n (a b : list Obs), n <= length b -> lastn n (a ++ b) = lastn n b.
Proof.
  intros n a b H. unfold lastn. rewrite app_length. rewrite skipn_app. rewrite (skipn_all2 a) by lia. cbn [app]. f_equal. lia.
Qed.
Lemma fs_bounded : forall n es, 1 <= n -> exists q : list Obs, fs_run n [] es = lastn n q.
Proof.
  intros n es Hn. induction es as [|e es IH] using rev_ind; [exists []; reflexivity|]. destruct IH as [q E]. unfold fs_run. rewrite fold_left_app. cbn [fold_left].
  fold (fs_run n [] es). rewrite E. destruct e as [o|o]; cbn [fs_do].
  - exists (q ++ [o]). unfold fs_step. apply (@fold_append n [o] q Hn).
  - exists (q ++ repeat o n). unfold fs_reset. now apply fold_append.
Qed.
Lemma fs_spec : forall n pre o os, 1 <= n -> fs_run n [] (pre ++ FReset o :: map (@FStep Obs) os) = lastn n (repeat o n ++ os).
Proof.
  intros n pre o os Hn. unfold fs_run. rewrite fold_left_app. fold (fs_run n (@nil Obs) pre). destruct (fs_bounded pre Hn) as [q ->]. cbn [fold_left fs_do]. unfold fs_reset. rewrite fold_append by auto.
  assert (E : forall os q, fold_left (fs_do n) (map (@FStep Obs) os) q = fold_left (dq_append n) os q) by (induction os0; intros; cbn; auto).
  rewrite E, fold_append by auto. rewrite <- app_assoc. rewrite lastn_app_long; auto. rewrite app_length, repeat_length. lia.
Qed.
End Frames.

(** * Box wrappers *)
Local Open Scope R_scope.
Lemma sigmoid_bounds : forall x, 0 < sigmoid x < 1.
Proof.
  intros x. unfold sigmoid. pose proof (exp_pos (- x)). split; [apply Rinv_0_lt_compat; lra|]. rewrite <- Rinv_1. apply Rinv_lt_contravar; lra.
Qed.
Lemma sigmoid_incr : forall x y, x < y -> sigmoid x < sigmoid y.
Proof.
  intros x y H. unfold sigmoid. pose proof (exp_pos (- x)). pose proof (exp_pos (- y)). assert (exp (- y) < exp (- x)) by (apply exp_increasing; lra).
  apply Rinv_lt_contravar; [|lra]. apply Rmult_lt_0_compat; lra.
Qed.
Lemma clip_in : forall x lo hi, lo <= x <= hi -> clip x lo hi = x.
Proof. intros. unfold clip. rewrite Rmax_left by lra. rewrite Rmin_left by lra. auto. Qed.
Lemma clip_low : forall x lo hi, lo <= hi -> x <= lo -> clip x lo hi = lo.
Proof. intros. unfold clip. rewrite Rmax_right by lra. rewrite Rmin_left by lra. auto. Qed.
Lemma clip_high : forall x lo hi, lo <= hi -> hi <= x -> clip x lo hi = hi.
Proof. intros. unfold clip. rewrite Rmax_left by lra. rewrite Rmin_right by lra. auto. Qed.
Lemma big_pos : 0 < big. Proof. unfold big. lra. Qed.

Lemma compactify_spec : forall lo hi, lo < hi ->
  (forall a, lo < compactify lo hi a < hi) /\
  (forall a b, - big <= a -> a < b -> b <= big -> compactify lo hi a < compactify lo hi b) /\
  (forall a, big <= a -> compactify lo hi a = compactify lo hi big) /\ (forall a, a <= - big -> compactify lo hi a = compactify lo hi (- big)).
Proof.
  intros lo hi H. pose proof big_pos. unfold compactify. split; [|split; [|split]].
  - intros a. pose proof (sigmoid_bounds (clip a (- big) big)). split; nra.
  - intros a b Ha Hab Hb. rewrite !clip_in by lra. pose proof (sigmoid_incr Hab). nra.
  - intros a Ha. rewrite !clip_high by lra. auto.
  - intros a Ha. rewrite (@clip_low a), (@clip_low (- big)) by lra. auto.
Qed.
Lemma compactify_onto : forall lo hi y, lo < hi -> compactify lo hi (- big) <= y <= compactify lo hi big -> lo < y < hi -> exists a, - big <= a <= big /\ compactify lo hi a = y.
Proof.
  intros lo hi y H Hr Hy. set (p := (y - lo) / (hi - lo)). assert (Hp : 0 < p < 1).
  { unfold p. split; [apply Rmult_lt_0_compat; [lra|apply Rinv_0_lt_compat; lra]|]. apply (Rmult_lt_reg_r (hi - lo)); [lra|]. unfold Rdiv. rewrite Rmult_assoc, Rinv_l by lra. lra. }
  set (a := ln (p / (1 - p))). assert (Q : 0 < p / (1 - p)) by (apply Rmult_lt_0_compat; [lra|apply Rinv_0_lt_compat; lra]).
  assert (S : sigmoid a = p). { unfold sigmoid, a. rewrite exp_Ropp, exp_ln by auto. field. lra. }
  assert (E : lo + (hi - lo) * sigmoid a = y). { rewrite S. unfold p. field. lra. }
  pose proof big_pos as B. assert (R : - big <= a <= big).
  { unfold compactify in Hr. rewrite !clip_in in Hr by lra. split; apply Rnot_lt_le; intros C; apply sigmoid_incr in C; nra. }
  exists a. split; auto. unfold compactify. rewrite clip_in by lra. auto.
Qed.

Lemma discrete_to_box_spec : forall lo hi n k u, lo < hi -> (k < n)%nat -> 0 <= u < 1 ->
  lo + INR k / INR n * (hi - lo) <= discrete_to_box lo hi n k u < lo + INR (k + 1) / INR n * (hi - lo) /\ lo <= discrete_to_box lo hi n k u < hi.
Proof.
  intros lo hi n k u H Hk Hu. unfold discrete_to_box. assert (Hn : 0 < INR n) by (apply lt_0_INR; lia). assert (Hi : 0 < / INR n) by (now apply Rinv_0_lt_compat).
  assert (Hk' : INR (k + 1) <= INR n) by (apply le_INR; lia). rewrite plus_INR in *. cbn [INR] in *. pose proof (pos_INR k).
  assert (A1 : INR k / INR n <= (INR k + u) / INR n) by (unfold Rdiv; apply Rmult_le_compat_r; lra).
  assert (A2 : (INR k + u) / INR n < (INR k + 1) / INR n) by (unfold Rdiv; apply Rmult_lt_compat_r; lra).
  assert (A3 : (INR k + 1) / INR n <= 1) by (apply (Rmult_le_reg_r (INR n)); auto; unfold Rdiv; rewrite Rmult_assoc, Rinv_l by lra; lra).
  assert (A0 : 0 <= INR k / INR n) by (unfold Rdiv; nra). split; split; nra.
Qed.
Lemma discrete_recover : forall lo hi n k u k', lo < hi -> (k < n)%nat -> 0 <= u < 1 ->
  lo + INR k' / INR n * (hi - lo) <= discrete_to_box lo hi n k u < lo + INR (k' + 1) / INR n * (hi - lo) -> k' = k.
Proof.
  intros lo hi n k u k' H Hk Hu [H1 H2]. destruct (@discrete_to_box_spec lo hi n k u H Hk Hu) as [[H3 H4] _].
  assert (Hn : 0 < INR n) by (apply lt_0_INR; lia). assert (Hi : 0 < / INR n) by (now apply Rinv_0_lt_compat).
  assert (L : forall a b, lo + INR a / INR n * (hi - lo) < lo + INR b / INR n * (hi - lo) -> (a < b)%nat).
  { intros a b Hab. apply INR_lt. apply (Rmult_lt_reg_r (/ INR n)); auto. apply (Rmult_lt_reg_r (hi - lo)); [lra|]. unfold Rdiv in Hab. lra. }
  assert (A : lo + INR k' / INR n * (hi - lo) < lo + INR (k + 1) / INR n * (hi - lo)) by lra.
  assert (B : lo + INR k / INR n * (hi - lo) < lo + INR (k' + 1) / INR n * (hi - lo)) by lra. apply L in A. apply L in B. lia.
Qed.

(** * a_orig *)
Lemma nested_dict : forall A (ws : list (A -> A)) info0 a, (forall b, info0 b = Some None) -> ws <> [] -> nested_step ws info0 a = Some (Some (rev (converted ws a))).
Proof.
  intros A. induction ws as [|w ws IH]; intros info0 a H Hw; [congruence|]. cbn [nested_step converted rev]. destruct ws as [|w' ws].
  - cbn. rewrite H. reflexivity.
  - rewrite IH by (auto; discriminate). reflexivity.
Qed.
Lemma nested_none : forall A (ws : list (A -> A)) info0 a, (forall b, info0 b = None) -> nested_step ws info0 a = None.
Proof. intros A. induction ws as [|w ws IH]; intros info0 a H; cbn; auto. now rewrite IH. Qed.

(** * StreamingSample *)
Section Stream.
Variable A : Type.
Lemma appends_len : forall m xs, ss_max (appends (ss_new A m) xs) = m /\ ss_count (appends (ss_new A m) xs) = length xs /\ length (ss_items (appends (ss_new A m) xs)) = Nat.min (length xs) m.
Proof.
  intros m. induction xs as [|x xs IH] using rev_ind; [cbn; auto|]. unfold appends in *. rewrite fold_left_app. cbn [fold_left].
  set (s := fold_left _ xs _) in *. destruct IH as [H1 [H2 H3]]. unfold ss_append. rewrite H1, H2, H3, app_length. cbn [length].
  destruct (Nat.ltb_spec (Nat.min (length xs) m) m); cbn [ss_max ss_count ss_items].
  - rewrite app_length, H3. cbn [length]. lia.
  - destruct (Rlt_dec _ _); cbn [ss_max ss_count ss_items]; rewrite ?upd_length, H3; lia.
Qed.
End Stream.

Lemma append_depends : forall (s : ss nat) x u i, ss_append s x u i =
  if Nat.ltb (length (ss_items s)) (ss_max s) then ss_append s x 0 0
  else if Rlt_dec u (INR (ss_max s) / INR (S (ss_count s))) then mkSS (ss_max s) (upd (ss_items s) i x) (S (ss_count s)) else mkSS (ss_max s) (ss_items s) (S (ss_count s)).
Proof. intros. unfold ss_append. destruct (Nat.ltb _ _); auto. Qed.

Definition E {B} (d : dist B) (f : B -> R) : R := rsum (map (fun wx => fst wx * f (snd wx)) d).
Lemma prob_E : forall B (d : dist B) P, prob d P = E d (fun x => if P x then 1 else 0).
Proof.
  intros B d P. unfold prob, E. rewrite <- rsum_total. f_equal. apply map_ext. intros [w x]. cbn. destruct (P x); lra.
Qed.
Lemma E_app : forall B (d1 d2 : dist B) f, E (d1 ++ d2) f = E d1 f + E d2 f.
Proof. intros. unfold E. rewrite map_app, rsum_app. auto. Qed.
Lemma E_bind : forall B C (d : dist B) (k : B -> dist C) f, E (dbind d k) f = E d (fun x => E (k x) f).
Proof.
  intros B C d k f. unfold dbind. induction d as [|[w x] d IH]; [reflexivity|]. cbn [flat_map fst snd]. rewrite E_app, IH.
  change (E ((w, x) :: d) (fun x0 => E (k x0) f)) with (w * E (k x) f + E d (fun x0 => E (k x0) f)). f_equal.
  unfold E. rewrite map_map. cbn [fst snd]. rewrite <- rsum_map_scal. f_equal. apply map_ext. intros [v y]. cbn. lra.
Qed.
Lemma E_ext : forall B (d : dist B) f g, (forall w x, In (w, x) d -> f x = g x) -> E d f = E d g.
Proof. intros B d f g H. unfold E. f_equal. apply map_ext_in. intros [w x] Hx. cbn. now rewrite (H w x). Qed.
Lemma E_scal : forall B (d : dist B) c f, E d (fun x => c * f x) = c * E d f.
Proof. intros. unfold E. rewrite <- rsum_map_scal. f_equal. apply map_ext. intros [w x]. cbn. lra. Qed.

(** Invariant of every outcome. *)
Definition res_inv (m n : nat) (s : ss nat) : Prop :=
  ss_max s = m /\ ss_count s = n /\ length (ss_items s) = Nat.min n m /\ NoDup (ss_items s) /\ (forall x, In x (ss_items s) -> (x < n)%nat).

Lemma in_upd : forall B (l : list B) i x y, In y (upd l i x) -> y = x \/ In y l.
Proof. induction l as [|a l IH]; intros i x y H; cbn in *; [auto|]. destruct i; cbn in H; destruct H; auto. destruct (IH _ _ _ H); auto. Qed.
Lemma nodup_upd : forall B (l : list B) i x, NoDup l -> ~ In x l -> NoDup (upd l i x).
Proof.
  induction l as [|a l IH]; intros i x H Hx; cbn; auto. inversion H; subst. destruct i; constructor; auto.
  - intros C. apply Hx. now right.
  - intros C. apply in_upd in C. destruct C as [->|C]; [apply Hx; now left|auto].
  - apply IH; auto. intros C. apply Hx. now right.
Qed.
Lemma NoDup_snoc : forall B (l : list B) x, NoDup l -> ~ In x l -> NoDup (l ++ [x]).
Proof.
  induction l as [|a l IH]; intros x H Hx; cbn; [constructor; auto|]. inversion H; subst. constructor.
  - rewrite in_app_iff. intros [C|[<-|[]]]; auto. apply Hx. now left.
  - apply IH; auto. intros C. apply Hx. now right.
Qed.

Lemma append_inv : forall m n s u i, res_inv m n s -> res_inv m (S n) (ss_append s n u i).
Proof.
  intros m n s u i [H1 [H2 [H3 [H4 H5]]]]. assert (NI : ~ In n (ss_items s)) by (intros C; apply H5 in C; lia).
  unfold ss_append. rewrite H1, H2, H3. destruct (Nat.ltb_spec (Nat.min n m) m); [|destruct (Rlt_dec _ _)];
    (split; [auto|split; [auto|]]); cbn [ss_items].
  - rewrite app_length, H3. cbn [length]. split; [lia|]. split; [now apply NoDup_snoc|]. intros x Hx. apply in_app_or in Hx. destruct Hx as [Hx|[<-|[]]]; [apply H5 in Hx|]; lia.
  - rewrite upd_length. split; [lia|]. split; [now apply nodup_upd|]. intros x Hx. apply in_upd in Hx. destruct Hx as [->|Hx]; [lia|apply H5 in Hx; lia].
  - split; [lia|]. split; auto. intros x Hx. apply H5 in Hx. lia.
Qed.

Lemma append_dist_in : forall s x w s', In (w, s') (append_dist s x) -> exists u i, s' = ss_append s x u i.
Proof.
  intros s x w s' H. unfold append_dist in H. destruct (Nat.ltb _ _).
  - destruct H as [H|[]]. injection H as _ <-. eauto.
  - apply in_app_or in H. destruct H as [H|[H|[]]]; [|injection H as _ <-; eauto]. apply in_map_iff in H. destruct H as [i [H _]]. injection H as _ <-. eauto.
Qed.

Lemma reservoir_inv : forall m n w s, In (w, s) (reservoir m n) -> res_inv m n s.
Proof.
  intros m. induction n as [|n IH]; intros w s H; cbn [reservoir] in H.
  - destruct H as [H|[]]. injection H as _ <-. split; [auto|]. split; [auto|]. split; [auto|]. split; [constructor|]. intros x [].
  - unfold dbind in H. apply in_flat_map in H. destruct H as [[w0 s0] [H0 H]]. apply in_map_iff in H. destruct H as [[v s1] [E1 H]]. cbn [fst snd] in *. injection E1 as _ <-.
    apply append_dist_in in H. destruct H as [u [i ->]]. apply append_inv. eapply IH; eauto.
Qed.

Lemma full_p : forall m n, (1 <= m)%nat -> (m <= n)%nat -> 0 < INR m / INR (S n) < 1.
Proof.
  intros m n Hm Hn. assert (0 < INR m) by (apply lt_0_INR; lia). assert (INR m < INR (S n)) by (apply lt_INR; lia).
  split; [apply Rmult_lt_0_compat; [lra|apply Rinv_0_lt_compat; lra]|]. apply (Rmult_lt_reg_r (INR (S n))); [lra|]. unfold Rdiv. rewrite Rmult_assoc, Rinv_l by lra. lra.
Qed.
Lemma rsum_const : forall B (l : list B) c, rsum (map (fun _ => c) l) = INR (length l) * c.
Proof. induction l as [|a l IH]; intros c; [cbn; lra|]. cbn [map rsum]. rewrite IH. change (length (a :: l)) with (S (length l)). rewrite S_INR. lra. Qed.

(** The expectation of one append from a full reservoir. *)
Lemma append_E_full : forall m n s f, (1 <= m)%nat -> (m <= n)%nat -> res_inv m n s ->
  E (append_dist s n) f = / INR (S n) * rsum (map (fun i => f (mkSS m (upd (ss_items s) i n) (S n))) (seq 0 m)) + (1 - INR m / INR (S n)) * f (mkSS m (ss_items s) (S n)).
Proof.
  intros m n s f Hm Hn [H1 [H2 [H3 _]]]. unfold append_dist. rewrite H1, H2, H3. destruct (Nat.ltb_spec (Nat.min n m) m); [lia|]. pose proof (full_p Hm Hn) as P.
  rewrite E_app. assert (M0 : 0 < INR m) by (apply lt_0_INR; lia). assert (N0 : 0 < INR (S n)) by (apply lt_0_INR; lia). f_equal.
  - unfold E. rewrite map_map. cbn [fst snd]. rewrite <- rsum_map_scal. f_equal. apply map_ext. intros i. rewrite append_depends. rewrite H1, H2, H3.
    destruct (Nat.ltb_spec (Nat.min n m) m); [lia|]. destruct (Rlt_dec 0 _); [|lra]. f_equal. field. lra.
  - unfold E. cbn [map rsum fst snd]. rewrite append_depends. rewrite H1, H2, H3. destruct (Nat.ltb_spec (Nat.min n m) m); [lia|].
    destruct (Rlt_dec (INR m / INR (S n)) (INR m / INR (S n))); [lra|]. lra.
Qed.

Lemma existsb_in : forall i l, existsb (Nat.eqb i) l = true <-> In i l.
Proof.
  intros i l. rewrite existsb_exists. split; [intros [x [H E1]]; apply Nat.eqb_eq in E1; now subst|]. intros H. exists i. split; auto. apply Nat.eqb_refl.
Qed.
Definition ind (i : nat) (l : list nat) : R := if existsb (Nat.eqb i) l then 1 else 0.
Lemma ind_in : forall i l, In i l -> ind i l = 1. Proof. intros i l H. unfold ind. apply existsb_in in H. now rewrite H. Qed.
Lemma ind_out : forall i l, ~ In i l -> ind i l = 0.
Proof. intros i l H. unfold ind. destruct (existsb (Nat.eqb i) l) eqn:E1; auto. apply existsb_in in E1. contradiction. Qed.

Lemma sum_upd_other : forall l i x, NoDup l -> i <> x -> rsum (map (fun j => ind i (upd l j x)) (seq 0 (length l))) = (INR (length l) - 1) * ind i l.
Proof.
  induction l as [|a l IH]; intros i x HN Hx; [cbn; unfold ind; cbn; lra|]. inversion HN as [|? ? Ha HN']; subst.
  cbn [length seq map rsum upd]. rewrite <- seq_shift, map_map. cbn [upd]. rewrite S_INR.
  destruct (Nat.eq_dec i a) as [<-|Hia].
  - rewrite (@ind_out i (x :: l)) by (intros [C|C]; [congruence|contradiction]). rewrite (@ind_in i (i :: l)) by now left.
    rewrite (@map_ext _ _ (fun j => ind i (i :: upd l j x)) (fun _ => 1)) by (intros j; apply ind_in; now left). rewrite rsum_const, seq_length. lra.
  - assert (E0 : forall r, ind i (a :: r) = ind i r). { intros r. unfold ind. cbn. destruct (Nat.eqb_spec i a); [congruence|]. auto. }
    assert (E1 : ind i (x :: l) = ind i l). { unfold ind. cbn. destruct (Nat.eqb_spec i x); [congruence|]. auto. }
    rewrite E0, E1. rewrite (@map_ext _ _ (fun j => ind i (a :: upd l j x)) (fun j => ind i (upd l j x))) by auto. rewrite IH by auto. lra.
Qed.
Lemma sum_upd_new : forall l x, rsum (map (fun j => ind x (upd l j x)) (seq 0 (length l))) = INR (length l).
Proof.
  intros l x. rewrite (@map_ext_in _ _ _ (fun _ => 1)).
  - rewrite rsum_const, seq_length. lra.
  - intros j Hj. apply in_seq in Hj. apply ind_in. destruct Hj as [_ Hj]. cbn in Hj. clear -Hj. revert j Hj. induction l as [|a l IH]; intros j Hj; [cbn in Hj; lia|].
    destruct j; cbn; [now left|right]. apply IH. cbn in Hj. lia.
Qed.

Lemma reservoir_total : forall m n, (1 <= m)%nat -> E (reservoir m n) (fun _ => 1) = 1 /\ (forall w s, In (w, s) (reservoir m n) -> 0 <= w).
Proof.
  intros m n Hm. induction n as [|n [IH1 IH2]]; cbn [reservoir].
  - split; [unfold E; cbn; lra|]. intros w s [H|[]]. injection H as <- _. lra.
  - split.
    + rewrite E_bind. rewrite (@E_ext _ (reservoir m n) _ (fun _ => 1)); auto. intros w s H. apply reservoir_inv in H. destruct (Nat.le_gt_cases m n) as [Hf|Hf].
      * rewrite (append_E_full (fun _ => 1) Hm Hf H). rewrite rsum_const, seq_length. field. apply not_0_INR. lia.
      * destruct H as [H1 [H2 [H3 _]]]. unfold append_dist. rewrite H1, H3. destruct (Nat.ltb_spec (Nat.min n m) m); [|lia]. unfold E. cbn. lra.
    + intros w s H. unfold dbind in H. apply in_flat_map in H. destruct H as [[w0 s0] [H0 H]]. apply in_map_iff in H. destruct H as [[v s1] [E1 H]]. cbn [fst snd] in *. injection E1 as <- _.
      apply IH2 in H0 as W0. apply Rmult_le_pos; auto. apply reservoir_inv in H0. destruct H0 as [H1 [H2 [H3 _]]]. unfold append_dist in H. rewrite H1, H2, H3 in H. destruct (Nat.ltb_spec (Nat.min n m) m).
      * destruct H as [H|[]]. injection H as <- _. lra.
      * assert (Hf : (m <= n)%nat) by lia. pose proof (full_p Hm Hf) as P. assert (M0 : 0 < / INR m) by (apply Rinv_0_lt_compat, lt_0_INR; lia).
        apply in_app_or in H. destruct H as [H|[H|[]]]; [|apply (f_equal fst) in H; cbn [fst] in H; rewrite <- H; lra]. apply in_map_iff in H. destruct H as [i [H _]].
        apply (f_equal fst) in H. cbn [fst] in H. rewrite <- H. apply Rmult_le_pos; lra.
Qed.

Lemma reservoir_prob : forall m n i, (1 <= m)%nat -> (i < n)%nat -> prob (reservoir m n) (has i) = INR (Nat.min n m) / INR n.
Proof.
  intros m n i Hm. rewrite prob_E. change (fun x => if has i x then 1 else 0) with (fun s => ind i (ss_items s)).
  induction n as [|n IH]; intros Hi; [lia|]. cbn [reservoir]. rewrite E_bind. assert (N0 : 0 < INR (S n)) by (apply lt_0_INR; lia).
  destruct (Nat.le_gt_cases m n) as [Hf|Hf].
  - rewrite Nat.min_r in IH |- * by lia. destruct (Nat.eq_dec i n) as [->|Hne].
    + rewrite (@E_ext _ (reservoir m n) _ (fun _ => INR m / INR (S n) * 1)); [rewrite E_scal; rewrite (proj1 (reservoir_total n Hm)); lra|].
      intros w s H. apply reservoir_inv in H. rewrite (append_E_full _ Hm Hf H). cbn [ss_items]. destruct H as [H1 [H2 [H3 [H4 H5]]]].
      assert (EL : m = length (ss_items s)) by lia. replace (seq 0 m) with (seq 0 (length (ss_items s))) by now rewrite <- EL. rewrite sum_upd_new, <- EL. rewrite ind_out by (intros C; apply H5 in C; lia). lra.
    + rewrite (@E_ext _ (reservoir m n) _ (fun s => (1 - / INR (S n)) * ind i (ss_items s))).
      * rewrite E_scal, IH by lia. rewrite S_INR. assert (0 < INR n) by (apply lt_0_INR; lia). field. lra.
      * intros w s H. apply reservoir_inv in H. rewrite (append_E_full _ Hm Hf H). cbn [ss_items]. destruct H as [H1 [H2 [H3 [H4 H5]]]].
        assert (EL : m = length (ss_items s)) by lia. replace (seq 0 m) with (seq 0 (length (ss_items s))) by now rewrite <- EL. rewrite (@sum_upd_other (ss_items s) i n H4 Hne), <- EL. field. lra.
  - rewrite Nat.min_l by lia. assert (SE : forall w s, In (w, s) (reservoir m n) -> ss_items s = seq 0 n).
    { clear -Hf. induction n as [|n IH]; intros w s H; cbn [reservoir] in H.
      - destruct H as [H|[]]. injection H as _ <-. reflexivity.
      - unfold dbind in H. apply in_flat_map in H. destruct H as [[w0 s0] [H0 H]]. apply in_map_iff in H. destruct H as [[v s1] [E1 H]]. cbn [fst snd] in *. injection E1 as _ <-.
        pose proof (IH ltac:(lia) _ _ H0) as I0. apply reservoir_inv in H0. destruct H0 as [H1 [H2 [H3 _]]]. unfold append_dist in H. rewrite H1, H3 in H.
        destruct (Nat.ltb_spec (Nat.min n m) m); [|lia]. destruct H as [H|[]]. injection H as _ <-. unfold ss_append. rewrite H1, H3.
        destruct (Nat.ltb_spec (Nat.min n m) m); [|lia]. cbn [ss_items]. rewrite I0, seq_S. reflexivity. }
    rewrite (@E_ext _ (reservoir m n) _ (fun _ => 1)); [rewrite (proj1 (reservoir_total n Hm)); field; lra|].
    intros w s H. pose proof (SE _ _ H) as ES. apply reservoir_inv in H. destruct H as [H1 [H2 [H3 _]]]. unfold append_dist. rewrite H1, H3.
    destruct (Nat.ltb_spec (Nat.min n m) m); [|lia]. unfold E. cbn [map rsum fst snd]. unfold ss_append. rewrite H1, H3. destruct (Nat.ltb_spec (Nat.min n m) m); [|lia].
    cbn [ss_items]. rewrite ES. rewrite ind_in; [lra|]. apply in_or_app. destruct (Nat.eq_dec i n) as [->|]; [right; now left|left; apply in_seq; lia].
Qed.
