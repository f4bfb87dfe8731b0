(** CategoricalDist, NormalDist, ProbaDist. *)
From Coq Require Import List ZArith Lia Bool Reals Lra.
From Verif Require Import PyCommon CommonProofs UtilsModel UtilsSpec UtilsProofs2 UtilsProofs3 WrappersModel WrappersProofs DistModel DistSpec.
Import ListNotations.
Set Implicit Arguments.
Local Open Scope R_scope.

(** * Vectors *)
Lemma zipw_length : forall f a b, length a = length b -> length (zipw f a b) = length a.
Proof. intros f. induction a as [|x a IH]; intros [|y b] E; cbn in *; auto. Qed.
Lemma nth_zipw : forall f a b k d1 d2 d, length a = length b -> (k < length a)%nat -> nth k (zipw f a b) d = f (nth k a d1) (nth k b d2).
Proof. intros f. induction a as [|x a IH]; intros [|y b] k d1 d2 d E Hk; cbn in *; try lia. destruct k; auto. apply IH; lia. Qed.
Lemma nth_map0 : forall (f : R -> R) l k d, (k < length l)%nat -> nth k (map f l) 0 = f (nth k l d).
Proof. intros f l k d Hk. rewrite (nth_indep _ 0 (f d)) by (now rewrite map_length). apply map_nth. Qed.
Lemma zipw_map : forall f (g h : R -> R) a, zipw f (map g a) (map h a) = map (fun x => f (g x) (h x)) a.
Proof. induction a as [|x a IH]; cbn; auto. now rewrite IH. Qed.
Lemma dot_seq : forall a b, length a = length b -> dot a b = total (map (fun k => nth k a 0 * nth k b 0) (seq 0 (length a))).
Proof.
  unfold dot. induction a as [|x a IH]; intros [|y b] E; cbn in E; try lia; auto. cbn [zipw rsum length seq map]. rewrite total_cons, <- seq_shift, map_map. cbn [nth].
  rewrite IH by lia. reflexivity.
Qed.
Lemma dot_expect : forall a b, length a = length b -> dot a b = expect a (fun k => nth k b 0).
Proof. intros. unfold expect. now rewrite dot_seq. Qed.
Lemma total_ext : forall A (f g : A -> R) l, (forall x, In x l -> f x = g x) -> total (map f l) = total (map g l).
Proof. intros. f_equal. now apply map_ext_in. Qed.
Lemma total_le : forall A (f g : A -> R) l, (forall x, In x l -> f x <= g x) -> total (map f l) <= total (map g l).
Proof.
  induction l as [|x l IH]; intros Hl; [cbn; lra|]. cbn [map]. rewrite !total_cons. pose proof (Hl x (or_introl eq_refl)). assert (total (map f l) <= total (map g l)) by (apply IH; intros; apply Hl; now right). lra.
Qed.
Lemma total_le_eq : forall A (f g : A -> R) l, (forall x, In x l -> f x <= g x) -> total (map f l) = total (map g l) -> forall x, In x l -> f x = g x.
Proof.
  induction l as [|x l IH]; intros Hl E y Hy; [destruct Hy|]. cbn [map] in E. rewrite !total_cons in E. pose proof (Hl x (or_introl eq_refl)) as H1.
  assert (H2 : total (map f l) <= total (map g l)) by (apply total_le; intros; apply Hl; now right). destruct Hy as [<-|Hy]; [lra|]. apply IH; auto; [intros; apply Hl; now right|lra].
Qed.
Lemma total_plus : forall A (f g : A -> R) l, total (map (fun x => f x + g x) l) = total (map f l) + total (map g l).
Proof. intros. rewrite <- !rsum_total. apply rsum_map_plus. Qed.
Lemma total_scal : forall A (f : A -> R) c l, total (map (fun x => c * f x) l) = c * total (map f l).
Proof. intros. rewrite <- !rsum_total. apply rsum_map_scal. Qed.
Lemma total_minus : forall A (f g : A -> R) l, total (map (fun x => f x - g x) l) = total (map f l) - total (map g l).
Proof. induction l as [|x l IH]; [cbn; lra|]. cbn [map]. rewrite !total_cons, IH. lra. Qed.
Lemma total_const : forall A c (l : list A), total (map (fun _ => c) l) = INR (length l) * c.
Proof. intros. rewrite <- rsum_total. apply rsum_const. Qed.
Lemma map_nth_seq : forall (l : list R) d, map (fun k => nth k l d) (seq 0 (length l)) = l.
Proof. induction l as [|x l IH]; intros d; auto. cbn [length seq map nth]. rewrite <- seq_shift, map_map. f_equal. apply IH. Qed.

(** * Logarithm *)
Lemma ln_le_minus1 : forall x, 0 < x -> ln x <= x - 1.
Proof.
  intros x Hx. destruct (Req_dec x 1) as [->|N]; [rewrite ln_1; lra|]. assert (L : ln x <> 0). { intros C. apply N. rewrite <- (exp_ln x), C, exp_0 by auto. auto. }
  pose proof (exp_ineq1 _ L) as E. rewrite exp_ln in E by auto. lra.
Qed.
Lemma ln_eq_minus1 : forall x, 0 < x -> ln x = x - 1 -> x = 1.
Proof.
  intros x Hx Eq. destruct (Req_dec x 1) as [|N]; auto. assert (L : ln x <> 0). { intros C. apply N. rewrite <- (exp_ln x), C, exp_0 by auto. auto. }
  pose proof (exp_ineq1 _ L) as E. rewrite exp_ln in E by auto. lra.
Qed.
Lemma ln_div : forall a b, 0 < a -> 0 < b -> ln (a / b) = ln a - ln b.
Proof. intros a b Ha Hb. unfold Rdiv. rewrite ln_mult, ln_Rinv by (auto; now apply Rinv_0_lt_compat). lra. Qed.

(** * Gibbs *)
Lemma nth_pos : forall p k, (forall x, In x p -> 0 < x) -> (k < length p)%nat -> 0 < nth k p 0.
Proof. intros p k Hp Hk. apply Hp. now apply nth_In. Qed.
Lemma gibbs : forall p q, pos_distribution p -> pos_distribution q -> length p = length q -> 0 <= KL p q /\ (KL p q = 0 -> p = q).
Proof.
  intros p q [Pp Tp] [Pq Tq] L. unfold KL, expect.
  assert (LO : forall k, In k (seq 0 (length p)) -> nth k p 0 - nth k q 0 <= nth k p 0 * (ln (nth k p 0) - ln (nth k q 0))).
  { intros k Hk. apply in_seq in Hk. cbn in Hk. assert (A : 0 < nth k p 0) by (apply nth_pos; auto; lia). assert (B : 0 < nth k q 0) by (apply nth_pos; auto; lia).
    assert (Q : 0 < nth k q 0 / nth k p 0) by (apply Rmult_lt_0_compat; auto; now apply Rinv_0_lt_compat). pose proof (ln_le_minus1 Q) as E. rewrite ln_div in E by auto.
    assert (E2 : nth k p 0 * (nth k q 0 / nth k p 0) = nth k q 0) by (field; lra). nra. }
  assert (S : total (map (fun k => nth k p 0 - nth k q 0) (seq 0 (length p))) = 0).
  { rewrite total_minus. rewrite (map_nth_seq p 0). rewrite L, (map_nth_seq q 0). lra. }
  split; [pose proof (@total_le _ _ _ _ LO) as T1; cbv beta in T1; lra|]. intros K. apply (@list_eq_nth _ 0); auto. intros k Hk.
  pose proof (@total_le_eq _ _ _ _ LO (eq_trans S (eq_sym K)) k ltac:(apply in_seq; lia)) as E. cbv beta in E.
  assert (A : 0 < nth k p 0) by (apply nth_pos; auto; lia). assert (B : 0 < nth k q 0) by (apply nth_pos; auto; lia).
  assert (Q : 0 < nth k q 0 / nth k p 0) by (apply Rmult_lt_0_compat; auto; now apply Rinv_0_lt_compat).
  assert (E3 : ln (nth k q 0 / nth k p 0) = nth k q 0 / nth k p 0 - 1).
  { rewrite ln_div by auto. replace (ln (nth k q 0) - ln (nth k p 0)) with (- ((nth k p 0 * (ln (nth k p 0) - ln (nth k q 0))) / nth k p 0)) by (field; lra). rewrite <- E. field. lra. }
  apply ln_eq_minus1 in E3; auto. apply (Rmult_eq_compat_r (nth k p 0)) in E3. unfold Rdiv in E3. rewrite Rmult_assoc, Rinv_l in E3 by lra. lra.
Qed.

(** * Softmax *)
Lemma sumexp_pos : forall z, z <> [] -> 0 < sumexp z.
Proof. intros z Hz. unfold sumexp. apply rsum_pos; [now destruct z|]. intros x Hx. apply in_map_iff in Hx. destruct Hx as [y [<- _]]. apply exp_pos. Qed.
Lemma softmax_length : forall z, length (softmax z) = length z. Proof. intros. apply map_length. Qed.
Lemma log_softmax_length : forall z, length (log_softmax z) = length z. Proof. intros. apply map_length. Qed.
Lemma softmax_dist : forall z, z <> [] -> pos_distribution (softmax z).
Proof.
  intros z Hz. pose proof (sumexp_pos Hz) as S. split.
  - intros x Hx. apply in_map_iff in Hx. destruct Hx as [y [<- _]]. apply Rmult_lt_0_compat; [apply exp_pos|now apply Rinv_0_lt_compat].
  - unfold softmax. rewrite (@total_ext _ _ (fun x => / sumexp z * exp x)) by (intros; unfold Rdiv; lra). rewrite total_scal. unfold sumexp. rewrite rsum_total. field.
    unfold sumexp in S. rewrite rsum_total in S. lra.
Qed.
Lemma exp_log_softmax : forall z, z <> [] -> map exp (log_softmax z) = softmax z.
Proof.
  intros z Hz. pose proof (sumexp_pos Hz). unfold log_softmax, softmax. rewrite map_map. apply map_ext. intros x. unfold Rminus. rewrite exp_plus, exp_Ropp, exp_ln by auto. reflexivity.
Qed.
Lemma nth_log_softmax : forall z k, z <> [] -> (k < length z)%nat -> nth k (log_softmax z) 0 = ln (nth k (softmax z) 0).
Proof.
  intros z k Hz Hk. rewrite <- exp_log_softmax by auto. rewrite (@nth_map0 exp _ k 0) by (rewrite log_softmax_length; auto). now rewrite ln_exp.
Qed.
Lemma nth_softmax : forall z k, (k < length z)%nat -> nth k (softmax z) 0 = exp (nth k z 0) / sumexp z.
Proof. intros z k Hk. unfold softmax. now rewrite (@nth_map0 (fun x => exp x / sumexp z) _ k 0). Qed.
Lemma nonempty : forall n (z : list R), (1 <= n)%nat -> length z = n -> z <> [].
Proof. intros n z Hn E ->. cbn in E. lia. Qed.
Lemma check_ok : forall n z, length z = n -> check_n n z = Ok z.
Proof. intros n z E. unfold check_n. now rewrite E, Nat.eqb_refl. Qed.
Lemma check_bad : forall n z, length z <> n -> check_n n z = Err EValue.
Proof. intros n z E. unfold check_n. destruct (Nat.eqb_spec (length z) n); congruence. Qed.

Lemma one_hot_length : forall n a, length (one_hot n a) = n. Proof. intros. unfold one_hot. now rewrite map_length, seq_length. Qed.
Lemma nth_one_hot : forall n a k, (k < n)%nat -> nth k (one_hot n a) 0 = if Nat.eqb k a then 1 else 0.
Proof. intros n a k Hk. unfold one_hot. now rewrite (@nth_map_seq _ (fun k => if Nat.eqb k a then 1 else 0)) by auto. Qed.
Lemma total_pick : forall (f : nat -> R) n a, (a < n)%nat -> (forall k, k <> a -> f k = 0) -> total (map f (seq 0 n)) = f a.
Proof.
  intros f n a Ha H0. assert (G : forall m s, (s <= a)%nat -> total (map f (seq s m)) = if Nat.ltb a (s + m) then f a else 0).
  { induction m as [|m IH]; intros s Hs; cbn [seq map].
    - destruct (Nat.ltb_spec a (s + 0)); [lia|reflexivity].
    - rewrite total_cons. destruct (Nat.eq_dec s a) as [->|N].
      + assert (Z : forall m s, (a < s)%nat -> total (map f (seq s m)) = 0). { clear -H0. induction m as [|m IH]; intros s Hs; cbn [seq map]; auto. rewrite total_cons, IH, H0 by lia. lra. }
        rewrite Z by lia. destruct (Nat.ltb_spec a (a + S m)); [lra|lia].
      + rewrite H0, IH by lia. replace (S s + m)%nat with (s + S m)%nat by lia. destruct (Nat.ltb _ _); lra. }
  rewrite G by lia. destruct (Nat.ltb_spec a (0 + n)); [auto|lia].
Qed.
Lemma dot_one_hot : forall n a y, length y = n -> (a < n)%nat -> dot (one_hot n a) y = nth a y 0.
Proof.
  intros n a y L Ha. rewrite dot_seq by now rewrite one_hot_length. rewrite one_hot_length. rewrite (@total_ext _ _ (fun k => if Nat.eqb k a then nth k y 0 else 0)).
  - rewrite (@total_pick _ n a Ha); [now rewrite Nat.eqb_refl|]. intros k Hk. destruct (Nat.eqb_spec k a); congruence.
  - intros k Hk. apply in_seq in Hk. rewrite nth_one_hot by lia. destruct (Nat.eqb k a); lra.
Qed.

(** * CategoricalDist *)
Section Cat.
Variables (n : nat) (z : list R).
Hypotheses (Hn : (1 <= n)%nat) (Hz : length z = n).
Let NE : z <> [] := nonempty Hn Hz.

Lemma cat_log_proba_one_hot : forall a, (a < n)%nat -> cat_log_proba n z (one_hot n a) = Ok (ln (nth a (softmax z) 0)).
Proof.
  intros a Ha. unfold cat_log_proba. rewrite (check_ok _ (one_hot_length n a)), (check_ok _ Hz). cbn [bind]. rewrite dot_one_hot by (rewrite ?log_softmax_length; auto). rewrite nth_log_softmax by (auto; lia). auto.
Qed.
Lemma cat_ratio : forall a b, (a < n)%nat -> (b < n)%nat -> nth a (softmax z) 0 / nth b (softmax z) 0 = exp (nth a z 0 - nth b z 0).
Proof.
  intros a b Ha Hb. rewrite !nth_softmax by lia. pose proof (sumexp_pos NE). pose proof (exp_pos (nth b z 0)). unfold Rminus. rewrite exp_plus, exp_Ropp. field. lra.
Qed.
Lemma cat_entropy_H : cat_entropy n z = Ok (H (softmax z)).
Proof.
  unfold cat_entropy. rewrite (check_ok _ Hz). cbn [bind]. rewrite exp_log_softmax by auto. f_equal. rewrite dot_expect by (now rewrite map_length, softmax_length, log_softmax_length).
  unfold H, expect. apply total_ext. intros k Hk. apply in_seq in Hk. rewrite softmax_length in Hk. f_equal. rewrite <- nth_log_softmax by (auto; lia).
  apply nth_map0. rewrite log_softmax_length; lia.
Qed.
End Cat.

Lemma log_softmax_shift : forall z c, z <> [] -> log_softmax (map (fun x => x + c) z) = log_softmax z.
Proof.
  intros z c Hz. assert (S : sumexp (map (fun x => x + c) z) = exp c * sumexp z).
  { unfold sumexp. rewrite map_map. rewrite <- rsum_map_scal. f_equal. apply map_ext. intros x. rewrite exp_plus. lra. }
  unfold log_softmax. rewrite S, map_map. apply map_ext. intros x. rewrite ln_mult by (auto using exp_pos, sumexp_pos). rewrite ln_exp. lra.
Qed.
Lemma softmax_of_log : forall z, z <> [] -> softmax (log_softmax z) = softmax z.
Proof.
  intros z Hz. unfold softmax at 1. unfold sumexp. rewrite exp_log_softmax by auto. rewrite rsum_total. destruct (softmax_dist Hz) as [_ ->].
  rewrite <- (exp_log_softmax Hz). apply map_ext. intros. unfold Rdiv. rewrite Rinv_1. lra.
Qed.

Lemma KL_softmax : forall n zp zq, (1 <= n)%nat -> length zp = n -> length zq = n ->
  cat_kl n zp zq = Ok (KL (softmax zp) (softmax zq)) /\ cat_cross_entropy n zp zq = Ok (H (softmax zp) + KL (softmax zp) (softmax zq)).
Proof.
  intros n zp zq Hn Hp Hq. pose proof (nonempty Hn Hp) as Np. pose proof (nonempty Hn Hq) as Nq. split.
  - unfold cat_kl. rewrite (check_ok _ Hp), (check_ok _ Hq). cbn [bind]. rewrite exp_log_softmax by auto. f_equal.
    assert (L : length (zipw Rminus (log_softmax zp) (log_softmax zq)) = n) by (rewrite zipw_length; rewrite ?log_softmax_length; lia).
    rewrite dot_expect by (now rewrite softmax_length, L). unfold KL, expect. apply total_ext. intros k Hk. apply in_seq in Hk. rewrite softmax_length in Hk. f_equal.
    rewrite (@nth_zipw Rminus _ _ k 0 0 0) by (rewrite ?log_softmax_length; lia). rewrite !nth_log_softmax by (auto; lia). auto.
  - unfold cat_cross_entropy. rewrite (check_ok _ Hp), (check_ok _ Hq). cbn [bind]. f_equal. rewrite dot_expect by (rewrite map_length, softmax_length, log_softmax_length; lia).
    unfold H, KL, expect. rewrite <- total_plus. apply total_ext. intros k Hk. apply in_seq in Hk. rewrite softmax_length in Hk.
    rewrite (@nth_map0 Ropp _ k 0) by (rewrite log_softmax_length; lia). rewrite nth_log_softmax by (auto; lia). lra.
Qed.
Lemma cat_same : forall n zp zq, (1 <= n)%nat -> length zp = n -> length zq = n -> (softmax zp = softmax zq <-> forall x, cat_log_proba n zp x = cat_log_proba n zq x).
Proof.
  intros n zp zq Hn Hp Hq. pose proof (nonempty Hn Hp) as Np. pose proof (nonempty Hn Hq) as Nq. split; intros E.
  - intros x. unfold cat_log_proba. rewrite (check_ok _ Hp), (check_ok _ Hq). assert (EL : log_softmax zp = log_softmax zq).
    { apply (@list_eq_nth _ 0); [rewrite !log_softmax_length; lia|]. intros k Hk. rewrite log_softmax_length in Hk. rewrite !nth_log_softmax by (auto; lia). now rewrite E. }
    cbn [bind]. now rewrite EL.
  - apply (@list_eq_nth _ 0); [rewrite !softmax_length; lia|]. intros k Hk. rewrite softmax_length in Hk. specialize (E (one_hot n k)). rewrite !cat_log_proba_one_hot in E by (auto; lia).
    injection E as E. apply ln_inv; auto; (apply nth_pos; [|rewrite softmax_length; lia]; now apply softmax_dist).
Qed.
Lemma cat_div_spec : forall n zp zq, (1 <= n)%nat -> length zp = n -> length zq = n ->
  exists h c k, cat_entropy n zp = Ok h /\ cat_cross_entropy n zp zq = Ok c /\ cat_kl n zp zq = Ok k /\ c = h + k /\ 0 <= k /\ (k = 0 <-> forall x, cat_log_proba n zp x = cat_log_proba n zq x).
Proof.
  intros n zp zq Hn Hp Hq. destruct (@KL_softmax n zp zq Hn Hp Hq) as [K C]. exists (H (softmax zp)), (H (softmax zp) + KL (softmax zp) (softmax zq)), (KL (softmax zp) (softmax zq)).
  split; [now apply cat_entropy_H|]. split; auto. split; auto. split; auto.
  destruct (@gibbs (softmax zp) (softmax zq)) as [G1 G2]; [apply softmax_dist; now apply (nonempty Hn)|apply softmax_dist; now apply (nonempty Hn)|rewrite !softmax_length; lia|].
  split; auto. rewrite <- cat_same by auto. split; auto. intros ->. unfold KL, expect. rewrite (@total_ext _ _ (fun _ => 0)) by (intros; lra). rewrite total_const. lra.
Qed.

Lemma uniform_dist : forall n, (1 <= n)%nat -> pos_distribution (repeat (/ INR n) n).
Proof.
  intros n Hn. assert (0 < INR n) by (apply lt_0_INR; lia). split.
  - intros x Hx. apply repeat_spec in Hx. subst. now apply Rinv_0_lt_compat.
  - assert (R : forall m c, total (repeat c m) = INR m * c). { induction m as [|m IH]; intros c; [cbn; lra|]. cbn [repeat]. rewrite total_cons, IH, S_INR. lra. }
    rewrite R. field. lra.
Qed.
Lemma nth_rep : forall (c : R) n k, (k < n)%nat -> nth k (repeat c n) 0 = c.
Proof. intros c n k Hk. apply (@repeat_spec _ n). apply nth_In. now rewrite repeat_length. Qed.
Lemma H_bounds : forall p n, pos_distribution p -> length p = n -> (1 <= n)%nat -> 0 <= H p <= ln (INR n) /\ (H p = ln (INR n) -> forall k, (k < n)%nat -> nth k p 0 = / INR n).
Proof.
  intros p n Hp L Hn. pose proof Hp as [P T]. assert (N0 : 0 < INR n) by (apply lt_0_INR; lia).
  assert (LE1 : forall k, (k < length p)%nat -> nth k p 0 <= 1).
  { intros k Hk. rewrite <- T. clear -P Hk. revert k Hk. induction p as [|x p IH]; intros k Hk; cbn in Hk; [lia|]. rewrite total_cons.
    assert (0 <= total p) by (rewrite <- rsum_total; apply rsum_nonneg; intros y Hy; left; apply P; now right). destruct k; cbn [nth]; [lra|].
    assert (nth k p 0 <= total p) by (apply IH; [intros; apply P; now right|lia]). pose proof (P x (or_introl eq_refl)). lra. }
  assert (K : KL p (repeat (/ INR n) n) = ln (INR n) - H p).
  { unfold KL, H, expect. rewrite (@total_ext _ _ (fun k => nth k p 0 * ln (INR n) - nth k p 0 * - ln (nth k p 0))).
    - rewrite total_minus. f_equal. rewrite (@total_ext _ _ (fun k => ln (INR n) * nth k p 0)) by (intros; lra). rewrite total_scal. rewrite (map_nth_seq p 0), T. lra.
    - intros k Hk. apply in_seq in Hk. rewrite nth_rep by lia. rewrite ln_Rinv by auto. lra. }
  destruct (@gibbs p (repeat (/ INR n) n) Hp (uniform_dist Hn) ltac:(rewrite repeat_length; auto)) as [G1 G2]. split; [split; [|lra]|].
  - unfold H, expect. rewrite <- rsum_total. apply rsum_nonneg. intros y Hy. apply in_map_iff in Hy. destruct Hy as [k [<- Hk]]. apply in_seq in Hk. cbn in Hk. pose proof (LE1 k ltac:(lia)) as A.
    pose proof (@nth_pos p k P ltac:(lia)) as B. assert (ln (nth k p 0) <= 0) by (pose proof (ln_le_minus1 B); lra). nra.
  - intros E k Hk. rewrite (G2 ltac:(lra)). apply nth_rep; lia.
Qed.

(** * NormalDist *)
Definition clipped (D : ndist) (lv : list R) : list R := map (fun x => clip x (nd_clo D) (nd_chi D)) lv.
Lemma clipped_length : forall D lv, length (clipped D lv) = length lv. Proof. intros. apply map_length. Qed.
Lemma check_logvar_ok : forall D lv, length lv = nd_dim D -> check_logvar D lv = Ok (clipped D lv).
Proof. intros D lv E. unfold check_logvar. now rewrite (check_ok _ E). Qed.

Lemma gauss_pos : forall m v x, 0 < v -> 0 < gauss m v x.
Proof.
  intros m v x Hv. unfold gauss. apply Rmult_lt_0_compat; [apply exp_pos|]. apply Rinv_0_lt_compat, sqrt_lt_R0. pose proof PI_RGT_0. nra.
Qed.
Lemma ln_sqrt : forall x, 0 < x -> ln (sqrt x) = ln x / 2.
Proof.
  intros x Hx. assert (S : 0 < sqrt x) by now apply sqrt_lt_R0. rewrite <- (sqrt_sqrt x) at 2 by lra. rewrite ln_mult by auto. lra.
Qed.
Lemma ln_gauss : forall m lv x, ln (gauss m (exp lv) x) = - (1/2) * (log_2pi + lv + (x - m) * (x - m) * exp (- lv)).
Proof.
  intros m lv x. unfold gauss, log_2pi. pose proof (exp_pos lv). pose proof PI_RGT_0. rewrite ln_div by (auto using exp_pos; apply sqrt_lt_R0; nra). rewrite ln_exp, ln_sqrt by nra.
  rewrite ln_mult by (auto; nra). rewrite ln_exp, exp_Ropp. field. lra.
Qed.
Lemma joint_pos : forall mu lv x, 0 < product (joint mu lv x).
Proof. induction mu as [|m mu IH]; intros [|v lv] [|y x]; cbn; try lra. apply Rmult_lt_0_compat; [apply gauss_pos, exp_pos|apply IH]. Qed.
Lemma n_log_proba_spec : forall D p x, fits_norm D p -> length x = nd_dim D -> n_log_proba D p x = Ok (ln (product (joint (n_mu p) (clipped D (n_logvar p)) x))).
Proof.
  intros D p x [Hm Hl] Hx. unfold n_log_proba. rewrite (check_ok _ Hx), (check_ok _ Hm), (check_logvar_ok _ _ Hl). cbn [bind]. f_equal.
  assert (L1 : length (n_mu p) = length x) by lia. assert (L2 : length (clipped D (n_logvar p)) = length x) by (rewrite clipped_length; lia).
  generalize dependent (clipped D (n_logvar p)). generalize dependent (n_mu p). clear. intros mu _ Hm lv Hl. revert mu lv Hm Hl. unfold dot.
  induction x as [|y x IH]; intros [|m mu] [|v lv] Hm Hl; cbn in Hm, Hl; try lia.
  - cbn. rewrite ln_1. lra.
  - cbn [joint product fold_right zipw map rsum]. fold (product (joint mu lv x)). rewrite ln_mult by (auto using joint_pos, gauss_pos, exp_pos). rewrite <- IH by lia. rewrite ln_gauss.
    change (length (v :: lv)) with (S (length lv)). rewrite S_INR. unfold Rsqr. lra.
Qed.

(** The divergence, coordinate by coordinate. *)
Definition kl1 (m1 m2 v1 v2 : R) : R := 1/2 * (v2 - v1 + (exp v1 + (m1 - m2) * (m1 - m2)) * exp (- v2) - 1).
Lemma kl1_nonneg : forall m1 m2 v1 v2, 0 <= kl1 m1 m2 v1 v2 /\ (kl1 m1 m2 v1 v2 = 0 -> m1 = m2 /\ v1 = v2).
Proof.
  intros m1 m2 v1 v2. unfold kl1. pose proof (exp_pos (- v2)) as E. assert (X : exp v1 * exp (- v2) = exp (v1 - v2)) by (rewrite <- exp_plus; f_equal; lra).
  assert (Q : 0 <= (m1 - m2) * (m1 - m2) * exp (- v2)) by (apply Rmult_le_pos; [apply Rle_0_sqr|lra]).
  rewrite Rmult_plus_distr_r, X.
  destruct (Req_dec v1 v2) as [->|N].
  - rewrite (Rminus_diag_eq v2 v2) by auto. rewrite exp_0. split; [lra|]. intros K. split; auto. assert (Z : (m1 - m2) * (m1 - m2) * exp (- v2) = 0) by lra. apply Rmult_integral in Z. destruct Z as [Z|Z]; [apply Rsqr_0_uniq in Z; lra|lra].
  - assert (N' : v1 - v2 <> 0) by lra. pose proof (exp_ineq1 _ N'). split; [lra|intros; lra].
Qed.
Fixpoint kls (mu1 mu2 lv1 lv2 : list R) : list R :=
  match mu1, mu2, lv1, lv2 with m1 :: mu1', m2 :: mu2', v1 :: lv1', v2 :: lv2' => kl1 m1 m2 v1 v2 :: kls mu1' mu2' lv1' lv2' | _, _, _, _ => [] end.
Lemma kls_sum : forall d mu1 mu2 lv1 lv2, length mu1 = d -> length mu2 = d -> length lv1 = d -> length lv2 = d ->
  1/2 * (rsum lv2 - rsum lv1 + n_quadratic mu1 mu2 lv1 lv2 - INR (length mu1)) = rsum (kls mu1 mu2 lv1 lv2) /\
  0 <= rsum (kls mu1 mu2 lv1 lv2) /\ (rsum (kls mu1 mu2 lv1 lv2) = 0 -> mu1 = mu2 /\ lv1 = lv2).
Proof.
  unfold n_quadratic, dot. induction d as [|d IH]; intros [|m1 mu1] [|m2 mu2] [|v1 lv1] [|v2 lv2] H1 H2 H3 H4; cbn in H1, H2, H3, H4; try lia.
  - cbn. split; [lra|]. split; [lra|auto].
  - destruct (IH mu1 mu2 lv1 lv2) as [I1 [I2 I3]]; try lia. cbn [kls rsum zipw map]. change (length (m1 :: mu1)) with (S (length mu1)). rewrite S_INR. destruct (kl1_nonneg m1 m2 v1 v2) as [K1 K2].
    split; [|split; [lra|]].
    + rewrite <- I1. unfold kl1, Rsqr. lra.
    + intros E. destruct K2 as [-> ->]; [lra|]. destruct I3 as [-> ->]; [lra|]. auto.
Qed.

Lemma n_same : forall D p q, fits_norm D p -> fits_norm D q -> (n_mu p = n_mu q /\ clipped D (n_logvar p) = clipped D (n_logvar q) <-> forall x, n_log_proba D p x = n_log_proba D q x).
Proof.
  intros D p q [Hp1 Hp2] [Hq1 Hq2]. split.
  - intros [E1 E2] x. unfold n_log_proba. rewrite (check_logvar_ok _ _ Hp2), (check_logvar_ok _ _ Hq2), E1, E2. reflexivity.
  - intros E. set (mu1 := n_mu p) in *. set (mu2 := n_mu q) in *. set (lv1 := clipped D (n_logvar p)). set (lv2 := clipped D (n_logvar q)).
    assert (L1 : length lv1 = nd_dim D) by (unfold lv1; rewrite clipped_length; auto). assert (L2 : length lv2 = nd_dim D) by (unfold lv2; rewrite clipped_length; auto).
    set (Q := fun (x mu lv : list R) => total (map (fun k => (nth k x 0 - nth k mu 0) * (nth k x 0 - nth k mu 0) * exp (- nth k lv 0)) (seq 0 (nd_dim D)))).
    assert (EQ : forall x, length x = nd_dim D -> rsum lv1 + Q x mu1 lv1 = rsum lv2 + Q x mu2 lv2).
    { intros x Hx. specialize (E x). unfold n_log_proba in E. fold mu1 mu2 in E. rewrite (check_ok _ Hx), (check_ok _ Hp1), (check_ok _ Hq1), (check_logvar_ok _ _ Hp2), (check_logvar_ok _ _ Hq2) in E. cbn [bind] in E. fold lv1 lv2 in E.
      apply (f_equal (fun o => match o with Ok v => v | Err _ => 0 end)) in E. rewrite L1, L2 in E.
      assert (DQ : forall mu lv, length mu = nd_dim D -> length lv = nd_dim D -> dot (map Rsqr (zipw Rminus x mu)) (map (fun v => exp (- v)) lv) = Q x mu lv).
      { intros mu lv H1 H2. assert (LZ : length (zipw Rminus x mu) = nd_dim D) by (rewrite zipw_length; lia). rewrite dot_seq by (rewrite !map_length; lia). rewrite map_length, LZ. apply total_ext.
        intros k Hk. apply in_seq in Hk. rewrite (@nth_map0 Rsqr _ k 0) by lia. rewrite (@nth_zipw Rminus x mu k 0 0 0) by lia.
        rewrite (@nth_map0 (fun v => exp (- v)) _ k 0) by lia. reflexivity. }
      rewrite !DQ in E by auto. lra. }
    assert (QZ : forall mu lv, Q mu mu lv = 0). { intros. unfold Q. rewrite (@total_ext _ _ (fun _ => 0)) by (intros; lra). rewrite total_const. lra. }
    assert (QN : forall x mu lv, 0 <= Q x mu lv). { intros. unfold Q. rewrite <- rsum_total. apply rsum_nonneg. intros y Hy. apply in_map_iff in Hy. destruct Hy as [k [<- _]]. apply Rmult_le_pos; [apply Rle_0_sqr|left; apply exp_pos]. }
    pose proof (EQ mu1 Hp1) as A1. pose proof (EQ mu2 Hq1) as A2. rewrite QZ in A1, A2. pose proof (QN mu1 mu2 lv2). pose proof (QN mu2 mu1 lv1).
    assert (Z : Q mu1 mu2 lv2 = 0) by lra. assert (SE : rsum lv1 = rsum lv2) by lra.
    assert (EM : mu1 = mu2).
    { apply (@list_eq_nth _ 0); [lia|]. intros k Hk. unfold Q in Z.
      assert (Z0 : total (map (fun _ : nat => 0) (seq 0 (nd_dim D))) = total (map (fun k => (nth k mu1 0 - nth k mu2 0) * (nth k mu1 0 - nth k mu2 0) * exp (- nth k lv2 0)) (seq 0 (nd_dim D)))) by (rewrite total_const; lra).
      assert (NN : forall j, In j (seq 0 (nd_dim D)) -> 0 <= (nth j mu1 0 - nth j mu2 0) * (nth j mu1 0 - nth j mu2 0) * exp (- nth j lv2 0)) by (intros j _; apply Rmult_le_pos; [apply Rle_0_sqr|left; apply exp_pos]).
      pose proof (@total_le_eq _ _ _ _ NN Z0 k ltac:(apply in_seq; lia)) as EK. cbv beta in EK. pose proof (exp_pos (- nth k lv2 0)). symmetry in EK. apply Rmult_integral in EK. destruct EK as [EK|EK]; [apply Rsqr_0_uniq in EK; lra|lra]. }
    split; auto. apply (@list_eq_nth _ 0); [lia|]. intros i Hi.
    set (x := map (fun k => nth k mu1 0 + if Nat.eqb k i then 1 else 0) (seq 0 (nd_dim D))). assert (LX : length x = nd_dim D) by (unfold x; now rewrite map_length, seq_length).
    assert (QX : forall lv, Q x mu1 lv = exp (- nth i lv 0)).
    { intros lv. unfold Q. rewrite (@total_ext _ _ (fun k => if Nat.eqb k i then exp (- nth k lv 0) else 0)).
      - rewrite (@total_pick _ (nd_dim D) i ltac:(lia)); [now rewrite Nat.eqb_refl|]. intros k Hk. destruct (Nat.eqb_spec k i); congruence.
      - intros k Hk. apply in_seq in Hk. unfold x. rewrite (@nth_map_seq _ (fun k => nth k mu1 0 + if Nat.eqb k i then 1 else 0)) by lia. destruct (Nat.eqb k i); lra. }
    pose proof (EQ x LX) as AX. rewrite <- EM in AX. rewrite !QX in AX. assert (EE : exp (- nth i lv1 0) = exp (- nth i lv2 0)) by lra. apply exp_inv in EE. lra.
Qed.

Lemma n_div_spec : forall D p q, fits_norm D p -> fits_norm D q ->
  exists h c k, n_entropy D p = Ok h /\ n_cross_entropy D p q = Ok c /\ n_kl D p q = Ok k /\ c = h + k /\ 0 <= k /\ (k = 0 <-> forall x, n_log_proba D p x = n_log_proba D q x).
Proof.
  intros D p q Fp Fq. pose proof Fp as [Hp1 Hp2]. pose proof Fq as [Hq1 Hq2]. unfold n_entropy, n_cross_entropy, n_kl, n_checked.
  rewrite (check_ok _ Hp1), (check_ok _ Hq1), (check_logvar_ok _ _ Hp2), (check_logvar_ok _ _ Hq2). cbn [bind]. eexists _, _, _. split; [reflexivity|]. split; [reflexivity|]. split; [reflexivity|].
  destruct (@kls_sum (nd_dim D) (n_mu p) (n_mu q) (clipped D (n_logvar p)) (clipped D (n_logvar q)) Hp1 Hq1 ltac:(rewrite clipped_length; auto) ltac:(rewrite clipped_length; auto)) as [K1 [K2 K3]].
  split; [rewrite clipped_length, Hp2, Hp1; lra|]. rewrite <- n_same by auto. rewrite K1. split; auto. split; auto. intros [E1 E2]. rewrite <- E1, <- E2.
  clear. generalize (n_mu p), (clipped D (n_logvar p)). induction l as [|m l IH]; intros [|v lv]; cbn; try lra. rewrite IH. unfold kl1. replace (m - m) with 0 by lra. replace (v - v) with 0 by lra.
  replace ((exp v + 0 * 0) * exp (- v)) with (exp v * exp (- v)) by lra. rewrite <- exp_plus, Rplus_opp_r, exp_0. lra.
Qed.

(** * ProbaDist *)
Section CInd.
Variable P : cdist -> Prop.
Hypothesis Hc : forall n, P (CCat n).
Hypothesis Hnm : forall D, P (CNorm D).
Hypothesis Hnd : forall l, Forall (fun kd => P (snd kd)) l -> P (CNode l).
Fixpoint cdist_ind' (d : cdist) : P d :=
  match d with
  | CCat n => Hc n
  | CNorm D => Hnm D
  | CNode l => Hnd ((fix go (l : list (nat * cdist)) : Forall (fun kd => P (snd kd)) l :=
      match l with [] => Forall_nil _ | kd :: l' => Forall_cons kd (cdist_ind' (snd kd)) (go l') end) l)
  end.
End CInd.

Lemma c_div_spec : forall d p q, fits d p -> fits d q ->
  exists h c k, c_entropy d p = Ok h /\ c_cross_entropy d p q = Ok c /\ c_kl d p q = Ok k /\ c = h + k /\ 0 <= k /\ (k = 0 <-> same_dist d p q).
Proof.
  unfold c_entropy, c_cross_entropy, c_kl. induction d as [n|D|l IH] using cdist_ind'; intros p q Fp Fq.
  - destruct p, q; cbn in Fp, Fq; try contradiction. destruct Fp as [Hn Hp], Fq as [_ Hq]. exact (@cat_div_spec _ _ _ Hn Hp Hq).
  - destruct p, q; cbn in Fp, Fq; try contradiction. exact (@n_div_spec _ _ _ Fp Fq).
  - destruct p as [| |lp], q as [| |lq]; try (cbn in Fp, Fq; contradiction). induction IH as [|[k d] l Hd _ IHl].
    + exists 0, 0, 0. cbn. repeat split; auto; lra.
    + cbn [fits] in Fp, Fq. destruct Fp as [[p' [Ep Fp]] Fp'], Fq as [[q' [Eq Fq]] Fq']. cbn [snd] in Hd.
      destruct (Hd p' q' Fp Fq) as [h1 [c1 [k1 [A1 [A2 [A3 [A4 [A5 A6]]]]]]]]. destruct (IHl Fp' Fq') as [h2 [c2 [k2 [B1 [B2 [B3 [B4 [B5 B6]]]]]]]].
      exists (h1 + h2), (c1 + c2), (k1 + k2). cbn [csum2 same_dist] in *. rewrite Ep, Eq, A1, A2, A3, B1, B2, B3. cbn [bind]. split; auto. split; auto. split; auto. split; [lra|]. split; [lra|].
      rewrite <- B6. split.
      * intros K. split; [|lra]. intros p'' q'' E1 E2. replace p'' with p' by congruence. replace q'' with q' by congruence. apply A6. lra.
      * intros [K1 K2]. rewrite K2. rewrite (proj2 A6); [lra|]. now apply K1.
Qed.
