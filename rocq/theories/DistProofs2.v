(** CategoricalDist (order), Box pre-/postprocessing, affine transforms, SquashedNormalDist. *)
From Coq Require Import List ZArith Lia Bool Reals Lra.
From Verif Require Import PyCommon CommonProofs UtilsModel UtilsSpec UtilsProofs2 UtilsProofs3 WrappersModel WrappersProofs DistModel DistSpec DistProofs.
Import ListNotations.
Set Implicit Arguments.
Local Open Scope R_scope.

(** * Order *)
Lemma softmax_order : forall z a b, z <> [] -> (a < length z)%nat -> (b < length z)%nat -> (nth a (softmax z) 0 <= nth b (softmax z) 0 <-> nth a z 0 <= nth b z 0).
Proof.
  intros z a b Hz Ha Hb. rewrite !nth_softmax by auto. pose proof (sumexp_pos Hz) as S. assert (I : 0 < / sumexp z) by now apply Rinv_0_lt_compat. unfold Rdiv. split; intros L.
  - apply Rmult_le_reg_r in L; auto. destruct (Rle_or_lt (nth a z 0) (nth b z 0)) as [|C]; auto. apply exp_increasing in C. lra.
  - apply Rmult_le_compat_r; [lra|]. destruct L as [L|L]; [left; now apply exp_increasing|rewrite L; lra].
Qed.
Lemma softmax_maximal : forall z a, z <> [] -> (maximal_at (softmax z) a <-> maximal_at z a).
Proof.
  intros z a Hz. unfold maximal_at. rewrite softmax_length. split; intros [Ha M]; split; auto; intros j Hj; apply (@softmax_order z j a); auto.
Qed.
Lemma map_maximal : forall (f : R -> R) z a, (forall x y, f x <= f y <-> x <= y) -> (maximal_at (map f z) a <-> maximal_at z a).
Proof.
  intros f z a Hf. unfold maximal_at. rewrite map_length. split; intros [Ha M]; split; auto; intros j Hj; specialize (M j Hj); rewrite !(@nth_map0 f z _ 0) in * by auto; now apply Hf.
Qed.
Lemma div_order : forall tau x y, 0 < tau -> (x / tau <= y / tau <-> x <= y).
Proof.
  intros tau x y Ht. assert (0 < / tau) by now apply Rinv_0_lt_compat. unfold Rdiv. split; intros L; [now apply Rmult_le_reg_r in L|apply Rmult_le_compat_r; lra].
Qed.
Lemma mode_spec : forall n tau z, (1 <= n)%nat -> length z = n -> 0 < tau ->
  exists m, cat_mode n tau z = Ok m /\ length m = n /\ pos_distribution m /\ (forall a, maximal_at m a <-> maximal_at z a).
Proof.
  intros n tau z Hn Hz Ht. pose proof (nonempty Hn Hz) as NE. unfold cat_mode. rewrite (check_ok _ Hz). cbn [bind]. eexists. split; [reflexivity|].
  assert (NE2 : map (fun x => x / tau) (log_softmax z) <> []) by (destruct z; [congruence|discriminate]).
  split; [rewrite softmax_length, map_length, log_softmax_length; auto|]. split; [now apply softmax_dist|]. intros a. rewrite softmax_maximal by auto.
  rewrite map_maximal by (intros; now apply div_order). unfold log_softmax. apply map_maximal. intros; lra.
Qed.
Lemma sample_spec : forall n tau z us, (1 <= n)%nat -> length z = n -> length us = n -> 0 < tau ->
  exists m, cat_sample n tau z us = Ok m /\ length m = n /\ pos_distribution m /\ (forall a, maximal_at m a <-> maximal_at (zipw (fun u x => - ln (- ln u) + x) us z) a).
Proof.
  intros n tau z us Hn Hz Hu Ht. pose proof (nonempty Hn Hz) as NE. unfold cat_sample. rewrite (check_ok _ Hz). cbn [bind]. eexists. split; [reflexivity|].
  set (w := zipw Rplus (map gumbel us) (log_softmax z)). assert (L : length w = n) by (unfold w; rewrite zipw_length; rewrite map_length, ?log_softmax_length; lia).
  assert (NE2 : map (fun x => x / tau) w <> []) by (intros C; apply map_eq_nil in C; rewrite C in L; cbn in L; lia).
  split; [rewrite softmax_length, map_length; auto|]. split; [now apply softmax_dist|]. intros a. rewrite softmax_maximal by auto. rewrite map_maximal by (intros; now apply div_order).
  assert (W : w = map (fun x => x - ln (sumexp z)) (zipw (fun u x => - ln (- ln u) + x) us z)).
  { unfold w, log_softmax. generalize (ln (sumexp z)). intros c. clear -Hz Hu. assert (E : length us = length z) by lia. clear Hz Hu. revert z E. induction us as [|u us IH]; intros [|x z] E; cbn in E; try lia; auto.
    cbn [map zipw]. f_equal; [unfold gumbel; lra|]. apply IH. lia. }
  rewrite W. apply map_maximal. intros; lra.
Qed.
Lemma cat_roundtrip : forall n a gs, (a < n)%nat -> length gs = n -> (forall g, In g gs -> -50 < g < 50) -> cat_post n (one_hot n a) gs = Ok a.
Proof.
  intros n a gs Ha Hl Hg. unfold cat_post. rewrite one_hot_length, Nat.eqb_refl. destruct (@argmax_spec (one_hot n a) gs) as [i [E [Hi M]]]; auto.
  - intros C. apply (f_equal (@length R)) in C. rewrite one_hot_length in C. cbn in C. lia.
  - now rewrite one_hot_length.
  - rewrite one_hot_length in *. specialize (M a Ha). rewrite !nth_one_hot, Nat.eqb_refl in M by auto. destruct (Nat.eqb_spec i a); [congruence|lra].
Qed.
Lemma cat_rejects : forall n z x, (length z <> n -> cat_mean n z = Err EValue /\ (forall tau, cat_mode n tau z = Err EValue) /\ cat_entropy n z = Err EValue /\ (length x = n -> cat_log_proba n z x = Err EValue)) /\ (length x <> n -> cat_log_proba n z x = Err EValue).
Proof.
  intros n z x. split; intros E.
  - unfold cat_mean, cat_mode, cat_entropy, cat_log_proba. rewrite (check_bad _ E). repeat split; auto. intros Hx. rewrite (check_ok _ Hx). reflexivity.
  - unfold cat_log_proba. now rewrite (check_bad _ E).
Qed.

(** * NormalDist.affine_transform *)
Lemma clip_between : forall x lo hi, lo <= hi -> lo <= clip x lo hi <= hi.
Proof. intros x lo hi H. unfold clip, Rmin, Rmax. destruct (Rle_dec x lo); destruct (Rle_dec _ hi); lra. Qed.
Lemma clip_exp : forall x lo hi, clip (exp x) (exp lo) (exp hi) = exp (clip x lo hi).
Proof.
  assert (M : forall a b, Rmax (exp a) (exp b) = exp (Rmax a b)).
  { intros a b. unfold Rmax. destruct (Rle_dec a b) as [L|L], (Rle_dec (exp a) (exp b)) as [L'|L']; auto.
    - destruct L as [L|E]; [apply exp_increasing in L|rewrite E in L']; lra.
    - apply Rnot_le_lt, exp_increasing in L. lra. }
  assert (M2 : forall a b, Rmin (exp a) (exp b) = exp (Rmin a b)).
  { intros a b. unfold Rmin. destruct (Rle_dec a b) as [L|L], (Rle_dec (exp a) (exp b)) as [L'|L']; auto.
    - destruct L as [L|E]; [apply exp_increasing in L|rewrite E in L']; lra.
    - apply Rnot_le_lt, exp_increasing in L. lra. }
  intros. unfold clip. now rewrite M, M2.
Qed.
(** The mean and the (effective, i.e. clipped) variance of the transformed parameters, without value transform. *)
Lemma n_affine_spec : forall D scale shift mu lv, nd_clo D <= nd_chi D ->
  let v := exp (clip lv (nd_clo D) (nd_chi D)) in let r := n_affine D (fun x => x) (fun x => x) scale shift mu lv in
  fst r = mu + shift /\ exists lv', xclip (snd r) (nd_clo D) (nd_chi D) = Some lv' /\ exp lv' = clip (Rsqr scale * v) (exp (nd_clo D)) (exp (nd_chi D)).
Proof.
  intros D scale shift mu lv HD v r. split; [reflexivity|]. unfold r, n_affine. cbn [snd]. fold v. pose proof (exp_pos (clip lv (nd_clo D) (nd_chi D))) as P. fold v in P. unfold jlog.
  pose proof (Rle_0_sqr scale) as Q. destruct (Rlt_dec 0 (v * Rsqr scale)) as [L|L].
  - eexists. split; [reflexivity|]. rewrite <- clip_exp, exp_ln by auto. f_equal. lra.
  - assert (Z : v * Rsqr scale = 0) by nra. destruct (Req_EM_T (v * Rsqr scale) 0) as [_|C]; [|congruence]. eexists. split; [reflexivity|]. rewrite Rmin_left by auto.
    rewrite (Rmult_comm (Rsqr scale)), Z. pose proof (exp_pos (nd_clo D)). rewrite clip_low; auto; [|lra]. destruct HD as [HD|HD]; [left; now apply exp_increasing|rewrite HD; lra].
Qed.

(** * Box pre-/postprocessing *)
Lemma logit_sigmoid : forall x, ln (sigmoid x) - ln (1 - sigmoid x) = x.
Proof.
  intros x. pose proof (sigmoid_bounds x). rewrite <- ln_div by lra. rewrite <- (ln_exp x) at 3. f_equal. unfold sigmoid. pose proof (exp_pos (- x)). pose proof (exp_pos x).
  assert (E : exp x * exp (- x) = 1) by (rewrite <- exp_plus, Rplus_opp_r; apply exp_0). apply (Rmult_eq_reg_r (exp (- x))); [|lra]. rewrite E. field. split; lra.
Qed.
Lemma sigmoid_logit : forall s, 0 < s < 1 -> sigmoid (ln s - ln (1 - s)) = s.
Proof. intros s H. unfold sigmoid. rewrite <- ln_div by lra. rewrite exp_Ropp, exp_ln by (apply Rmult_lt_0_compat; [lra|apply Rinv_0_lt_compat; lra]). field. lra. Qed.
Lemma sigmoid_le : forall x y, x <= y -> sigmoid x <= sigmoid y.
Proof. intros x y [H|H]; [left; now apply sigmoid_incr|rewrite H; lra]. Qed.
Lemma sigmoid_opp : forall x, sigmoid (- x) = 1 - sigmoid x.
Proof.
  intros x. unfold sigmoid. rewrite Ropp_involutive. pose proof (exp_pos x). pose proof (exp_pos (- x)). assert (E : exp x * exp (- x) = 1) by (rewrite <- exp_plus, Rplus_opp_r; apply exp_0).
  apply (Rmult_eq_reg_r ((1 + exp x) * (1 + exp (- x)))); [|nra]. field_simplify; [|lra|lra]. nra.
Qed.
Lemma eps15_sigmoid : eps15 <= sigmoid (-30).
Proof.
  assert (E : exp 30 <= 3 ^ 30).
  { replace 30 with (INR 30) by (cbn [INR]; lra). assert (G : forall n, exp (INR n) <= 3 ^ n). { induction n as [|n IH]; [cbn; rewrite exp_0; lra|]. rewrite S_INR, exp_plus. pose proof exp_le_3. pose proof (exp_pos (INR n)). cbn [pow]. nra. }
    apply G. }
  unfold sigmoid, eps15. replace (- -30) with 30 by lra. pose proof (exp_pos 30). apply Rinv_le_contravar; [lra|]. lra.
Qed.
(** What the clipped logit does to a fraction. *)
Lemma post_logit : forall s, 0 <= s <= 1 -> sigmoid (clip (clipped_logit eps15 s) (-30) 30) = clip s (sigmoid (-30)) (sigmoid 30).
Proof.
  intros s Hs. pose proof eps15_sigmoid as E. assert (E0 : 0 < eps15) by (unfold eps15; apply Rinv_0_lt_compat; lra). assert (O : sigmoid (-30) = 1 - sigmoid 30) by (rewrite <- sigmoid_opp; f_equal; lra). pose proof (sigmoid_bounds 30) as B.
  pose proof (sigmoid_bounds (-30)) as B'. assert (SL : sigmoid (-30) <= sigmoid 30) by (apply sigmoid_le; lra). unfold clipped_logit.
  assert (LN : forall a b, 0 < a -> a <= b -> ln a <= ln b) by (intros a b H1 [H2|<-]; [left; now apply ln_increasing|lra]).
  assert (L30 : ln (sigmoid 30) - ln (1 - sigmoid 30) = 30) by apply logit_sigmoid. assert (Lm : ln (sigmoid (-30)) - ln (1 - sigmoid (-30)) = -30) by apply logit_sigmoid.
  destruct (Rle_or_lt s (sigmoid (-30))) as [L|L]; [|destruct (Rle_or_lt (sigmoid 30) s) as [L2|L2]].
  - rewrite (@clip_low s (sigmoid (-30)) (sigmoid 30)) by lra. rewrite (@clip_in (1 - s) eps15 1) by lra. rewrite clip_low; [reflexivity|lra|]. pose proof (@clip_between s eps15 1 ltac:(lra)) as CB.
    assert (clip s eps15 1 <= sigmoid (-30)) by (unfold clip, Rmax, Rmin; destruct (Rle_dec s eps15), (Rle_dec _ 1); lra).
    assert (ln (clip s eps15 1) <= ln (sigmoid (-30))) by (apply LN; lra). assert (ln (1 - sigmoid (-30)) <= ln (1 - s)) by (apply LN; lra). lra.
  - rewrite (@clip_high s (sigmoid (-30)) (sigmoid 30)) by lra. rewrite (@clip_in s eps15 1) by lra. rewrite clip_high; [reflexivity|lra|]. pose proof (@clip_between (1 - s) eps15 1 ltac:(lra)) as CB.
    assert (clip (1 - s) eps15 1 <= sigmoid (-30)) by (unfold clip, Rmax, Rmin; destruct (Rle_dec (1 - s) eps15), (Rle_dec _ 1); lra).
    assert (ln (clip (1 - s) eps15 1) <= ln (1 - sigmoid 30)) by (apply LN; lra). assert (ln (sigmoid 30) <= ln s) by (apply LN; lra). lra.
  - rewrite (@clip_in s eps15 1), (@clip_in (1 - s) eps15 1), (@clip_in s (sigmoid (-30)) (sigmoid 30)) by lra. rewrite clip_in; [apply sigmoid_logit; lra|].
    assert (ln (sigmoid (-30)) <= ln s) by (apply LN; lra). assert (ln s <= ln (sigmoid 30)) by (apply LN; lra). assert (ln (1 - s) <= ln (1 - sigmoid (-30))) by (apply LN; lra). assert (ln (1 - sigmoid 30) <= ln (1 - s)) by (apply LN; lra). lra.
Qed.
Lemma n_post_pre : forall l h x, l < h -> n_post l h (-30) 30 (n_pre l h x) = l + (h - l) * clip ((clip x l h - l) / (h - l)) (sigmoid (-30)) (sigmoid 30).
Proof.
  intros l h x H. unfold n_post, n_pre. do 2 f_equal. apply post_logit. pose proof (@clip_between x l h ltac:(lra)). assert (0 < / (h - l)) by (apply Rinv_0_lt_compat; lra). unfold Rdiv. split; [apply Rmult_le_pos; lra|].
  apply (Rmult_le_reg_r (h - l)); [lra|]. rewrite Rmult_assoc, Rinv_l by lra. lra.
Qed.
Lemma n_pre_post : forall l h x, l < h -> n_pre l h (n_post l h (-30) 30 x) = clip x (-30) 30.
Proof.
  intros l h x H. unfold n_pre, n_post. set (c := clip x (-30) 30). assert (C : -30 <= c <= 30) by (apply clip_between; lra). pose proof (sigmoid_bounds c) as B.
  rewrite (@clip_in (l + _) l h) by (split; nra). replace ((l + (h - l) * sigmoid c - l) / (h - l)) with (sigmoid c) by (field; lra). unfold clipped_logit.
  pose proof eps15_sigmoid as E. assert (O : sigmoid (-30) = 1 - sigmoid 30) by (rewrite <- sigmoid_opp; f_equal; lra). assert (sigmoid (-30) <= sigmoid c) by (apply sigmoid_le; lra). assert (sigmoid c <= sigmoid 30) by (apply sigmoid_le; lra).
  rewrite !clip_in by lra. apply logit_sigmoid.
Qed.

(** * SquashedNormalDist *)
Lemma tanh_arctanh : forall y, -1 < y < 1 -> tanh (arctanh y) = y.
Proof.
  intros y Hy. unfold tanh, sinh, cosh, arctanh. set (r := (1 + y) / (1 - y)). assert (R0 : 0 < r) by (apply Rmult_lt_0_compat; [lra|apply Rinv_0_lt_compat; lra]).
  set (e := exp (1 / 2 * ln r)). assert (EE : e * e = r). { unfold e. rewrite <- exp_plus. replace (1 / 2 * ln r + 1 / 2 * ln r) with (ln r) by lra. now apply exp_ln. }
  assert (P : 0 < e) by apply exp_pos. rewrite exp_Ropp. fold e. replace ((e - / e) / 2 / ((e + / e) / 2)) with ((e * e - 1) / (e * e + 1)) by (field; nra). rewrite EE. unfold r. field. split; [lra|]. lra.
Qed.
Lemma arctanh_tanh : forall x, arctanh (tanh x) = x.
Proof.
  intros x. unfold arctanh, tanh, sinh, cosh. pose proof (exp_pos x). pose proof (exp_pos (- x)). assert (E : exp x * exp (- x) = 1) by (rewrite <- exp_plus, Rplus_opp_r; apply exp_0).
  replace ((1 + (exp x - exp (- x)) / 2 / ((exp x + exp (- x)) / 2)) / (1 - (exp x - exp (- x)) / 2 / ((exp x + exp (- x)) / 2))) with (exp x * / exp (- x)) by (field; repeat split; lra).
  rewrite <- exp_Ropp, <- exp_plus, ln_exp. lra.
Qed.
Lemma tanh_bounds : forall x, -1 < tanh x < 1.
Proof.
  intros x. unfold tanh, sinh, cosh. pose proof (exp_pos x). pose proof (exp_pos (- x)). replace ((exp x - exp (- x)) / 2 / ((exp x + exp (- x)) / 2)) with ((exp x - exp (- x)) / (exp x + exp (- x))) by (field; lra).
  assert (I : 0 < / (exp x + exp (- x))) by (apply Rinv_0_lt_compat; lra). assert (J : (exp x + exp (- x)) * / (exp x + exp (- x)) = 1) by (apply Rinv_r; lra). unfold Rdiv. split; nra.
Qed.
Lemma correction : forall x, 2 * (ln 2 - x - ln (1 + exp (-2 * x))) = ln (1 - tanh x * tanh x).
Proof.
  intros x. set (e := exp (- x)). assert (P : 0 < e) by apply exp_pos. assert (E2 : exp (-2 * x) = e * e) by (unfold e; rewrite <- exp_plus; f_equal; lra).
  assert (T : 1 - tanh x * tanh x = (2 * e / (1 + e * e)) * (2 * e / (1 + e * e))).
  { unfold tanh, sinh, cosh. fold e. assert (X : exp x = / e) by (unfold e; rewrite exp_Ropp, Rinv_inv; auto). rewrite X. field. split; nra. }
  rewrite T, E2. assert (D : 0 < 2 * e / (1 + e * e)) by (apply Rmult_lt_0_compat; [lra|apply Rinv_0_lt_compat; nra]). rewrite ln_mult by auto. rewrite ln_div by nra. rewrite ln_mult by lra. assert (LE : ln e = - x) by (unfold e; apply ln_exp). rewrite LE. lra.
Qed.
(** The derivative of the inverse of tanh. *)
Lemma arctanh_deriv : forall y, -1 < y < 1 -> derivable_pt_lim arctanh y (/ (1 - y * y)).
Proof.
  intros y Hy. assert (N : 0 < 1 - y) by lra. assert (Q : 0 < (1 + y) / (1 - y)) by (apply Rmult_lt_0_compat; [lra|apply Rinv_0_lt_compat; lra]).
  assert (D1 : derivable_pt_lim (fun x => (1 + x) / (1 - x)) y (((0 + 1) * (1 - y) - (0 - 1) * (1 + y)) / Rsqr (1 - y))).
  { apply (derivable_pt_lim_div (fun x => 1 + x) (fun x => 1 - x)); [apply (derivable_pt_lim_plus (fct_cte 1) id); [apply derivable_pt_lim_const|apply derivable_pt_lim_id]| |lra].
    apply (derivable_pt_lim_minus (fct_cte 1) id); [apply derivable_pt_lim_const|apply derivable_pt_lim_id]. }
  pose proof (derivable_pt_lim_comp (fun x => (1 + x) / (1 - x)) ln y _ _ D1 (derivable_pt_lim_ln _ Q)) as D2.
  pose proof (derivable_pt_lim_scal (comp ln (fun x => (1 + x) / (1 - x))) (1/2) y _ D2) as D3.
  replace (/ (1 - y * y)) with (1 / 2 * (/ ((1 + y) / (1 - y)) * (((0 + 1) * (1 - y) - (0 - 1) * (1 + y)) / Rsqr (1 - y)))) by (unfold Rsqr; field; repeat split; nra).
  exact D3.
Qed.
Lemma unsquash_in : forall y, -1 + arctanh_eps <= y <= 1 - arctanh_eps -> s_unsquash y = arctanh y.
Proof. intros y Hy. unfold s_unsquash. now rewrite clip_in. Qed.
Lemma arctanh_eps_pos : 0 < arctanh_eps < 1. Proof. unfold arctanh_eps. lra. Qed.
Fixpoint squashed_joint (mu lv x : list R) : list R :=
  match mu, lv, x with m :: mu', v :: lv', y :: x' => gauss m (exp v) (arctanh y) / (1 - y * y) :: squashed_joint mu' lv' x' | _, _, _ => [] end.
Lemma squashed_pos : forall mu lv x, (forall y, In y x -> -1 < y < 1) -> 0 < product (squashed_joint mu lv x).
Proof.
  induction mu as [|m mu IH]; intros [|v lv] [|y x] Hx; cbn; try lra. pose proof (Hx y (or_introl eq_refl)). apply Rmult_lt_0_compat; [|apply IH; intros; apply Hx; now right].
  apply Rmult_lt_0_compat; [apply gauss_pos, exp_pos|apply Rinv_0_lt_compat; nra].
Qed.
Lemma s_log_proba_formula : forall S a b p x, sd_clip S = Some (a, b) -> length (sd_lo S) = length x -> length (n_mu p) = length x -> length (n_logvar p) = length x ->
  (forall y, In y x -> -1 + arctanh_eps <= y <= 1 - arctanh_eps) ->
  s_log_proba S p x = Ok (ln (product (squashed_joint (n_mu p) (map (fun v => clip v a b) (n_logvar p)) x))).
Proof.
  intros S a b p x HS Hlo Hm Hl Hx. unfold s_log_proba, sd_normal. rewrite HS. cbn [bind]. rewrite n_log_proba_spec; [|split; cbn; lia|rewrite map_length; cbn; lia]. cbn [bind]. unfold clipped. cbn [nd_clo nd_chi]. f_equal.
  assert (L2 : length (map (fun v => clip v a b) (n_logvar p)) = length x) by (rewrite map_length; auto). generalize dependent (map (fun v => clip v a b) (n_logvar p)). generalize dependent (n_mu p).
  clear Hl Hlo HS S p. intros mu Hm lv Hl. revert mu lv Hm Hl Hx. pose proof arctanh_eps_pos as AE. induction x as [|y x IH]; intros [|m mu] [|v lv] Hm Hl Hx; cbn in Hm, Hl; try lia.
  - cbn. rewrite ln_1. lra.
  - pose proof (Hx y (or_introl eq_refl)) as Hy. cbn [squashed_joint joint map rsum product fold_right]. fold (product (squashed_joint mu lv x)). fold (product (joint mu lv (map s_unsquash x))).
    assert (HX : forall y, In y x -> -1 < y < 1) by (intros y' H'; pose proof (Hx y' (or_intror H')); lra).
    assert (G0 : 0 < gauss m (exp v) (arctanh y)) by (apply gauss_pos, exp_pos). assert (Q0 : 0 < 1 - y * y) by nra.
    rewrite (ln_mult (gauss m (exp v) (arctanh y) / (1 - y * y))) by (try (apply squashed_pos; auto); apply Rmult_lt_0_compat; auto; now apply Rinv_0_lt_compat).
    rewrite ln_mult by (auto using joint_pos, gauss_pos, exp_pos). rewrite ln_div by auto. rewrite unsquash_in by auto. rewrite correction, tanh_arctanh by lra. rewrite <- IH by (auto; try lia; intros; apply Hx; now right). lra.
Qed.
(** Push-forward of a density along tanh. *)
Lemma pushforward : forall F f y, (forall u, derivable_pt_lim F u (f u)) -> -1 < y < 1 -> derivable_pt_lim (fun y => F (arctanh y)) y (f (arctanh y) / (1 - y * y)).
Proof. intros F f y HF Hy. exact (derivable_pt_lim_comp arctanh F y _ _ (arctanh_deriv Hy) (HF (arctanh y))). Qed.
Lemma squash_in_box : forall S x k, length (sd_lo S) = length x -> length (sd_hi S) = length x -> (k < length x)%nat -> nth k (sd_lo S) 0 < nth k (sd_hi S) 0 ->
  nth k (sd_lo S) 0 < nth k (squash S x) 0 < nth k (sd_hi S) 0 /\ length (squash S x) = length x.
Proof.
  intros S x k Hl Hh Hk HB. unfold squash, sd_scale, sd_offset. set (sc := zipw (fun h l => (h - l) / 2) (sd_hi S) (sd_lo S)). set (of := zipw (fun h l => (h + l) / 2) (sd_hi S) (sd_lo S)).
  assert (L1 : length sc = length x) by (unfold sc; rewrite zipw_length; lia). assert (L2 : length of = length x) by (unfold of; rewrite zipw_length; lia).
  assert (L3 : length (zipw Rmult (map tanh x) sc) = length x) by (rewrite zipw_length; rewrite map_length; lia). split; [|rewrite zipw_length; lia].
  rewrite (@nth_zipw Rplus _ _ k 0 0 0) by lia. rewrite (@nth_zipw Rmult _ _ k 0 0 0) by (rewrite ?map_length; lia). rewrite (@nth_map0 tanh x k 0) by lia.
  unfold sc, of. rewrite !(@nth_zipw _ (sd_hi S) (sd_lo S) k 0 0 0) by lia. pose proof (tanh_bounds (nth k x 0)). split; nra.
Qed.
