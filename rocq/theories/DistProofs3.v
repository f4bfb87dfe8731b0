(** DiscretizedIntervalDist and EmpiricalQuantileDist. *)
From Coq Require Import List ZArith Lia Bool Reals Lra.
From Verif Require Import PyCommon CommonProofs UtilsModel UtilsSpec UtilsProofs2 UtilsProofs3 WrappersModel WrappersProofs DistModel DistSpec DistProofs DistProofs2.
Import ListNotations.
Set Implicit Arguments.
Local Open Scope R_scope.

(** * Floor and ceil *)
Lemma floor_spec : forall b, IZR (floor b) <= b < IZR (floor b) + 1.
Proof. intros b. unfold floor. pose proof (base_Int_part b). lra. Qed.
Lemma ceil_spec : forall b, IZR (ceil b) - 1 < b <= IZR (ceil b).
Proof. intros b. unfold ceil. rewrite opp_IZR. pose proof (base_Int_part (- b)). lra. Qed.
Lemma floor_ceil : forall b, (ceil b = floor b /\ b = IZR (floor b)) \/ (ceil b = floor b + 1)%Z.
Proof.
  intros b. pose proof (floor_spec b) as F. pose proof (ceil_spec b) as C. assert (A : IZR (floor b) <= IZR (ceil b)) by lra. apply le_IZR in A.
  assert (B : IZR (ceil b) < IZR (floor b + 2)) by (rewrite plus_IZR; lra). apply lt_IZR in B. destruct (Z.eq_dec (ceil b) (floor b)) as [E|E]; [left|right; lia]. split; auto. rewrite E in C. lra.
Qed.
Lemma floor_range : forall b n, 0 <= b <= INR n -> (0 <= floor b <= Z.of_nat n)%Z /\ (0 <= ceil b <= Z.of_nat n)%Z.
Proof.
  intros b n Hb. pose proof (floor_spec b) as F. pose proof (ceil_spec b) as C. rewrite INR_IZR_INZ in Hb.
  assert (IZR (-1) < IZR (floor b)) by lra. assert (IZR (floor b) < IZR (Z.of_nat n + 1)) by (rewrite plus_IZR; lra).
  assert (IZR (-1) < IZR (ceil b)) by lra. assert (IZR (ceil b) < IZR (Z.of_nat n + 1)) by (rewrite plus_IZR; lra). repeat match goal with X : IZR _ < IZR _ |- _ => apply lt_IZR in X end. lia.
Qed.
Lemma floor_eq : forall b k, IZR k <= b < IZR k + 1 -> floor b = k.
Proof.
  intros b k Hk. pose proof (floor_spec b). assert (A : IZR (floor b) < IZR (k + 1)) by (rewrite plus_IZR; lra). assert (B : IZR k < IZR (floor b + 1)) by (rewrite plus_IZR; lra). apply lt_IZR in A, B. lia.
Qed.

(** * Weighted sums over the bins *)
Lemma expect_cons : forall x m w, expect (x :: m) w = x * w 0%nat + expect m (fun k => w (S k)).
Proof. intros. unfold expect. cbn [length seq map]. rewrite total_cons, <- seq_shift, map_map. reflexivity. Qed.
Lemma expect_upd : forall m i v w, (i < length m)%nat -> expect (upd m i (nth i m 0 + v)) w = expect m w + v * w i.
Proof.
  induction m as [|x m IH]; intros i v w Hi; cbn [length] in Hi; [lia|]. destruct i as [|i]; cbn [upd nth]; rewrite !expect_cons; [lra|]. rewrite IH by lia. lra.
Qed.
Lemma at_add_length : forall m i v, length (at_add m i v) = length m.
Proof. intros. unfold at_add. destruct (i <? 0)%Z; auto. apply upd_length. Qed.
Lemma expect_at_add : forall m i v w, (0 <= i < Z.of_nat (length m))%Z -> expect (at_add m i v) w = expect m w + v * w (Z.to_nat i).
Proof. intros m i v w Hi. unfold at_add. destruct (Z.ltb_spec i 0); [lia|]. apply expect_upd. lia. Qed.
Lemma fold_at_add : forall A (I : A -> Z) (V : A -> R) l m w, (forall x, In x l -> (0 <= I x < Z.of_nat (length m))%Z) ->
  length (fold_left (fun m x => at_add m (I x) (V x)) l m) = length m /\
  expect (fold_left (fun m x => at_add m (I x) (V x)) l m) w = expect m w + total (map (fun x => V x * w (Z.to_nat (I x))) l).
Proof.
  intros A I V. induction l as [|x l IH]; intros m w Hl; cbn [fold_left map]; [split; auto; cbn; lra|]. rewrite total_cons.
  destruct (IH (at_add m (I x) (V x)) w) as [L E]; [intros y Hy; rewrite at_add_length; apply Hl; now right|]. rewrite at_add_length in L. split; auto. rewrite E.
  rewrite expect_at_add by (apply Hl; now left). lra.
Qed.
(** Linear interpolation of w at b. *)
Definition interp (w : nat -> R) (b : R) : R :=
  (IZR (ceil b) - b) * w (Z.to_nat (floor b)) + (b - IZR (floor b)) * w (Z.to_nat (ceil b)) + (if (floor b =? ceil b)%Z then 1 else 0) * w (Z.to_nat (floor b)).
Lemma project_expect : forall n p bs w, (forall b, In b bs -> 0 <= b <= INR n) ->
  length (di_project (S n) p bs) = S n /\ expect (di_project (S n) p bs) w = total (map (fun x => fst x * interp w (snd x)) (combine p bs)).
Proof.
  intros n p bs w Hb. unfold di_project. set (pb := combine p bs). assert (HB : forall x, In x pb -> 0 <= snd x <= INR n) by (intros [a b] Hx; apply in_combine_r in Hx; now apply Hb).
  assert (HF : forall N, N = S n -> forall x, In x pb -> (0 <= floor (snd x) < Z.of_nat N)%Z) by (intros N -> x Hx; destruct (floor_range _ (HB x Hx)); lia).
  assert (HC : forall N, N = S n -> forall x, In x pb -> (0 <= ceil (snd x) < Z.of_nat N)%Z) by (intros N -> x Hx; destruct (floor_range _ (HB x Hx)); lia).
  set (m0 := repeat 0 (S n)). assert (L0 : length m0 = S n) by apply repeat_length.
  destruct (fold_at_add (fun x => floor (snd x)) (fun x => fst x * (IZR (ceil (snd x)) - snd x)) pb m0 w (HF _ L0)) as [L1 E1].
  set (m1 := fold_left (fun m x => at_add m (floor (snd x)) (fst x * (IZR (ceil (snd x)) - snd x))) pb m0) in *. rewrite L0 in L1.
  destruct (fold_at_add (fun x => ceil (snd x)) (fun x => fst x * (snd x - IZR (floor (snd x)))) pb m1 w (HC _ L1)) as [L2 E2].
  set (m2 := fold_left (fun m x => at_add m (ceil (snd x)) (fst x * (snd x - IZR (floor (snd x))))) pb m1) in *. rewrite L1 in L2.
  destruct (fold_at_add (fun x => floor (snd x)) (fun x => fst x * (if (floor (snd x) =? ceil (snd x))%Z then 1 else 0)) pb m2 w (HF _ L2)) as [L3 E3]. rewrite L2 in L3. split; auto.
  rewrite E3, E2, E1. assert (Z : forall n w, expect (repeat 0 n) w = 0) by (clear; induction n as [|n IH]; intros w; [reflexivity|]; cbn [repeat]; rewrite expect_cons, IH; lra).
  unfold m0. rewrite Z, Rplus_0_l. rewrite <- !total_plus. apply total_ext. intros x _. unfold interp. lra.
Qed.
Lemma interp_ext : forall w1 w2 n b, 0 <= b <= INR n -> (forall k, (k <= n)%nat -> w1 k = w2 k) -> interp w1 b = interp w2 b.
Proof. intros w1 w2 n b Hb E. destruct (floor_range _ Hb) as [F C]. unfold interp. rewrite !E by lia. auto. Qed.
Lemma interp_const : forall c b, interp (fun _ => c) b = c.
Proof.
  intros c b. unfold interp. destruct (floor_ceil b) as [[E1 E2]|E].
  - rewrite E1, Z.eqb_refl. lra.
  - rewrite E. destruct (Z.eqb_spec (floor b) (floor b + 1)); [lia|]. rewrite plus_IZR. lra.
Qed.
Lemma interp_affine : forall a c b n, 0 <= b <= INR n -> interp (fun k => a + c * INR k) b = a + c * b.
Proof.
  intros a c b n Hb. unfold interp. destruct (floor_range _ Hb) as [F C]. rewrite !INR_IZR_INZ, !Z2Nat.id by lia. destruct (floor_ceil b) as [[E1 E2]|E].
  - rewrite E1, Z.eqb_refl, <- E2. lra.
  - rewrite E. destruct (Z.eqb_spec (floor b) (floor b + 1)); [lia|]. rewrite plus_IZR. lra.
Qed.
Lemma hat_out : forall t, 1 <= Rabs t -> hat t = 0.
Proof. intros t H. unfold hat. apply Rmax_left. lra. Qed.
Lemma hat_in : forall t, Rabs t <= 1 -> hat t = 1 - Rabs t.
Proof. intros t H. unfold hat. apply Rmax_right. lra. Qed.
Lemma interp_hat : forall b n k, 0 <= b <= INR n -> (k <= n)%nat -> interp (fun j => if Nat.eqb j k then 1 else 0) b = hat (b - INR k).
Proof.
  intros b n k Hb Hk. unfold interp. destruct (floor_range _ Hb) as [F C]. pose proof (floor_spec b) as FS. pose proof (ceil_spec b) as CS.
  assert (Hi : forall i, (0 <= i)%Z -> Nat.eqb (Z.to_nat i) k = Z.eqb i (Z.of_nat k)). { intros i Hi. destruct (Nat.eqb_spec (Z.to_nat i) k), (Z.eqb_spec i (Z.of_nat k)); auto; lia. }
  rewrite !Hi by lia. rewrite INR_IZR_INZ. set (K := Z.of_nat k) in *.
  destruct (floor_ceil b) as [[E1 E2]|E].
  - rewrite E1, Z.eqb_refl, <- E2. destruct (Z.eqb_spec (floor b) K) as [EK|NK].
    + rewrite E2, EK. rewrite hat_in; rewrite Rminus_diag_eq, Rabs_R0 by auto; lra.
    + rewrite hat_out; [lra|]. rewrite E2, <- minus_IZR, <- abs_IZR. apply IZR_le. lia.
  - rewrite E in *. destruct (Z.eqb_spec (floor b) (floor b + 1)); [lia|]. rewrite plus_IZR in *. destruct (Z.eqb_spec (floor b) K) as [EK|NK].
    + rewrite <- EK. destruct (Z.eqb_spec (floor b + 1) (floor b)); [lia|]. rewrite hat_in; rewrite Rabs_right by lra; lra.
    + destruct (Z.eqb_spec (floor b + 1) K) as [EK|NK2].
      * rewrite <- EK, plus_IZR. rewrite hat_in; rewrite Rabs_left1 by lra; lra.
      * rewrite hat_out; [lra|]. destruct (Z_lt_le_dec K (floor b)) as [L|L].
        -- assert (A : IZR (K + 1) <= IZR (floor b)) by (apply IZR_le; lia). rewrite plus_IZR in A. rewrite Rabs_right by lra. lra.
        -- assert (A : IZR (floor b + 2) <= IZR K) by (apply IZR_le; lia). rewrite plus_IZR in A. rewrite Rabs_left1 by lra. lra.
Qed.
Lemma expect_pick : forall m k, (k < length m)%nat -> expect m (fun j => if Nat.eqb j k then 1 else 0) = nth k m 0.
Proof.
  intros m k Hk. unfold expect. rewrite (@total_pick (fun j => nth j m 0 * (if Nat.eqb j k then 1 else 0)) (length m) k Hk); [rewrite Nat.eqb_refl; lra|].
  intros j Hj. destruct (Nat.eqb_spec j k); [congruence|lra].
Qed.
Lemma expect_one : forall m, expect m (fun _ => 1) = total m.
Proof. intros m. unfold expect. rewrite (@total_ext _ _ (fun k => nth k m 0)) by (intros; lra). now rewrite map_nth_seq. Qed.

(** * The projection *)
Section Proj.
Variables (n : nat) (lo hi : R) (f finv : R -> R) (scale shift : R) (p : list R).
Hypotheses (Hn : (2 <= n)%nat) (Hlh : lo < hi) (Hp : length p = n).
Let dz : R := (hi - lo) / INR n.
Let T (j : nat) : R := clip (f (scale * finv (atom n lo hi j) + shift)) (atom n lo hi 0) (atom n lo hi (n - 1)).

Lemma n_pos : 0 < INR n. Proof. apply lt_0_INR. lia. Qed.
Lemma dz_pos : 0 < dz. Proof. pose proof n_pos. apply Rmult_lt_0_compat; [lra|now apply Rinv_0_lt_compat]. Qed.
Lemma atom_dz : forall k, atom n lo hi k = atom n lo hi 0 + dz * INR k.
Proof. intros k. pose proof n_pos. unfold atom, dz. change (INR 0) with 0. field. lra. Qed.
Lemma b_spec : forall t, di_b n lo hi t = (t - atom n lo hi 0) / dz.
Proof. intros t. unfold di_b. rewrite (atom_dz 1). change (INR 1) with 1. do 2 f_equal. lra. Qed.
Lemma b_range : forall j, 0 <= di_b n lo hi (T j) <= INR (n - 1).
Proof.
  intros j. rewrite b_spec. pose proof dz_pos as D. assert (A : atom n lo hi 0 <= atom n lo hi (n - 1)) by (rewrite (atom_dz (n - 1)); pose proof (pos_INR (n - 1)); nra).
  pose proof (@clip_between (f (scale * finv (atom n lo hi j) + shift)) _ _ A) as B. fold (T j) in B. rewrite (atom_dz (n - 1)) in B. assert (I : 0 < / dz) by now apply Rinv_0_lt_compat. unfold Rdiv. split.
  - apply Rmult_le_pos; lra.
  - apply (Rmult_le_reg_r dz); auto. rewrite Rmult_assoc, Rinv_l by lra. lra.
Qed.
Lemma masses_expect : forall w, length (di_masses n lo hi f finv scale shift p) = n /\
  expect (di_masses n lo hi f finv scale shift p) w = total (map (fun j => nth j p 0 * interp w (di_b n lo hi (T j))) (seq 0 n)).
Proof.
  intros w. unfold di_masses. assert (N : n = S (n - 1)) by lia. set (bs := map (fun j => di_b n lo hi (di_Tz n lo hi f finv scale shift j)) (seq 0 n)).
  destruct (@project_expect (n - 1) p bs w) as [L E].
  - intros b Hb. apply in_map_iff in Hb. destruct Hb as [j [<- _]]. apply b_range.
  - rewrite <- N in L, E. split; auto. rewrite E. clear E L. unfold bs. rewrite <- (map_nth_seq p 0) at 1. rewrite Hp. generalize (seq 0 n). intros l. induction l as [|j l IH]; auto.
    cbn [map combine]. rewrite !total_cons, IH. reflexivity.
Qed.
Lemma masses_hat : forall k, (k < n)%nat -> nth k (di_masses n lo hi f finv scale shift p) 0 = total (map (fun j => nth j p 0 * hat ((T j - atom n lo hi k) / dz)) (seq 0 n)).
Proof.
  intros k Hk. destruct (masses_expect (fun j => if Nat.eqb j k then 1 else 0)) as [L E]. rewrite expect_pick in E by lia. rewrite E. apply total_ext. intros j _. f_equal.
  rewrite (@interp_hat _ (n - 1) k) by (try lia; apply b_range). f_equal. rewrite b_spec, (atom_dz k). pose proof dz_pos. field. lra.
Qed.
Lemma masses_total : total (di_masses n lo hi f finv scale shift p) = total p.
Proof.
  destruct (masses_expect (fun _ => 1)) as [L E]. rewrite expect_one in E. rewrite E. rewrite (@total_ext _ _ (fun j => nth j p 0)) by (intros; rewrite interp_const; lra). rewrite <- Hp at 1. now rewrite map_nth_seq.
Qed.
Lemma masses_mean : expect (di_masses n lo hi f finv scale shift p) (atom n lo hi) = expect p T.
Proof.
  destruct (masses_expect (atom n lo hi)) as [L E]. rewrite E. unfold expect. rewrite Hp. apply total_ext. intros j _. f_equal.
  rewrite (@interp_ext _ (fun k => atom n lo hi 0 + dz * INR k) (n - 1)) by (try apply b_range; intros; apply atom_dz). rewrite (@interp_affine _ _ _ (n - 1)) by apply b_range. rewrite b_spec. pose proof dz_pos. field. lra.
Qed.
Lemma masses_nonneg : (forall x, In x p -> 0 <= x) -> forall x, In x (di_masses n lo hi f finv scale shift p) -> 0 <= x.
Proof.
  intros P x Hx. destruct (masses_expect (fun _ => 0)) as [L _]. apply (In_nth _ _ 0) in Hx. destruct Hx as [k [Hk <-]]. rewrite L in Hk. rewrite masses_hat by auto. rewrite <- rsum_total. apply rsum_nonneg.
  intros y Hy. apply in_map_iff in Hy. destruct Hy as [j [<- Hj]]. apply in_seq in Hj. apply Rmult_le_pos; [apply P; apply nth_In; lia|apply Rmax_l].
Qed.
End Proj.

(** Normalising max(m, eps). *)
Lemma softmax_log_max : forall m, m <> [] -> distribution m -> forall k, (k < length m)%nat ->
  let q := nth k (softmax (map (fun x => ln (Rmax x eps16)) m)) 0 in nth k m 0 / (1 + INR (length m) * eps16) <= q <= nth k m 0 + eps16.
Proof.
  intros m Hm [Pm Tm] k Hk q. assert (E0 : 0 < eps16) by (unfold eps16; apply Rinv_0_lt_compat; lra). unfold q. rewrite nth_softmax by (now rewrite map_length). rewrite (@nth_map0 (fun x => ln (Rmax x eps16)) m k 0) by auto.
  assert (MX : forall x, eps16 <= Rmax x eps16) by (intros; apply Rmax_r). assert (MP : forall x, 0 < Rmax x eps16) by (intros x; specialize (MX x); lra). rewrite exp_ln by auto.
  assert (S : sumexp (map (fun x => ln (Rmax x eps16)) m) = total (map (fun x => Rmax x eps16) m)).
  { unfold sumexp. rewrite map_map, rsum_total. apply total_ext. intros. now rewrite exp_ln. }
  rewrite S. assert (S1 : 1 <= total (map (fun x => Rmax x eps16) m)). { rewrite <- Tm. rewrite <- (map_id m) at 1. apply total_le. intros. apply Rmax_l. }
  assert (S2 : total (map (fun x => Rmax x eps16) m) <= 1 + INR (length m) * eps16).
  { replace (1 + INR (length m) * eps16) with (total (map (fun x => x + eps16) m)) by (rewrite (total_plus (fun x => x) (fun _ => eps16)), map_id, Tm, total_const; auto). apply total_le. intros x Hx. specialize (Pm x Hx). unfold Rmax. destruct (Rle_dec x eps16); lra. }
  set (s := total (map (fun x => Rmax x eps16) m)) in *. set (x := nth k m 0). assert (X0 : 0 <= x) by (apply Pm; now apply nth_In).
  assert (XM : x <= Rmax x eps16 <= x + eps16) by (split; [apply Rmax_l|unfold Rmax; destruct (Rle_dec x eps16); lra]). assert (I : 0 < / s <= 1) by (split; [apply Rinv_0_lt_compat; lra|rewrite <- Rinv_1; apply Rinv_le_contravar; lra]).
  unfold Rdiv. split.
  - apply Rmult_le_compat; try lra; [left; apply Rinv_0_lt_compat; lra|apply Rinv_le_contravar; lra].
  - nra.
Qed.

(** * Pre- and postprocessing *)
Lemma di_pre_in : forall n lo hi x, (1 <= n)%nat -> lo <= IZR x < hi ->
  exists k, (k < n)%nat /\ di_pre n lo hi (VInt x) = Ok (one_hot n k) /\ di_post n lo hi (one_hot n k) = Ok (atom n lo hi k) /\ Rabs (atom n lo hi k - IZR x) <= (hi - lo) / (2 * INR n).
Proof.
  intros n lo hi x Hn Hx. assert (N : 0 < INR n) by (apply lt_0_INR; lia). set (b := (IZR x - lo) * INR n / (hi - lo)).
  assert (I : 0 < / (hi - lo)) by (apply Rinv_0_lt_compat; lra). assert (B : 0 <= b < INR n).
  { unfold b, Rdiv. split; [repeat apply Rmult_le_pos; lra|]. apply (Rmult_lt_reg_r (hi - lo)); [lra|]. rewrite Rmult_assoc, Rinv_l by lra. nra. }
  pose proof (floor_spec b) as F. assert (F0 : (0 <= floor b < Z.of_nat n)%Z).
  { rewrite INR_IZR_INZ in B. assert (A : IZR (-1) < IZR (floor b)) by lra. assert (A2 : IZR (floor b) < IZR (Z.of_nat n)) by lra. apply lt_IZR in A, A2. lia. }
  exists (Z.to_nat (floor b)). split; [lia|]. split; [|split].
  - unfold di_pre. fold b. f_equal. unfold one_hot. apply map_ext_in. intros j _. destruct (Z.eqb_spec (Z.of_nat j) (floor b)), (Nat.eqb_spec j (Z.to_nat (floor b))); auto; lia.
  - unfold di_post. rewrite one_hot_length, Nat.eqb_refl. f_equal. rewrite dot_one_hot by (try lia; unfold atoms; now rewrite map_length, seq_length). unfold atoms. rewrite nth_map_seq by lia. reflexivity.
  - unfold atom. rewrite INR_IZR_INZ, Z2Nat.id by lia. assert (X : IZR x = lo + b * ((hi - lo) / INR n)) by (unfold b; field; lra). rewrite X. set (d := (hi - lo) / INR n). assert (D : 0 < d) by (apply Rmult_lt_0_compat; [lra|now apply Rinv_0_lt_compat]).
    replace (lo + (IZR (floor b) + 1 / 2) * (hi - lo) / INR n - (lo + b * d)) with ((IZR (floor b) + 1 / 2 - b) * d) by (unfold d; field; lra).
    replace ((hi - lo) / (2 * INR n)) with (1 / 2 * d) by (unfold d; field; lra). apply Rabs_le. split; nra.
Qed.
Lemma di_pre_high : forall n lo hi x, (1 <= n)%nat -> lo < hi -> IZR x = hi -> di_pre n lo hi (VInt x) = Ok (repeat 0 n) /\ di_post n lo hi (repeat 0 n) = Ok 0.
Proof.
  intros n lo hi x Hn Hlh Hx. assert (R : forall l : list nat, map (fun _ => 0) l = repeat 0 (length l)) by (induction l; cbn; congruence). split.
  - unfold di_pre. f_equal. rewrite Hx. replace ((hi - lo) * INR n / (hi - lo)) with (INR n) by (field; lra). assert (E : floor (INR n) = Z.of_nat n) by (apply floor_eq; rewrite INR_IZR_INZ; lra). rewrite E.
    rewrite (map_ext_in _ (fun _ => 0)); [rewrite R, seq_length; auto|]. intros j Hj. apply in_seq in Hj. destruct (Z.eqb_spec (Z.of_nat j) (Z.of_nat n)); [lia|auto].
  - unfold di_post. rewrite repeat_length, Nat.eqb_refl. f_equal. unfold dot. assert (L : length (atoms n lo hi) = n) by (unfold atoms; now rewrite map_length, seq_length). revert L. generalize (atoms n lo hi). clear. induction n as [|n IH]; intros [|a l] L; cbn in *; try lia; auto. rewrite IH by lia. lra.
Qed.

(** * EmpiricalQuantileDist *)
Lemma eq_mean_affine : forall scale shift vs, vs <> [] -> eq_mean (eq_affine (fun x => x) (fun x => x) scale shift vs) = scale * mean vs + shift.
Proof.
  intros scale shift vs H. unfold eq_mean, eq_affine, mean. rewrite map_length, rsum_total, total_plus, total_const. rewrite (total_scal (fun v => v)), map_id. assert (0 < INR (length vs)) by (apply lt_0_INR; destruct vs; [congruence|cbn; lia]). field. lra.
Qed.
Lemma eq_sorted : forall (f finv : R -> R) scale shift vs, (forall x y, x <= y -> f x <= f y) -> (forall x y, x <= y -> finv x <= finv y) -> 0 <= scale -> nondecreasing vs -> nondecreasing (eq_affine f finv scale shift vs).
Proof.
  intros f finv scale shift vs Hf Hi Hs Hv i j Hij. unfold eq_affine in *. rewrite map_length in Hij. rewrite !(@nth_map0 (fun v => f (shift + scale * finv v)) vs _ 0) by lia. apply Hf. specialize (Hi _ _ (Hv i j Hij)). nra.
Qed.
