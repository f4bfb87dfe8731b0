(** Properties C43-C45 and C65: loss functions and the value transform. *)
From Coq Require Import List Lia Bool Reals Lra.
From Verif Require Import PyCommon CommonProofs UtilsModel UtilsSpec UtilsProofs2 UtilsProofs3 WrappersModel WrappersProofs DistModel DistSpec DistProofs DistProofs2 LossModel LossSpec LossProofs.
Import ListNotations.
Local Open Scope R_scope.

(** C43: the loss of a batch is the weighted mean of a function of the error: non-negative, zero only without error, half the
    square up to delta and linear with slope delta beyond, at most the mse, symmetric, increasing in |error|, continuously
    differentiable with the error clipped to [-delta, delta] as derivative. *)
Theorem C43_huber : forall delta, 0 < delta -> exists L : R -> R,
  (forall y yhat, y <> [] -> length y = length yhat ->
     huber delta y yhat None = Ok (Some (mean (zipw (fun a b => L (b - a)) y yhat))) /\
     forall w, length w = length y -> huber delta y yhat (Some w) = Ok (Some (weighted_mean (fun i => L (nth i yhat 0 - nth i y 0)) (fun i => nth i w 0) (length y)))) /\
  (forall e, 0 <= L e /\ (L e = 0 <-> e = 0)) /\
  (forall e, Rabs e <= delta -> L e = e * e / 2) /\
  (forall e e', delta <= e -> delta <= e' -> L e' - L e = delta * (e' - e)) /\
  (forall e, L e <= mse1 0 e) /\
  (forall e, L (- e) = L e) /\
  (forall e e', Rabs e < Rabs e' -> L e < L e') /\
  (forall e, derivable_pt_lim L e (clip e (- delta) delta)).
Proof.
  intros d Hd. exists (huber_formula d). split; [|split; [|split; [|split; [|split; [|split; [|split]]]]]].
  - intros y yhat NE E. assert (Z : zipw (huber1 d) y yhat = zipw (fun a b => huber_formula d (b - a)) y yhat).
    { clear NE. revert yhat E. induction y as [|a y IH]; intros [|b yhat] E; cbn in *; auto. f_equal; [now apply huber_eq|apply IH; lia]. }
    split; [unfold huber; rewrite zip_loss_none, Z by auto; reflexivity|]. intros w Ew. unfold huber. rewrite zip_loss_some by auto. f_equal. f_equal. unfold weighted_mean. f_equal. apply total_ext. intros i _. now rewrite huber_eq.
  - intros e. now apply hf_nonneg.
  - intros e He. unfold huber_formula. destruct (Rle_dec (Rabs e) d); [auto|lra].
  - intros e e' H1 H2. destruct (hf_cases e Hd) as [[A ->]|[[A ->]|[A ->]]], (hf_cases e' Hd) as [[B ->]|[[B ->]|[B ->]]]; nra.
  - intros e. unfold mse1, Rsqr. replace (1/2 * ((e - 0) * (e - 0))) with (e * e / 2) by lra. now apply hf_le_sq.
  - intros e. apply hf_opp.
  - intros e e' He. unfold huber_formula. assert (S : forall x, x * x = Rabs x * Rabs x) by (intros x; exact (Rsqr_abs x)). rewrite (S e), (S e'). pose proof (Rabs_pos e). destruct (Rle_dec (Rabs e) d), (Rle_dec (Rabs e') d); nra.
  - intros e. now apply hf_deriv.
Qed.
Print Assumptions C43_huber.
Example C43_huber_ex : 0 < 1. Proof. lra. Qed.
Example C43_huber_ex2 : huber 1 [0; 0] [3; 1/2] (Some [2; 1]) = Ok (Some ((2 * (5/2) + 1/8) / 2)).
Proof.
  unfold huber. rewrite zip_loss_some by (cbn; auto; discriminate). f_equal. f_equal. unfold weighted_mean. cbn [length seq map nth]. rewrite !total_cons. change (total []) with 0. rewrite !huber_eq by lra. unfold huber_formula.
  replace (3 - 0) with 3 by lra. replace (1/2 - 0) with (1/2) by lra. rewrite !Rabs_right by lra. destruct (Rle_dec 3 1); [lra|]. destruct (Rle_dec (1/2) 1); [|lra]. change (INR 2) with 2. lra.
Qed.

(** C43: mse likewise; a weight vector of the wrong length is refused. *)
Theorem C43_mse : forall y yhat, y <> [] -> length y = length yhat ->
  mse y yhat None = Ok (Some (mean (zipw (fun a b => (b - a) * (b - a) / 2) y yhat))) /\
  (forall w, length w = length y -> mse y yhat (Some w) = Ok (Some (weighted_mean (fun i => (nth i yhat 0 - nth i y 0) * (nth i yhat 0 - nth i y 0) / 2) (fun i => nth i w 0) (length y)))) /\
  (forall w delta, length w <> length y -> mse y yhat (Some w) = Err EAssertion /\ huber delta y yhat (Some w) = Err EAssertion).
Proof.
  intros y yhat NE E. assert (Q : forall a b, mse1 a b = (b - a) * (b - a) / 2) by (intros; unfold mse1, Rsqr; lra). split; [|split].
  - unfold mse. rewrite zip_loss_none by auto. f_equal. f_equal. f_equal. clear NE. revert yhat E. induction y as [|a y IH]; intros [|b yhat] E; cbn in *; auto. rewrite Q. f_equal. apply IH. lia.
  - intros w Ew. unfold mse. rewrite zip_loss_some by auto. f_equal. f_equal. unfold weighted_mean. f_equal. apply total_ext. intros i _. now rewrite Q.
  - intros w delta Ew. split; now apply zip_loss_bad.
Qed.
Print Assumptions C43_mse.
Example C43_mse_ex : mse [0; 1] [2; 1] None = Ok (Some 1).
Proof. destruct (C43_mse [0; 1] [2; 1]) as [E _]; [discriminate|auto|]. rewrite E. f_equal. f_equal. unfold mean. cbn [zipw length]. rewrite !total_cons. change (total []) with 0. change (INR 2) with 2. lra. Qed.

(** C43: the docstring's formula (without the factor 1/2 in the quadratic part) is not what is computed; it is not even
    continuous, having a jump at |error| = delta. *)
Theorem C43_docstring_refuted : exists delta y yhat, 0 < delta /\ huber delta [y] [yhat] None <> Ok (Some (huber_docstring delta (yhat - y))) /\
  forall eta, 0 < eta -> exists e, Rabs (e - (yhat - y)) < eta /\ 1/4 <= Rabs (huber_docstring delta e - huber_docstring delta (yhat - y)).
Proof.
  exists 1, 0, 1. split; [lra|]. unfold huber_docstring. replace (1 - 0) with 1 by lra. rewrite (Rabs_right 1) by lra. destruct (Rle_dec 1 1); [|lra]. split.
  - unfold huber. rewrite zip_loss_none by (auto; discriminate). intros E. injection E as E. unfold mean in E. cbn [zipw length] in E. rewrite !total_cons in E. change (total []) with 0 in E. change (INR 1) with 1 in E.
    rewrite huber_eq in E by lra. unfold huber_formula in E. replace (1 - 0) with 1 in E by lra. rewrite (Rabs_right 1) in E by lra. destruct (Rle_dec 1 1); lra.
  - intros eta He. exists (1 + Rmin (eta / 2) (1/4)). assert (M : 0 < Rmin (eta / 2) (1/4) <= 1/4 /\ Rmin (eta / 2) (1/4) < eta) by (unfold Rmin; destruct (Rle_dec (eta / 2) (1/4)); lra). set (m := Rmin (eta / 2) (1/4)) in *. split.
    + rewrite Rabs_right by lra. lra.
    + rewrite (Rabs_right (1 + m)) by lra. destruct (Rle_dec (1 + m) 1); [lra|]. rewrite Rabs_left1 by lra. lra.
Qed.
Print Assumptions C43_docstring_refuted.

(** C44: on labels +1/-1 and logits, logloss_sign equals logloss on labels (y+1)/2 and sigmoid probabilities, for every batch and
    every weight vector, including the error cases. *)
Theorem C44_agree : forall ys zs w, (forall y, In y ys -> y = 1 \/ y = -1) ->
  logloss (map (fun y => (y + 1) / 2) ys) (map sigmoid zs) w = match logloss_sign ys zs w with Ok (Some x) => Ok (Fin x) | Ok None => Ok NaN | Err e => Err e end.
Proof. exact logloss_batch. Qed.
Print Assumptions C44_agree.
Example C44_agree_ex : forall y, In y [1; -1; 1] -> y = 1 \/ y = -1.
Proof. intros y [<-|[<-|[<-|[]]]]; auto. Qed.
(** C44: non-negative for probabilities strictly between 0 and 1 and labels in [0,1]. *)
Theorem C44_nonneg : forall y p, 0 <= y <= 1 -> 0 < p < 1 -> exists x, logloss [y] [p] None = Ok (Fin x) /\ 0 < x.
Proof.
  intros y p Hy Hp. exists (- y * ln p - (1 - y) * ln (1 - p)). split.
  - unfold logloss. cbn [length Nat.eqb ezip]. rewrite logloss_in by auto. change [Fin (- y * ln p - (1 - y) * ln (1 - p))] with (map Fin [- y * ln p - (1 - y) * ln (1 - p)]). rewrite emean_fin. cbn [jmean length]. rewrite rsum_total, total_cons. change (total []) with 0. change (INR 1) with 1. f_equal. f_equal. lra.
  - assert (A := ln_neg Hp). assert (B : ln (1 - p) < 0) by (apply ln_neg; lra). nra.
Qed.
Print Assumptions C44_nonneg.
Example C44_nonneg_ex : 0 <= 1 <= 1 /\ 0 < 1/3 < 1. Proof. lra. Qed.
(** C44: proper: for a label strictly between 0 and 1 (a relative frequency) the loss is least at p = y, and only there. *)
Theorem C44_proper : forall y p, 0 < y < 1 -> 0 < p < 1 -> exists a b, logloss [y] [y] None = Ok (Fin a) /\ logloss [y] [p] None = Ok (Fin b) /\ a <= b /\ (a = b <-> p = y).
Proof. exact logloss_proper. Qed.
Print Assumptions C44_proper.
Example C44_proper_ex : 0 < 1/4 < 1 /\ 0 < 1/3 < 1. Proof. lra. Qed.
Theorem C44_sign_nonneg : forall ys zs w x, (forall c, In c w -> 0 <= c) -> logloss_sign ys zs (Some w) = Ok (Some x) -> 0 <= x.
Proof. exact logloss_pos_batch. Qed.
Print Assumptions C44_sign_nonneg.
Example C44_sign_nonneg_ex : (forall c, In c [2] -> 0 <= c) /\ logloss_sign [1] [0] (Some [2]) = Ok (Some (2 * ln 2)).
Proof.
  split; [intros c [<-|[]]; lra|]. unfold logloss_sign. rewrite zip_loss_some by (cbn; auto; discriminate). f_equal. f_equal. unfold weighted_mean. cbn [length seq map nth]. rewrite total_cons. change (total []) with 0. change (INR 1) with 1.
  unfold logloss_sign1. replace (- (1) * 0) with 0 by lra. rewrite exp_0. replace (1 + 1) with 2 by lra. lra.
Qed.
(** C44 is false on the documented closed range: a certain and correct prediction gives nan, and one such sample makes the loss of
    every batch nan; a certain and wrong prediction gives infinity. *)
Theorem C44_closed_range_refuted : (forall y, y = 0 \/ y = 1 -> logloss [y] [y] None = Ok NaN) /\
  (forall y ys p, (y = 0 \/ y = 1) -> length ys = length p -> logloss (y :: ys) (y :: p) None = Ok NaN) /\ logloss1 1 0 = PInf /\ logloss1 0 1 = PInf.
Proof.
  assert (E0 : elog 0 = NInf). { unfold elog. destruct (Rlt_dec 0 0); [lra|]. destruct (Req_EM_T 0 0); [auto|lra]. }
  assert (E1 : elog 1 = Fin 0). { unfold elog. destruct (Rlt_dec 0 1); [|lra]. now rewrite ln_1. }
  assert (L : forall y, y = 0 \/ y = 1 -> logloss1 y y = NaN).
  { intros y [->| ->]; unfold logloss1.
    - rewrite E0. cbn [escale]. destruct (Req_EM_T (- 0) 0); [reflexivity|lra].
    - replace (1 - 1) with 0 by lra. rewrite E0, E1. cbn [escale]. destruct (Req_EM_T 0 0); [reflexivity|lra]. }
  assert (N : forall y ys p, (y = 0 \/ y = 1) -> length ys = length p -> logloss (y :: ys) (y :: p) None = Ok NaN).
  { intros y ys p Hy E. unfold logloss. cbn [length]. rewrite E. cbn [Nat.eqb]. rewrite Nat.eqb_refl. cbn [ezip]. rewrite L by auto. reflexivity. }
  split; [intros; now apply N|]. split; [exact N|]. unfold logloss1. split.
  - rewrite E0. replace (1 - 0) with 1 by lra. rewrite E1. cbn [escale]. destruct (Req_EM_T (- (1)) 0); [lra|]. destruct (Rlt_dec 0 (- (1))); [lra|]. reflexivity.
  - replace (1 - 1) with 0 by lra. rewrite E0, E1. cbn [escale]. destruct (Req_EM_T (1 - 0) 0); [lra|]. destruct (Rlt_dec 0 (1 - 0)); [|lra]. reflexivity.
Qed.
Print Assumptions C44_closed_range_refuted.

(** C45: the transform and its inverse are mutually inverse, odd, strictly increasing and fix zero; the transform never increases
    distances. *)
Theorem C45_bijection : forall scale, 0 < scale -> exists f g, log_transform scale = Ok (f, g) /\ inverse_pair f g /\ odd f /\ odd g /\ increasing f /\ increasing g /\ f 0 = 0 /\ g 0 = 0 /\
  (forall x y, Rabs (f y - f x) <= Rabs (y - x)).
Proof.
  intros c Hc. unfold log_transform. destruct (Rlt_dec 0 c) as [_|]; [|lra]. do 2 eexists. split; [reflexivity|].
  split; [now apply lt_inverse|]. split; [intros x; apply lt_odd_f|]. split; [intros x; apply lt_odd_g|]. split; [now apply lt_incr_f|]. split; [now apply lt_incr_g|]. split; [apply lt_f_0|]. split; [apply lt_g_0|]. now apply lt_compress.
Qed.
Print Assumptions C45_bijection.
Example C45_bijection_ex : 0 < 1/2. Proof. lra. Qed.
(** C45: the value at positive arguments; scales that are not positive are refused. *)
Theorem C45_formula : forall scale f g, log_transform scale = Ok (f, g) -> forall x, 0 < x -> f x = scale * ln (1 + x / scale) /\ g x = scale * (exp (x / scale) - 1).
Proof.
  intros c f g E x Hx. unfold log_transform in E. destruct (Rlt_dec 0 c) as [Hc|]; [|discriminate]. injection E as <- <-. split; [now apply lt_f_pos|now apply lt_g_pos].
Qed.
Print Assumptions C45_formula.
Example C45_formula_ex : exists f g, log_transform 2 = Ok (f, g). Proof. unfold log_transform. destruct (Rlt_dec 0 2); [|lra]. eauto. Qed.
Theorem C45_rejects : forall scale, scale <= 0 -> log_transform scale = Err EAssertion.
Proof. intros c H. unfold log_transform. destruct (Rlt_dec 0 c); [lra|auto]. Qed.
Print Assumptions C45_rejects.
Example C45_rejects_ex : -1 <= 0. Proof. lra. Qed.

(** C65: the loss of a batch is the weighted mean over rows of the mean over predicted quantiles of the sum over targets of the
    quantile-weighted Huber loss. *)
Theorem C65_batch : forall delta y yhat taus w n, 0 < delta -> (1 <= n)%nat -> y <> [] -> length yhat = length y -> length taus = length y -> length w = length y ->
  (forall b, (b < length y)%nat -> length (nth b yhat []) = n /\ length (nth b taus []) = n /\ forall x, In x (nth b taus []) -> 0 <= x <= 1) ->
  quantile_huber delta y yhat taus (Some w) = Ok (Some (weighted_mean (fun b => mean (map (quantile_row delta (nth b y []) (nth b yhat []) (nth b taus [])) (seq 0 n))) (fun b => nth b w 0) (length y))).
Proof. exact quantile_batch. Qed.
Print Assumptions C65_batch.
Example C65_batch_ex : let y := [[1; 2; 3]] in let yhat := [[0; 5]] in let taus := [[1/4; 3/4]] in length yhat = length y /\ length taus = length y /\
  (forall b, (b < length y)%nat -> length (nth b yhat []) = 2%nat /\ length (nth b taus []) = 2%nat /\ forall x, In x (nth b taus []) -> 0 <= x <= 1).
Proof. cbn. repeat split; auto. all: intros. all: assert (b = 0)%nat as -> by lia; cbn in *; auto. all: destruct H0 as [<-|[<-|[]]]; lra. Qed.
(** C65: one pair: non-negative, zero only without error, over- and underestimates weighted 1-tau : tau; the median weight halves the
    Huber loss. *)
Theorem C65_pair : forall delta tau y h, 0 < delta -> 0 < tau < 1 -> exists x, quantile_huber delta [[y]] [[h]] [[tau]] None = Ok (Some x) /\ 0 <= x /\ (x = 0 <-> y = h) /\
  (forall e, 0 < e -> y = h + e -> x = tau * huber1 delta h y / delta) /\ (forall e, 0 < e -> y = h - e -> x = (1 - tau) * huber1 delta h y / delta) /\
  (tau = 1/2 -> x = huber1 delta h y / (2 * delta)).
Proof.
  intros d tau y h Hd Ht. exists (quantile_formula d tau (y - h)). assert (I : 0 < / d) by now apply Rinv_0_lt_compat.
  split. { unfold quantile_huber. cbn [qhuber_rows qhuber_row combine map fst snd mean_w concat app jmean length]. rewrite !rsum_total, !total_cons. change (total []) with 0. change (INR 1) with 1. rewrite qhuber_eq by lra. f_equal. f_equal. lra. }
  destruct (@hf_nonneg d (y - h) Hd) as [N Z]. unfold quantile_formula. rewrite huber_eq by auto. assert (W : 0 < quantile_weight tau (y - h)) by (unfold quantile_weight; destruct (Rlt_dec (y - h) 0); lra).
  split; [apply Rmult_le_pos; [apply Rmult_le_pos; lra|lra]|]. split; [|split; [|split]].
  - split.
    + intros E. assert (Q : quantile_weight tau (y - h) * huber_formula d (y - h) = 0) by (apply (Rmult_eq_reg_r (/ d)); [unfold Rdiv in E; lra|lra]). apply Rmult_integral in Q. destruct Q as [Q|Q]; [lra|]. apply Z in Q. lra.
    + intros ->. replace (h - h) with 0 in * by lra. rewrite (proj2 Z eq_refl). unfold Rdiv. lra.
  - intros e He ->. unfold quantile_weight. destruct (Rlt_dec (h + e - h) 0); [lra|]. reflexivity.
  - intros e He ->. unfold quantile_weight. destruct (Rlt_dec (h - e - h) 0); [|lra]. reflexivity.
  - intros ->. unfold quantile_weight. destruct (Rlt_dec (y - h) 0); field; lra.
Qed.
Print Assumptions C65_pair.
Example C65_pair_ex : 0 < 1 /\ 0 < 1/4 < 1. Proof. lra. Qed.
(** C65: the loss of one predicted quantile h is differentiable; where no target is closer than delta the derivative is
    (1-tau) * #targets below - tau * #targets above: it vanishes exactly if a fraction tau lies below. *)
Theorem C65_gradient : forall delta tau ys h, 0 < delta -> 0 <= tau <= 1 -> exists g,
  derivable_pt_lim (fun x => rsum (map (fun y => qhuber1 delta tau y x) ys)) h g /\
  ((forall y, In y ys -> delta <= Rabs (y - h)) -> g = (1 - tau) * INR (below h ys) - tau * INR (above h ys) /\ (g = 0 <-> INR (below h ys) = tau * INR (length ys))).
Proof.
  intros d tau ys h Hd Ht. exists (total (map (fun y => - (quantile_weight tau (y - h) * clip (y - h) (- d) d / d)) ys)). split.
  - eapply derivable_pt_lim_ext; [intros z; rewrite rsum_total; symmetry; apply total_ext with (g := fun y => quantile_formula d tau (y - z)); intros y _; now apply qhuber_eq|].
    apply (@deriv_total R (fun y z => quantile_formula d tau (y - z)) (fun y z => - (quantile_weight tau (y - z) * clip (y - z) (- d) d / d))). intros y _. now apply qf_deriv_pred.
  - intros H. rewrite balance by auto. split; auto. assert (L : (below h ys + above h ys)%nat = length ys).
    { clear -H Hd. induction ys as [|y ys IH]; auto. unfold below, above. cbn [filter]. specialize (IH (fun y Hy => H y (or_intror Hy))). unfold below, above in IH. specialize (H y (or_introl eq_refl)). unfold Rabs in H. destruct (Rlt_dec y h), (Rlt_dec h y), (Rcase_abs (y - h)); cbn [length]; try lra; lia. }
    rewrite <- L, plus_INR. split; lra.
Qed.
Print Assumptions C65_gradient.
Example C65_gradient_ex : (forall y, In y [0; 1; 5; 9] -> 1 <= Rabs (y - 3)) /\ below 3 [0; 1; 5; 9] = 2%nat.
Proof.
  split.
  - intros y [<-|[<-|[<-|[<-|[]]]]]; unfold Rabs; destruct (Rcase_abs _); lra.
  - unfold below. cbn [filter]. repeat (match goal with |- context [Rlt_dec ?a ?b] => destruct (Rlt_dec a b); [try lra|try lra] end). reflexivity.
Qed.

(** C44: one certain and wrong prediction among proper ones makes the loss infinite if its weight is positive; weight zero does not hide
    it but gives nan. *)
Theorem C44_infinite : forall ys ps c ws, length ys = length ps -> length ws = length ps -> (forall p, In p ps -> 0 < p < 1) ->
  (0 < c -> logloss (1 :: ys) (0 :: ps) (Some (c :: ws)) = Ok PInf) /\ (c = 0 -> logloss (1 :: ys) (0 :: ps) (Some (c :: ws)) = Ok NaN).
Proof.
  intros ys ps c ws L LW H.
  assert (E : logloss1 1 0 = PInf) by apply C44_closed_range_refuted.
  assert (Z : forall ys, length ys = length ps -> exists l, ezip logloss1 ys ps = map Fin l /\ length l = length ps).
  { clear -H. induction ps as [|p ps IH]; intros [|y ys] L; try discriminate; [exists []; auto|]. destruct (IH (fun q Hq => H q (or_intror Hq)) ys) as [l [A B]]; [now injection L|].
    cbn [ezip]. rewrite A, logloss_in by (apply H; now left). eexists (_ :: l). split; [reflexivity|cbn; lia]. }
  destruct (Z ys L) as [l [A B]]. unfold logloss. cbn [length Nat.eqb ezip]. rewrite L, Nat.eqb_refl, A, E. cbn [length]. rewrite map_length, B, LW. cbn [Nat.eqb]. rewrite Nat.eqb_refl. cbn [combine map fst snd].
  rewrite zip_weights. set (m := concat _). cbn [emean]. 
  assert (Q : exists t, fold_right eadd (Fin 0) (map Fin m) = Fin t).
  { clear. induction m as [|x m [t IH]]; [now exists 0|]. cbn [map fold_right]. rewrite IH. unfold eadd. cbn. eexists. reflexivity. }
  destruct Q as [t Q]. split; intros Hc.
  - cbn [emean fold_right]. rewrite Q. cbn [escale]. destruct (Req_EM_T c 0); [lra|]. destruct (Rlt_dec 0 c); [|lra]. unfold emean, eadd. cbn [fold_right]. rewrite ?Q. unfold eadd. cbn [escale esub].
    assert (0 < / INR (length (PInf :: map Fin m))) by (apply Rinv_0_lt_compat, lt_0_INR; cbn; lia). destruct (Req_EM_T _ 0); [lra|]. destruct (Rlt_dec 0 _); [reflexivity|lra].
  - cbn [escale]. destruct (Req_EM_T c 0); [|lra]. reflexivity.
Qed.
Print Assumptions C44_infinite.
Example C44_infinite_ex : forall p, In p [1/2; 1/3] -> 0 < p < 1. Proof. intros p [<-|[<-|[]]]; lra. Qed.
