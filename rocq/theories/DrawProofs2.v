(** Integrals of powers, and the race behind Gumbel sampling: u_a wins when every other u_j stays below u_a ^ c_j. *)
From Coq Require Import List Reals Lia Lra Bool.
From Verif Require Import MeanSpec MeanProofs.
Import ListNotations.
Open Scope R_scope.
Set Implicit Arguments.

Definition pw (x e : R) : R := if Rle_dec x 0 then 0 else Rpower x e.
Lemma pw_pos : forall x e, 0 < x -> pw x e = Rpower x e.
Proof. intros x e H. unfold pw. destruct (Rle_dec x 0); [lra|reflexivity]. Qed.
Lemma pw_neg : forall x e, x <= 0 -> pw x e = 0.
Proof. intros x e H. unfold pw. destruct (Rle_dec x 0); [reflexivity|lra]. Qed.
Lemma pw_ge0 : forall x e, 0 <= pw x e.
Proof. intros x e. unfold pw. destruct (Rle_dec x 0); [lra|]. left. apply exp_pos. Qed.
Lemma pw_1 : forall e, pw 1 e = 1.
Proof. intros e. rewrite pw_pos by lra. unfold Rpower. now rewrite ln_1, Rmult_0_r, exp_0. Qed.
Lemma pw_lt : forall x y e, 0 < e -> 0 <= x -> x < y -> pw x e < pw y e.
Proof.
  intros x y e He Hx Hy. destruct (Req_dec x 0) as [->|N]; [rewrite pw_neg by lra; rewrite pw_pos by lra; apply exp_pos|]. rewrite !pw_pos by lra. apply exp_increasing. apply Rmult_lt_compat_l; auto. apply ln_increasing; lra.
Qed.
Lemma pw_le1 : forall x e, 0 <= e -> x <= 1 -> pw x e <= 1.
Proof.
  intros x e He Hx. destruct (Rle_dec x 0) as [L|L]; [rewrite pw_neg by lra; lra|]. destruct (Req_dec x 1) as [->|N]; [rewrite pw_1; lra|]. destruct (Req_dec e 0) as [->|N']; [rewrite pw_pos, Rpower_O by lra; lra|]. rewrite <- (pw_1 e). left. apply pw_lt; lra.
Qed.
Lemma pw_lt1 : forall x e, 0 < e -> x < 1 -> pw x e < 1.
Proof. intros x e He Hx. destruct (Rle_dec x 0) as [L|L]; [rewrite pw_neg by lra; lra|]. rewrite <- (pw_1 e). apply pw_lt; lra. Qed.
Lemma pw_mult : forall x d e, pw x d * pw x e = pw x (d + e).
Proof. intros x d e. unfold pw. destruct (Rle_dec x 0); [ring|]. symmetry. apply Rpower_plus. Qed.
Lemma pw_pw : forall x d e, pw (pw x d) e = pw x (d * e).
Proof. intros x d e. destruct (Rle_dec x 0) as [L|L]; [rewrite !(pw_neg _ L), pw_neg by lra; reflexivity|]. rewrite (pw_pos d) by lra. rewrite pw_pos by apply exp_pos. rewrite Rpower_mult. rewrite pw_pos by lra. reflexivity. Qed.
Lemma pw_inv : forall x c, 0 < c -> 0 <= x -> pw (pw x c) (/ c) = x.
Proof. intros x c Hc Hx. rewrite pw_pw, Rinv_r by lra. destruct (Req_dec x 0) as [->|N]; [apply pw_neg; lra|]. rewrite pw_pos by lra. apply Rpower_1. lra. Qed.

Lemma pw_small : forall e eps, 0 < e -> 0 < eps -> exists d, 0 < d /\ forall h, h < d -> pw h e < eps.
Proof.
  intros e eps He Hp. exists (Rpower eps (/ e)). split; [apply exp_pos|]. intros h Hh. destruct (Rle_dec h 0) as [L|L]; [now rewrite pw_neg|]. rewrite pw_pos by lra.
  replace eps with (Rpower (Rpower eps (/ e)) e) by (rewrite Rpower_mult, Rinv_l, Rpower_1; lra). apply exp_increasing. apply Rmult_lt_compat_l; auto. apply ln_increasing; lra.
Qed.

Lemma near_eq_derivable : forall f g x l d, 0 < d -> (forall h, Rabs h < d -> f (x + h) = g (x + h)) -> derivable_pt_lim f x l -> derivable_pt_lim g x l.
Proof.
  intros f g x l d Hd E D eps He. destruct (D eps He) as [del H]. assert (Hm : 0 < Rmin d del) by (apply Rmin_pos; auto; apply cond_pos). exists (mkposreal _ Hm). intros h H0 Hh. cbn in Hh.
  pose proof (Rmin_l d del). pose proof (Rmin_r d del). rewrite <- E by lra. pose proof (E 0) as E0. rewrite Rplus_0_r in E0. rewrite <- E0 by (rewrite Rabs_R0; lra). apply H; auto. lra.
Qed.

Lemma pw_derivable : forall e x, 0 < e -> derivable_pt_lim (fun x => pw x (e + 1)) x ((e + 1) * pw x e).
Proof.
  intros e x He. destruct (Rtotal_order x 0) as [L|[->|L]].
  - rewrite pw_neg by lra. rewrite Rmult_0_r. apply (@near_eq_derivable (fct_cte 0) _ x 0 (- x)); [lra| |apply derivable_pt_lim_const]. intros h Hh. unfold fct_cte. rewrite pw_neg; auto. apply Rabs_def2 in Hh. lra.
  - rewrite (@pw_neg 0 e), Rmult_0_r by lra. intros eps Hp. destruct (@pw_small e eps He Hp) as (d & Hd & S). exists (mkposreal d Hd). intros h H0 Hh. cbn in Hh. rewrite Rplus_0_l, (@pw_neg 0) by lra. rewrite !Rminus_0_r.
    destruct (Rle_dec h 0) as [L|L]; [rewrite pw_neg by lra; unfold Rdiv; rewrite Rmult_0_l, Rabs_R0; lra|]. replace (pw h (e + 1) / h) with (pw h e); [rewrite Rabs_right by (apply Rle_ge, pw_ge0); apply S; apply Rabs_def2 in Hh; lra|].
    rewrite <- pw_mult. rewrite (@pw_pos h 1), Rpower_1 by lra. field. lra.
  - rewrite pw_pos by lra. apply (@near_eq_derivable (fun x => Rpower x (e + 1)) _ x _ x); [lra|intros h Hh; rewrite pw_pos; auto; apply Rabs_def2 in Hh; lra|].
    pose proof (derivable_pt_lim_power x (e + 1) L) as D. replace (e + 1 - 1) with e in D by ring. exact D.
Qed.

Lemma pw_continuity : forall e, 0 < e -> continuity (fun x => (e + 1) * pw x e).
Proof.
  intros e He. apply (continuity_scal (fun x => pw x e)). intros x. destruct (Rtotal_order x 0) as [L|[->|L]].
  - refine (continuity_pt_locally_ext (fct_cte 0) _ (- x) x _ _ _); [lra| |apply continuity_pt_const; intros ? ?; reflexivity]. intros y Hy. unfold fct_cte. rewrite pw_neg; auto. unfold R_dist in Hy. apply Rabs_def2 in Hy. lra.
  - intros eps Hp. destruct (@pw_small e eps He Hp) as (d & Hd & S). exists d. split; auto. intros y [_ Hy]. cbn in *. unfold R_dist in *. rewrite Rminus_0_r in Hy. rewrite (@pw_neg 0) by lra. rewrite Rminus_0_r, Rabs_right by (apply Rle_ge, pw_ge0). apply S. apply Rabs_def2 in Hy. lra.
  - refine (continuity_pt_locally_ext (fun y => Rpower y e) _ x x _ _ _); [lra|intros y Hy; rewrite pw_pos; auto; unfold R_dist in Hy; apply Rabs_def2 in Hy; lra|].
    apply derivable_continuous_pt. exists (e * Rpower x (e - 1)). now apply derivable_pt_lim_power.
Qed.

Lemma integral_pw : forall e a b, 0 <= e -> 0 <= a <= b -> integral (fun u => pw u e) a b ((pw b (e + 1) - pw a (e + 1)) / (e + 1)).
Proof.
  intros e a b He Hab. destruct (Req_dec e 0) as [->|N].
  - assert (P1 : forall x, 0 <= x -> pw x (0 + 1) = x). { intros x Hx. rewrite Rplus_0_l. destruct (Req_dec x 0) as [->|]; [apply pw_neg; lra|]. rewrite pw_pos, Rpower_1; lra. }
    rewrite !P1 by lra. apply (@integral_ext (fun _ => 1)); [lra|intros x Hx; rewrite pw_pos by lra; now rewrite Rpower_O by lra|]. replace ((b - a) / (0 + 1)) with (1 * (b - a)) by field. apply integral_const.
  - pose proof (@integral_ftc (fun x => pw x (e + 1)) (fun x => (e + 1) * pw x e) a b) as I. specialize (I (fun x => @pw_derivable e x ltac:(lra)) (@pw_continuity e ltac:(lra)) ltac:(lra)).
    apply (@integral_scal _ a b (/ (e + 1))) in I; [|lra]. cbv beta in I. apply (@integral_ext _ (fun u => pw u e)) in I; [|lra|intros x _; field; lra].
    replace ((pw b (e + 1) - pw a (e + 1)) / (e + 1)) with (/ (e + 1) * (pw b (e + 1) - pw a (e + 1))) by (unfold Rdiv; ring). exact I.
Qed.

(** A function that is K below tau and 0 above. *)
Lemma cut_mean : forall G K t, 0 <= t <= 1 -> (forall u, 0 < u < t -> G u = K) -> (forall u, t < u < 1 -> G u = 0) -> mean_over_unit G (K * t).
Proof.
  intros G K t Ht H1 H2. unfold mean_over_unit. replace (K * t) with (K * (t - 0) + 0 * (1 - t)) by ring. apply (@integral_chasles G 0 t 1).
  - apply (@integral_ext (fun _ => K)); [lra|intros; symmetry; auto|apply integral_const].
  - apply (@integral_ext (fun _ => 0)); [lra|intros; symmetry; auto|apply integral_const].
Qed.

(** Runner j with constant c stays behind the time t of the winner; at equality a fixed rule decides. *)
Definition behind (ct : R * bool) (u t : R) : bool :=
  if Rlt_dec u (pw t (fst ct)) then true else if Req_EM_T u (pw t (fst ct)) then snd ct else false.
Lemma behind_lt : forall ct u t, u < pw t (fst ct) -> behind ct u t = true.
Proof. intros ct u t H. unfold behind. destruct (Rlt_dec u (pw t (fst ct))); [reflexivity|contradiction]. Qed.
Lemma behind_gt : forall ct u t, pw t (fst ct) < u -> behind ct u t = false.
Proof. intros ct u t H. unfold behind. destruct (Rlt_dec u (pw t (fst ct))); [lra|]. destruct (Req_EM_T u (pw t (fst ct))); [lra|reflexivity]. Qed.

Fixpoint all_behind (post : list (R * bool)) (t : R) (us : list R) : bool :=
  match post, us with
  | [], [] => true
  | ct :: post, u :: us => behind ct u t && all_behind post t us
  | _, _ => false
  end.
Fixpoint wins (pre post : list (R * bool)) (cond : R -> bool) (us : list R) : bool :=
  match pre, us with
  | [], t :: us => cond t && all_behind post t us
  | ct :: pre, u :: us => wins pre post (fun t => cond t && behind ct u t) us
  | _, [] => false
  end.
Definition csum (l : list (R * bool)) : R := sum_over l fst.
Definition ind (b : bool) : R := if b then 1 else 0.

Lemma csum_ge0 : forall l, (forall ct, In ct l -> 0 < fst ct) -> 0 <= csum l.
Proof. intros l H. apply sum_over_nonneg. intros x Hx. specialize (H x Hx). lra. Qed.

Lemma zero_mean : forall n F, (forall us, F us = 0) -> mean_units n F 0.
Proof.
  induction n as [|n IH]; intros F H; cbn [mean_units]; [apply H|]. exists (fun _ => 0). split; [intros u _; apply IH; auto|]. unfold mean_over_unit. pose proof (integral_const 0 0 1) as I. replace (0 * (1 - 0)) with 0 in I by ring. exact I.
Qed.

Lemma post_mean : forall post t, 0 < t < 1 -> (forall ct, In ct post -> 0 < fst ct) -> mean_units (length post) (fun us => ind (all_behind post t us)) (pw t (csum post)).
Proof.
  induction post as [|ct post IH]; intros t Ht Hc; cbn [length mean_units].
  - cbn. unfold csum. rewrite sum_nil, pw_pos, Rpower_O by lra. reflexivity.
  - exists (fun u => if behind ct u t then pw t (csum post) else 0). split.
    + intros u Hu. cbn [all_behind]. destruct (behind ct u t); cbn [andb]; [apply IH; auto; intros; apply Hc; now right|]. now apply zero_mean.
    + unfold csum. rewrite sum_cons. fold (csum post). rewrite <- pw_mult, Rmult_comm. assert (0 < fst ct) by (apply Hc; now left). apply cut_mean; [split; [apply pw_ge0|apply pw_le1; lra]| |]; intros u Hu; [rewrite behind_lt by lra|rewrite behind_gt by lra]; reflexivity.
Qed.

Definition rest (M C : R) : R := (1 - pw M (C + 1)) / (C + 1).

Lemma rest_step : forall M C c, 0 <= M < 1 -> 0 <= C -> 0 < c -> mean_over_unit (fun u => rest (Rmax M (pw u (/ c))) C) (rest M (C + c)).
Proof.
  intros M C c HM HC Hc. set (m := pw M c). assert (Hm : 0 <= m <= 1) by (split; [apply pw_ge0|apply pw_le1; lra]). assert (Hi : 0 < / c) by now apply Rinv_0_lt_compat.
  assert (E : M = pw m (/ c)) by (unfold m; rewrite pw_inv; lra).
  assert (I1 : integral (fun u => rest (Rmax M (pw u (/ c))) C) 0 m (rest M C * (m - 0))).
  { apply (@integral_ext (fun _ => rest M C)); [lra| |apply integral_const]. intros u Hu. rewrite Rmax_left; auto. rewrite E. left. apply pw_lt; lra. }
  assert (I2 : integral (fun u => rest (Rmax M (pw u (/ c))) C) m 1 (/ (C + 1) * (1 - m) + - / (C + 1) * ((pw 1 ((C + 1) / c + 1) - pw m ((C + 1) / c + 1)) / ((C + 1) / c + 1)))).
  { apply (@integral_ext (fun u => / (C + 1) + - / (C + 1) * pw u ((C + 1) / c))); [lra| |].
    - intros u Hu. rewrite Rmax_right by (rewrite E; left; apply pw_lt; lra). unfold rest. rewrite pw_pw. replace (/ c * (C + 1)) with ((C + 1) / c) by (unfold Rdiv; ring). field. lra.
    - apply integral_lin; [apply integral_const|]. apply integral_pw; [left; apply Rdiv_lt_0_compat; lra|lra]. }
  pose proof (integral_chasles I1 I2) as I. unfold mean_over_unit. replace (rest M (C + c)) with (rest M C * (m - 0) + (/ (C + 1) * (1 - m) + - / (C + 1) * ((pw 1 ((C + 1) / c + 1) - pw m ((C + 1) / c + 1)) / ((C + 1) / c + 1)))); [exact I|].
  unfold rest. rewrite pw_1. unfold m. rewrite pw_pw. replace (c * ((C + 1) / c + 1)) with (C + c + 1) by (field; lra). replace (C + c + 1) with (c + (C + 1)) by ring. rewrite <- (pw_mult M c (C + 1)). generalize (pw M c) (pw M (C + 1)). intros x y. field. repeat split; lra.
Qed.

Lemma pre_mean : forall post, (forall ct, In ct post -> 0 < fst ct) -> forall pre cond M, (forall ct, In ct pre -> 0 < fst ct) -> 0 <= M < 1 ->
  (forall t, M < t < 1 -> cond t = true) -> (forall t, 0 < t < M -> cond t = false) ->
  mean_units (length pre + S (length post)) (fun us => ind (wins pre post cond us)) (rest M (csum post + csum pre)).
Proof.
  intros post Hp. induction pre as [|ct pre IH]; intros cond M Hc HM C1 C2; cbn [length plus mean_units].
  - exists (fun t => if cond t then pw t (csum post) else 0). split.
    + intros t Ht. cbn [wins]. destruct (cond t); cbn [andb]; [now apply post_mean|]. now apply zero_mean.
    + replace (csum (@nil (R * bool))) with 0 by (unfold csum; now rewrite sum_nil). rewrite Rplus_0_r. unfold mean_over_unit. replace (rest M (csum post)) with (0 * (M - 0) + (pw 1 (csum post + 1) - pw M (csum post + 1)) / (csum post + 1)) by (unfold rest; rewrite pw_1; ring).
      apply (@integral_chasles _ 0 M 1).
      * apply (@integral_ext (fun _ => 0)); [lra|intros x Hx; rewrite C2 by lra; reflexivity|apply integral_const].
      * apply (@integral_ext (fun t => pw t (csum post))); [lra|intros x Hx; rewrite C1 by lra; reflexivity|]. apply integral_pw; [now apply csum_ge0|lra].
  - assert (Hct : 0 < fst ct) by (apply Hc; now left). assert (Hi : 0 < / fst ct) by now apply Rinv_0_lt_compat. exists (fun u => rest (Rmax M (pw u (/ fst ct))) (csum post + csum pre)). split.
    + intros u Hu. cbn [wins]. assert (P1 : 0 < pw u (/ fst ct) < 1) by (split; [rewrite <- (@pw_neg 0 (/ fst ct)) by lra; apply pw_lt; lra|apply pw_lt1; lra]). assert (PI : pw (pw u (/ fst ct)) (fst ct) = u). { rewrite <- (Rinv_inv (fst ct)) at 2. apply pw_inv; lra. }
      apply IH; [intros; apply Hc; now right| | |].
      * split; [eapply Rle_trans; [|apply Rmax_l]; lra|]. apply Rmax_lub_lt; lra.
      * intros t Ht. pose proof (Rmax_l M (pw u (/ fst ct))). pose proof (Rmax_r M (pw u (/ fst ct))). rewrite C1 by lra. rewrite behind_lt; [reflexivity|]. rewrite <- PI at 1. apply pw_lt; lra.
      * intros t Ht. destruct (Rlt_dec t M) as [L|L]; [rewrite C2 by lra; reflexivity|]. rewrite (behind_gt ct); [apply andb_false_r|]. rewrite <- PI at 1. apply pw_lt; auto; [lra|]. unfold Rmax in Ht. destruct (Rle_dec M (pw u (/ fst ct))); lra.
    + replace (csum (ct :: pre)) with (fst ct + csum pre) by (unfold csum; now rewrite sum_cons). replace (csum post + (fst ct + csum pre)) with (csum post + csum pre + fst ct) by ring. apply rest_step; auto.
      pose proof (csum_ge0 _ Hp). assert (0 <= csum pre) by (apply csum_ge0; intros; apply Hc; now right). lra.
Qed.

Lemma race_mean : forall pre post, (forall ct, In ct (pre ++ post) -> 0 < fst ct) ->
  mean_units (length pre + S (length post)) (fun us => ind (wins pre post (fun _ => true) us)) (/ (1 + csum pre + csum post)).
Proof.
  intros pre post H. replace (/ (1 + csum pre + csum post)) with (rest 0 (csum post + csum pre)).
  - apply pre_mean; auto; try lra; intros; try (apply H; apply in_or_app; auto). lra.
  - unfold rest. rewrite pw_neg by lra. assert (0 <= csum pre) by (apply csum_ge0; intros; apply H, in_or_app; auto). assert (0 <= csum post) by (apply csum_ge0; intros; apply H, in_or_app; auto). field; lra.
Qed.
