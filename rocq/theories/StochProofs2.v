(** Lemmas for the loss of ModelUpdater. *)
From Coq Require Import List Lia Bool Arith Reals Lra Permutation.
From Verif Require Import PyCommon CommonProofs UtilsModel UtilsSpec UtilsProofs2 UtilsProofs3 WrappersProofs DistModel DistSpec DistProofs DistProofs2 DistProofs3 LossModel LossSpec LossProofs QModel QProofs TDModel TDSpec TDProofs TDProofs2 TDProofs3 PolicySpec PolicyProofs StochModel StochSpec StochProofs.
Import ListNotations.
Set Implicit Arguments.
Local Open Scope R_scope.

(** An elementwise loss that measures the error. *)
Definition error_loss (l : R -> R -> R) (L : R -> R) : Prop := (forall y h, l y h = L (h - y)) /\ forall e, 0 <= L e /\ (L e = 0 <-> e = 0).
Lemma mse_error : error_loss mse1 (fun e => e * e / 2).
Proof. split; [intros; unfold mse1, Rsqr; lra|]. intros e. split; [nra|]. split; intros H; [nra|subst; lra]. Qed.
Lemma huber_error : forall d, 0 < d -> error_loss (huber1 d) (huber_formula d).
Proof. intros d Hd. split; [intros; now apply huber_eq|]. intros e. now apply hf_nonneg. Qed.

Lemma wmean_nonneg : forall g w n, (1 <= n)%nat -> (forall k, (k < n)%nat -> 0 < w k /\ 0 <= g k) -> 0 <= weighted_mean g w n /\ (weighted_mean g w n = 0 <-> forall k, (k < n)%nat -> g k = 0).
Proof.
  intros g w n Hn H. unfold weighted_mean. assert (N : 0 < INR n) by (apply lt_0_INR; lia). assert (I : 0 < / INR n) by now apply Rinv_0_lt_compat.
  assert (Z : total (map (fun _ : nat => 0) (seq 0 n)) = 0) by (rewrite (@total_const nat); lra).
  assert (P : 0 <= total (map (fun i => w i * g i) (seq 0 n))) by (rewrite <- Z; apply total_le; intros k Hk; apply in_seq in Hk; destruct (H k); [lia|nra]).
  split; [unfold Rdiv; nra|]. split.
  - intros E k Hk. assert (T : total (map (fun i => w i * g i) (seq 0 n)) = 0) by (unfold Rdiv in E; apply Rmult_integral in E; lra).
    assert (D : (fun _ : nat => 0) k = w k * g k). { apply (@total_le_eq _ (fun _ => 0) (fun i => w i * g i) (seq 0 n)); [|lra|apply in_seq; lia]. intros j Hj. apply in_seq in Hj. destruct (H j); [lia|nra]. }
    cbn in D. destruct (H k Hk). assert (w k * g k = 0) by lra. apply Rmult_integral in H2. lra.
  - intros E. rewrite (@total_ext _ _ (fun _ => 0)) by (intros k Hk; apply in_seq in Hk; rewrite E by lia; lra). rewrite Z. lra.
Qed.
Lemma clip_w_length : forall W, length (clip_w W) = length W. Proof. intros. apply map_length. Qed.
Lemma reward_loss : forall l L f Rn p W n, error_loss l L -> (1 <= n)%nat -> length Rn = n -> length p = n -> length W = n ->
  zip_loss l (map f Rn) p (Some (clip_w W)) = Ok (Some (weighted_mean (fun k => L (nth k p 0 - f (nth k Rn 0))) (imp W) n)).
Proof.
  intros l L f Rn p W n [El _] Hn LR Lp LW. rewrite zip_loss_some; [|now rewrite map_length, LR|now rewrite clip_w_length, map_length, LR|intros C; apply map_eq_nil in C; subst; cbn in *; lia].
  do 2 f_equal. rewrite map_length, LR. unfold weighted_mean. f_equal. apply total_ext. intros k Hk. apply in_seq in Hk. rewrite imp_clip by lia. f_equal. rewrite El, (@nth_map_any _ _ _ Rn k 0 0) by lia. reflexivity.
Qed.
(** Matrices. *)
Lemma zip_rows_ok : forall l Y P d, length Y = length P -> (forall y, In y Y -> length y = d) -> (forall p, In p P -> length p = d) -> zip_rows l Y P = Ok (map (fun yp => zipw l (fst yp) (snd yp)) (combine Y P)).
Proof.
  intros l Y. induction Y as [|y Y IH]; intros [|p P] d E HY HP; cbn in E; try lia; auto. cbn [zip_rows combine map fst snd]. rewrite (HY y), (HP p), Nat.eqb_refl by now left. rewrite (@IH P d); [reflexivity|lia| |]; intros; [apply HY|apply HP]; now right.
Qed.
Lemma mean_w_rows : forall L w n d, (1 <= n)%nat -> (1 <= d)%nat -> length L = n -> length w = n -> (forall x, In x L -> length x = d) ->
  mean_w L (Some w) = Ok (Some (weighted_mean (fun b => mean (nth b L [])) (fun b => nth b w 0) n)).
Proof.
  intros L w n d Hn Hd LL Lw Hx. unfold mean_w. rewrite LL, Lw, Nat.eqb_refl. f_equal. set (M := concat (map (fun wl : R * list R => map (Rmult (fst wl)) (snd wl)) (combine w L))).
  assert (LM : length M = (n * d)%nat).
  { unfold M. rewrite (@length_concat_const _ _ d); [rewrite map_length, combine_length; lia|]. intros x Ix. apply in_map_iff in Ix. destruct Ix as ([a y] & <- & I). rewrite map_length. apply in_combine_r in I. auto. }
  assert (N : 0 < INR n) by (apply lt_0_INR; lia). assert (D : 0 < INR d) by (apply lt_0_INR; lia).
  unfold jmean. destruct M as [|m0 M0] eqn:EM; [cbn in LM; nia|]. rewrite <- EM in *. f_equal. rewrite LM, mult_INR, rsum_total. unfold M. rewrite total_concat, map_map. unfold weighted_mean.
  assert (T : total (map (fun x : R * list R => total (map (Rmult (fst x)) (snd x))) (combine w L)) = INR d * total (map (fun i => nth i w 0 * mean (nth i L [])) (seq 0 n))).
  { clear EM LM M m0 M0 N. rewrite <- (@total_scal nat). revert w n LL Lw Hn. induction L as [|x L IH]; intros [|a w] [|n] LL Lw Hn; cbn in LL, Lw; try lia. cbn [combine map seq fst snd]. rewrite !total_cons, <- seq_shift, map_map. f_equal.
    - cbn [nth]. unfold mean. rewrite (Hx x) by now left. rewrite (@total_ext _ (Rmult a) (fun y => a * y)) by auto. rewrite (@total_scal R), map_id. field. lra.
    - destruct n as [|n]; [destruct L; [|cbn in LL; lia]; destruct w; [reflexivity|cbn in Lw; lia]|]. rewrite (IH (fun x H => Hx x (or_intror H)) w (S n)); try lia. apply total_ext. intros i _. reflexivity. }
  rewrite T. field. lra.
Qed.
Lemma mean_zero : forall (g : nat -> R) d, (1 <= d)%nat -> (forall j, (j < d)%nat -> 0 <= g j) -> 0 <= mean (map g (seq 0 d)) /\ (mean (map g (seq 0 d)) = 0 <-> forall j, (j < d)%nat -> g j = 0).
Proof.
  intros g d Hd H. pose proof (@wmean_nonneg g (fun _ => 1) d Hd) as W. unfold weighted_mean in W. rewrite (@total_ext _ (fun i => 1 * g i) g) in W by (intros; lra). unfold mean. rewrite map_length, seq_length. apply W. intros k Hk. split; [lra|auto].
Qed.
Lemma zipw_seq : forall l a b d, length a = d -> length b = d -> zipw l a b = map (fun j => l (nth j a 0) (nth j b 0)) (seq 0 d).
Proof.
  intros l a b d La Lb. apply (@list_eq_nth _ 0); [rewrite zipw_length, map_length, seq_length; lia|]. intros k Hk. rewrite zipw_length in Hk by lia. rewrite (@nth_zipw l a b k 0 0 0) by lia. rewrite (@nth_map_any _ _ _ (seq 0 d) k 0 0%nat) by (rewrite seq_length; lia). now rewrite seq_nth by lia.
Qed.
Lemma transition_loss : forall l L Y P W n d, error_loss l L -> (1 <= n)%nat -> (1 <= d)%nat -> length Y = n -> length P = n -> length W = n -> (forall y, In y Y -> length y = d) -> (forall p, In p P -> length p = d) ->
  loss_2_2 l Y P (clip_w W) = Ok (Some (weighted_mean (fun b => mean (map (fun j => L (nth j (nth b P []) 0 - nth j (nth b Y []) 0)) (seq 0 d))) (imp W) n)).
Proof.
  intros l L Y P W n d [El _] Hn Hd LY LP LW HY HP. unfold loss_2_2. rewrite (@zip_rows_ok l Y P d) by (auto; lia). cbn [bind].
  rewrite (@mean_w_rows _ (clip_w W) n d); auto; [|rewrite map_length, combine_length; lia|now rewrite clip_w_length|].
  - do 2 f_equal. unfold weighted_mean. f_equal. apply total_ext. intros b Hb. apply in_seq in Hb. rewrite imp_clip by lia. f_equal. f_equal. rewrite (@nth_map_any _ _ _ (combine Y P) b [] ([], [])) by (rewrite combine_length; lia). rewrite combine_nth by lia. cbn [fst snd]. rewrite (@zipw_seq l _ _ d); [apply map_ext; intros; apply El| |]; [apply HY|apply HP]; apply nth_In; lia.
  - intros x Hx. apply in_map_iff in Hx. destruct Hx as ([y p] & <- & I). cbn [fst snd]. rewrite zipw_length; rewrite (HY y), ?(HP p); auto; eauto using in_combine_l, in_combine_r.
Qed.

(** ** Stochastic reward functions *)
Lemma bcast_bad : forall l y p, length y <> length p -> (2 <= length y)%nat -> (2 <= length p)%nat -> bcast_row l y p = Err EValue.
Proof. intros l y p E Hy Hp. unfold bcast_row. destruct (Nat.eqb_spec (length y) (length p)); [lia|]. destruct y as [|? [|]]; cbn in Hy; try lia. destruct p as [|? [|]]; cbn in Hp; try lia. reflexivity. Qed.
Lemma Permutation_total : forall a b, Permutation a b -> total a = total b.
Proof. intros a b P. induction P; cbn; try lra. unfold total in *. cbn. lra. Qed.
Lemma one_hot_total : forall (h : R -> R) n j, (j < n)%nat -> total (map h (one_hot n j)) = INR n * h 0 + (h 1 - h 0).
Proof.
  intros h n j Hj. unfold one_hot. rewrite map_map. rewrite (@total_ext _ _ (fun k => h 0 + (if Nat.eqb k j then h 1 - h 0 else 0))) by (intros k _; destruct (Nat.eqb k j); lra).
  rewrite (@total_plus nat), (@total_const nat), seq_length. f_equal. rewrite (@total_pick (fun k => if Nat.eqb k j then h 1 - h 0 else 0) n j Hj); [now rewrite Nat.eqb_refl|]. intros k Hk. destruct (Nat.eqb_spec k j); [lia|auto].
Qed.
Lemma Permutation_concat_map : forall (A B : Type) (g : A -> list B) a b, Permutation a b -> Permutation (concat (map g a)) (concat (map g b)).
Proof.
  intros A B g a b P. induction P; cbn [map concat]; auto; [now apply Permutation_app_head| |now apply perm_trans with (concat (map g l'))].
  rewrite !app_assoc. apply Permutation_app_tail, Permutation_app_comm.
Qed.
Lemma collect_bcast : forall l y X n, length y = n -> (forall x, In x X -> length x = n) -> collect (bcast_row l y) X = Ok (map (zipw l y) X).
Proof. intros l y X n Ly HX. apply collect_all. intros x Ix. unfold bcast_row. now rewrite Ly, (HX x Ix), Nat.eqb_refl. Qed.
Lemma mean_w_perm : forall c L L', Permutation L L' -> mean_w L (Some (repeat c (length L))) = mean_w L' (Some (repeat c (length L'))).
Proof.
  intros c L L' P. unfold mean_w. rewrite !repeat_length, !Nat.eqb_refl. f_equal.
  rewrite !combine_repeat, !map_map. cbn [fst snd].
  assert (Q := Permutation_concat_map (fun x : list R => map (Rmult c) x) P). pose proof (Permutation_total Q) as T. pose proof (Permutation_length Q) as LL. unfold jmean.
  destruct (concat (map (fun x => map (Rmult c) x) L)) as [|u U]; destruct (concat (map (fun x => map (Rmult c) x) L')) as [|u' U']; auto; try (cbn in LL; lia). now rewrite !rsum_total, T, LL.
Qed.

(** ** Sampled predictions *)
Lemma law_lin : forall law a b c, standard_noise law -> law_expect law (fun e => a + b * e + c * (e * e)) = a + c.
Proof.
  intros law a b c (_ & E0 & E1 & E2). unfold law_expect in *. rewrite (@total_ext _ _ (fun pe => a * (fst pe * 1) + (b * (fst pe * snd pe) + c * (fst pe * (snd pe * snd pe))))) by (intros; lra).
  rewrite !(@total_plus (R * R)), !(@total_scal (R * R)), E0, E1, E2. lra.
Qed.
Lemma law_ext : forall law g h, (forall e, g e = h e) -> law_expect law g = law_expect law h.
Proof. intros law g h E. unfold law_expect. apply total_ext. intros pe _. now rewrite E. Qed.

Lemma noisy_loss : forall D mu lv y w f e, nd_dim D = 1%nat -> let s := exp (clip lv (nd_clo D) (nd_chi D) / 2) in
  n_sample D (mkN [mu] [lv]) [e] = Ok [mu + s * e] /\ mu_loss mse1 f None [] [[y]] [w] (MStochTransition [[mu + s * e]]) = Ok (Some (imp [w] 0 * ((mu + s * e - y) * (mu + s * e - y) / 2))).
Proof.
  intros D mu lv y w f e HD s. split.
  - unfold n_sample, check_logvar, check_n. rewrite HD. reflexivity.
  - unfold mu_loss. rewrite (@transition_loss mse1 (fun e => e * e / 2) [[y]] [[mu + s * e]] [w] 1 1); auto using mse_error.
    + cbn [bind]. do 2 f_equal. unfold weighted_mean, mean. cbn [seq map nth length]. rewrite !total_cons. change (total []) with 0. change (INR 1) with 1. lra.
    + intros z [<-|[]]; auto.
    + intros z [<-|[]]; auto.
Qed.
