From Coq Require Import List Lia Bool Arith Reals Lra.
From Verif Require Import PyCommon CommonProofs UtilsModel UtilsSpec UtilsProofs2 UtilsProofs3 WrappersProofs DistModel DistSpec DistProofs DistProofs2 DistProofs3 LossModel LossSpec LossProofs QModel QProofs QProps TDModel TDSpec TDProofs TDProofs2.
Import ListNotations.
Set Implicit Arguments.
Local Open Scope R_scope.

(** * Clipped double q-learning with target policies *)
Lemma clipped_pairs_pi_ok : forall (St : Type) D acts (qs : list ((St -> list R -> R) * (R -> R))) S,
  clipped_pairs_pi D acts (map (fun q => (Type1 (fst q), snd q)) qs) S = Ok (concat (map (fun pi => map (fun q => (map (fun s => snd q (fst q s (pi s))) S, map pi S)) qs) acts)).
Proof.
  intros St D acts qs S. unfold clipped_pairs_pi. erewrite collect_ok; [reflexivity|]. intros pi _. cbn beta. rewrite (@collect_ok _ _ _ (fun q => (map (snd q) (map (fun s => match fst q with Type1 f => f s (pi s) | Type2 _ => 0 end) S), map pi S))).
  - rewrite map_map. f_equal. apply map_ext. intros q. cbn [fst snd]. now rewrite map_map.
  - intros q Hq. apply in_map_iff in Hq. destruct Hq as ((f & g) & <- & _). cbn [fst snd]. unfold eval1. cbn [function_type1]. rewrite vmap2_ok by (now rewrite map_length). cbn [bind]. now rewrite (map_combine_self pi (fun xy => f (fst xy) (snd xy))).
Qed.

(** * Gradients *)
Definition repl (i : nat) (t : R) (x : list R) : list R := firstn i x ++ t :: skipn (S i) x.
Lemma repl_length : forall i t x, (i < length x)%nat -> length (repl i t x) = length x.
Proof. intros i t x H. unfold repl. rewrite app_length, firstn_length. cbn [length]. rewrite skipn_length. lia. Qed.
Lemma nth_repl : forall i t x k, (i < length x)%nat -> nth k (repl i t x) 0 = if Nat.eqb k i then t else nth k x 0.
Proof.
  intros i t x k H. unfold repl. assert (L : length (firstn i x) = i) by (rewrite firstn_length; lia). destruct (lt_eq_lt_dec k i) as [[C|C]|C].
  - rewrite app_nth1 by lia. destruct (Nat.eqb_spec k i); [lia|]. assert (G : forall i k (x : list R), (k < i)%nat -> nth k (firstn i x) 0 = nth k x 0). { clear. induction i as [|i IH]; intros k x C; [lia|]. destruct x; [now destruct k|]. destruct k; cbn; auto. apply IH. lia. }
    now apply G.
  - subst k. rewrite app_nth2, L, Nat.sub_diag by lia. now rewrite Nat.eqb_refl.
  - rewrite app_nth2 by lia. rewrite L. destruct (Nat.eqb_spec k i); [lia|]. replace (k - i)%nat with (S (k - S i)) by lia. cbn [nth]. assert (G : forall i k (x : list R), nth k (skipn i x) 0 = nth (i + k) x 0). { clear. induction i as [|i IH]; intros k x; auto. destruct x; [now destruct k|]. cbn. apply IH. }
    rewrite G. f_equal. lia.
Qed.
Lemma total_single : forall n i (h : nat -> R), (i < n)%nat -> total (map (fun k => if Nat.eqb k i then h k else 0) (seq 0 n)) = h i.
Proof. intros n i h H. rewrite (@total_pick _ n i H); [now rewrite Nat.eqb_refl|]. intros k Hk. destruct (Nat.eqb_spec k i); congruence. Qed.
Section Gr.
Variables (l l' : R -> R -> R).
Hypothesis Dl : forall y h, derivable_pt_lim (l y) h (l' y h).
Lemma gradient_of_mean : forall y w x, length y = length x -> x <> [] ->
  gradient (fun h => weighted_mean (fun k => l (nth k y 0) (nth k h 0)) (fun k => nth k w 0) (length x)) x (map (fun k => nth k w 0 * l' (nth k y 0) (nth k x 0) / INR (length x)) (seq 0 (length x))).
Proof.
  intros y w x E NE. assert (P : 0 < INR (length x)) by (apply lt_0_INR; destruct x; [congruence|cbn; lia]). split; [now rewrite map_length, seq_length|]. intros i Hi. rewrite (@nth_map_any _ _ _ (seq 0 (length x)) i 0 0%nat) by (now rewrite seq_length). rewrite seq_nth by auto. cbn [Nat.add].
  unfold weighted_mean, Rdiv. fold (repl i). rewrite (Rmult_comm _ (/ INR (length x))).
  apply (derivable_pt_lim_ext (fun t => / INR (length x) * total (map (fun k => nth k w 0 * l (nth k y 0) (if Nat.eqb k i then t else nth k x 0)) (seq 0 (length x))))).
  { intros t. rewrite (Rmult_comm _ (/ INR (length x))). f_equal. apply total_ext. intros k _. change (firstn i x ++ t :: skipn (S i) x) with (repl i t x). now rewrite nth_repl. }
  apply derivable_pt_lim_scal. pose proof (@deriv_total nat (fun k t => nth k w 0 * l (nth k y 0) (if Nat.eqb k i then t else nth k x 0)) (fun k t => if Nat.eqb k i then nth k w 0 * l' (nth k y 0) t else 0) (nth i x 0) (seq 0 (length x))) as D. cbv beta in D.
  rewrite (@total_single (length x) i (fun k => nth k w 0 * l' (nth k y 0) (nth i x 0)) Hi) in D. apply D. intros k _. cbn beta. destruct (Nat.eqb_spec k i) as [->|N]; [apply derivable_pt_lim_scal; apply Dl|apply derivable_pt_lim_const].
Qed.
Lemma gradient_unique : forall F x g g', gradient F x g -> gradient F x g' -> g = g'.
Proof. intros F x g g' [L H] [L' H']. apply (@list_eq_nth _ 0); [lia|]. intros i Hi. rewrite L in Hi. apply (uniqueness_limite _ _ _ _ (H i Hi) (H' i Hi)). Qed.
Lemma gradient_ext : forall F F' x g, (forall h, length h = length x -> F h = F' h) -> gradient F x g -> gradient F' x g.
Proof. intros F F' x g E [L H]. split; auto. intros i Hi. apply (derivable_pt_lim_ext (fun t => F (repl i t x))); [|now apply H]. intros t. apply E. apply repl_length; auto. Qed.
(** Chain rule: predictions depending on one parameter. *)
Lemma chain_mean : forall y w (Qf : nat -> R -> R) (dQ : nat -> R) th n, (1 <= n)%nat -> (forall k, (k < n)%nat -> derivable_pt_lim (Qf k) th (dQ k)) ->
  derivable_pt_lim (fun t => weighted_mean (fun k => l (nth k y 0) (Qf k t)) (fun k => nth k w 0) n) th (total (map (fun k => nth k w 0 * l' (nth k y 0) (Qf k th) * dQ k) (seq 0 n)) / INR n).
Proof.
  intros y w Qf dQ th n Hn H. unfold weighted_mean, Rdiv. rewrite (Rmult_comm _ (/ INR n)). apply (derivable_pt_lim_ext (fun t => / INR n * total (map (fun k => nth k w 0 * l (nth k y 0) (Qf k t)) (seq 0 n)))); [intros; lra|].
  apply derivable_pt_lim_scal. apply (@deriv_total nat (fun k t => nth k w 0 * l (nth k y 0) (Qf k t)) (fun k t => nth k w 0 * l' (nth k y 0) (Qf k t) * dQ k)). intros k Hk. apply in_seq in Hk. rewrite Rmult_assoc. apply derivable_pt_lim_scal.
  apply (derivable_pt_lim_comp (Qf k) (l (nth k y 0))); [apply H; lia|apply Dl].
Qed.
End Gr.
Lemma mse_deriv : forall y h, derivable_pt_lim (mse1 y) h (h - y).
Proof.
  intros y h. apply quad_deriv with (K := 1); [lra|]. intros t. unfold mse1, Rsqr. match goal with |- Rabs ?e <= _ => replace e with (t * t / 2) by lra end. rewrite Rabs_right by nra. nra.
Qed.
Lemma huber_deriv : forall d y h, 0 < d -> derivable_pt_lim (huber1 d y) h (clip (h - y) (- d) d).
Proof.
  intros d y h Hd. apply (derivable_pt_lim_ext (fun h => huber_formula d (h - y))); [intros; now rewrite huber_eq|]. apply quad_deriv with (K := 1/2); [lra|]. intros t. pose proof (@hf_smooth d (h - y) t Hd) as S. replace (h + t - y) with (h - y + t) by lra.
  rewrite Rabs_right by lra. lra.
Qed.
(** * The TD error *)
Lemma zipw_nth_map : forall (h : R -> R -> R) a b, length a = length b -> zipw h a b = map (fun k => h (nth k a 0) (nth k b 0)) (seq 0 (length a)).
Proof. intros h a. induction a as [|x a IH]; intros [|y b] E; cbn in E; try lia; auto. cbn [zipw length seq map nth]. f_equal. rewrite <- seq_shift, map_map. cbn [nth]. apply IH. lia. Qed.
Lemma mean_as_weighted : forall l y x, length y = length x -> mean (zipw l y x) = weighted_mean (fun k => l (nth k y 0) (nth k x 0)) (fun k => nth k (repeat 1 (length x)) 0) (length x).
Proof.
  intros l y x E. unfold mean, weighted_mean. rewrite zipw_length by auto. rewrite zipw_nth_map by auto. rewrite E. f_equal. apply total_ext. intros k Hk. apply in_seq in Hk. rewrite (nth_indep (repeat 1 (length x)) 0 1) by (rewrite repeat_length; lia). rewrite nth_repeat. lra.
Qed.
Section TdE.
Variables (l l' : R -> R -> R).
Hypothesis Dl : forall y h, derivable_pt_lim (l y) h (l' y h).
Lemma loss_gradient : forall y x, length y = length x -> x <> [] -> gradient (fun h => loss_value (zip_loss l y h None)) x (map (fun k => l' (nth k y 0) (nth k x 0) / INR (length x)) (seq 0 (length x))).
Proof.
  intros y x E NE. pose proof (@gradient_of_mean l l' Dl y (repeat 1 (length x)) x E NE) as G.
  replace (map (fun k => l' (nth k y 0) (nth k x 0) / INR (length x)) (seq 0 (length x))) with (map (fun k => nth k (repeat 1 (length x)) 0 * l' (nth k y 0) (nth k x 0) / INR (length x)) (seq 0 (length x))).
  - eapply gradient_ext; [|exact G]. intros h Lh. assert (Ne : y <> []) by (intros ->; destruct x; cbn in E; congruence). rewrite zip_loss_none by (auto; lia). cbn [loss_value]. rewrite mean_as_weighted by lia. now rewrite Lh.
  - apply map_ext_in. intros k Hk. apply in_seq in Hk. rewrite (nth_indep (repeat 1 (length x)) 0 1) by (rewrite repeat_length; lia). rewrite nth_repeat. f_equal. lra.
Qed.
Lemma td_error_is : forall y x g, length y = length x -> x <> [] -> gradient (fun h => loss_value (zip_loss l y h None)) x g -> td_error g x = map (fun k => - l' (nth k y 0) (nth k x 0)) (seq 0 (length x)).
Proof.
  intros y x g E NE G. rewrite (gradient_unique G (@loss_gradient y x E NE)). unfold td_error. rewrite map_map. apply map_ext. intros k. field. apply not_0_INR. destruct x; [congruence|cbn; lia].
Qed.
Lemma weighted_chain : forall y w (Qf : nat -> R -> R) dQ th n, (1 <= n)%nat -> length y = n -> length w = n -> (forall k, (k < n)%nat -> derivable_pt_lim (Qf k) th (dQ k)) ->
  derivable_pt_lim (fun t => loss_value (zip_loss l y (map (fun k => Qf k t) (seq 0 n)) (Some w))) th (total (map (fun k => nth k w 0 * l' (nth k y 0) (Qf k th) * dQ k) (seq 0 n)) / INR n).
Proof.
  intros y w Qf dQ th n Hn Ey Ew D. eapply derivable_pt_lim_ext; [|exact (@chain_mean l l' Dl y w Qf dQ th n Hn D)]. intros t. cbn beta. assert (NE : y <> []) by (intros ->; cbn in Ey; lia). rewrite zip_loss_some by (rewrite ?map_length, ?seq_length; auto; lia). cbn [loss_value]. rewrite Ey. unfold weighted_mean. f_equal. apply total_ext.
  intros k Hk. apply in_seq in Hk. rewrite (@nth_map_any _ _ _ (seq 0 n) k 0 0%nat) by (rewrite seq_length; lia). now rewrite seq_nth by lia.
Qed.
End TdE.
Lemma clip_w_nth : forall W k, (k < length W)%nat -> nth k (clip_w W) 0 = clip (nth k W 0) (1/10) 10.
Proof. intros W k H. unfold clip_w. now rewrite (@nth_map_any _ _ _ W k 0 0). Qed.
Lemma clip_w_bounds : forall W k, (k < length W)%nat -> 1/10 <= nth k (clip_w W) 0 <= 10.
Proof. intros W k H. rewrite clip_w_nth by auto. unfold clip. split; [apply Rmin_glb; [apply Rmax_r|lra]|apply Rmin_r]. Qed.
Lemma neg_clip : forall e d, 0 < d -> - clip e (- d) d = clip (- e) (- d) d.
Proof.
  intros e d H. destruct (Rle_dec e (- d)) as [A|A]; [rewrite (@clip_low e (- d) d), (@clip_high (- e) (- d) d) by lra; lra|]. destruct (Rle_dec d e) as [B|B]; [rewrite (@clip_high e (- d) d), (@clip_low (- e) (- d) d) by lra; lra|]. rewrite (@clip_in e (- d) d), (@clip_in (- e) (- d) d) by lra. lra.
Qed.
