From Coq Require Import List Lia Bool Arith Reals Lra.
From Verif Require Import PyCommon CommonProofs UtilsModel UtilsSpec UtilsProofs2 UtilsProofs3 WrappersProofs DistModel DistSpec DistProofs DistProofs2 DistProofs3 LossModel LossSpec LossProofs QModel QProofs QProps TDModel TDSpec TDProofs TDProofs2 TDProofs3 TDProofs4 CoreModel CoreSpec CoreProofs CoreProofs2 StochModel LearnModel LearnSpec LearnProofs LearnProofs2 LearnProofs3 MbModel MbSpec.
Import ListNotations.
Set Implicit Arguments.
Local Open Scope R_scope.

(** * Losses that are sums over cells of a table *)
Definition cell : Type := nat * R * R.   (* position, weight, target *)
Definition cpos (c : cell) : nat := fst (fst c).
Definition cwt (c : cell) : R := snd (fst c).
Definition cy (c : cell) : R := snd c.
Definition cells_loss (l : R -> R -> R) (M : R) (cs : list cell) (p : list R) : R := total (map (fun c => cwt c * l (cy c) (nth (cpos c) p 0)) cs) / M.
Definition cells_grad (l' : R -> R -> R) (M : R) (cs : list cell) (th : list R) (j : nat) : R :=
  total (map (fun c => if Nat.eqb (cpos c) j then cwt c * l' (cy c) (nth j th 0) else 0) cs) / M.
Lemma cells_gradient : forall l l' M cs th, (forall y h, derivable_pt_lim (l y) h (l' y h)) -> (forall c, In c cs -> (cpos c < length th)%nat) ->
  gradient (cells_loss l M cs) th (map (cells_grad l' M cs th) (seq 0 (length th))).
Proof.
  intros l l' M cs th D H. split; [now rewrite map_length, seq_length|]. intros k Hk. rewrite (@nth_map_any _ _ _ (seq 0 (length th)) k 0 0%nat) by (now rewrite seq_length). rewrite seq_nth by auto. cbn [Nat.add].
  unfold cells_loss, cells_grad. apply (derivable_pt_lim_ext (fun t => / M * total (map (fun c => cwt c * l (cy c) (nth (cpos c) (repl k t th) 0)) cs))); [intros; unfold Rdiv; rewrite Rmult_comm; reflexivity|].
  unfold Rdiv. rewrite (Rmult_comm _ (/ M)). apply derivable_pt_lim_scal. induction cs as [|c cs IH].
  - cbn. apply derivable_pt_lim_const.
  - cbn [map]. rewrite total_cons. apply (derivable_pt_lim_ext (fun t => cwt c * l (cy c) (nth (cpos c) (repl k t th) 0) + total (map (fun c => cwt c * l (cy c) (nth (cpos c) (repl k t th) 0)) cs))); [intros; now rewrite total_cons|].
    apply derivable_pt_lim_plus; [|apply IH; intros; apply H; now right]. apply (derivable_pt_lim_ext (fun t => cwt c * (if Nat.eqb (cpos c) k then l (cy c) t else l (cy c) (nth (cpos c) th 0)))).
    { intros t. rewrite nth_repl by auto. destruct (Nat.eqb (cpos c) k); reflexivity. }
    destruct (Nat.eqb_spec (cpos c) k).
    + apply derivable_pt_lim_scal. apply D.
    + apply derivable_pt_lim_const.
Qed.

(** * Evaluation of the networks *)
Lemma kron_pick : forall nS nA th s a, length th = (nS * nA)%nat -> (s < nS)%nat -> (a < nA)%nat -> dot (kron (one_hot nS s) (one_hot nA a)) th = nth (s * nA + a) th 0.
Proof.
  intros nS nA th s a L Hs Ha. rewrite dot_kron by (rewrite !one_hot_length; lia). rewrite !one_hot_length. rewrite (@total_pick _ nS s Hs).
  - rewrite nth_one_hot by auto. rewrite Nat.eqb_refl, row_eq by nia. rewrite dot_one_hot_l by (rewrite ?map_length, ?seq_length; auto). rewrite (@nth_map_any _ _ _ (seq 0 nA) a 0 0%nat) by (now rewrite seq_length). rewrite seq_nth by auto. unfold tq. cbn [Nat.add]. lra.
  - intros k Hk. destruct (Nat.lt_ge_cases k nS) as [B|B]; [rewrite nth_one_hot by auto; destruct (Nat.eqb_spec k s); [congruence|lra]|]. rewrite (nth_overflow (one_hot nS s)) by (rewrite one_hot_length; lia). lra.
Qed.
Lemma p_row : forall nS nA w s a, (s < nS)%nat -> (a < nA)%nat -> linear nS w (kron (one_hot nS s) (one_hot nA a)) = map (fun j => nth ((s * nA + a) * nS + j) w 0) (seq 0 nS).
Proof.
  intros nS nA w s a Hs Ha. unfold linear. apply map_ext. intros j. rewrite kron_length, !one_hot_length. rewrite kron_pick by (rewrite ?map_length, ?seq_length; auto). assert (X := index_lt Hs Ha). rewrite (@nth_map_any _ _ _ (seq 0 (nS * nA)) _ 0 0%nat) by (now rewrite seq_length). rewrite seq_nth by auto. reflexivity.
Qed.
Lemma r_row : forall nS nA w s a, (s < nS)%nat -> (a < nA)%nat -> nth 0 (linear 1 w (kron (one_hot nS s) (one_hot nA a))) 0 = nth (s * nA + a) w 0.
Proof.
  intros nS nA w s a Hs Ha. unfold linear. cbn [seq map nth]. rewrite kron_length, !one_hot_length. rewrite kron_pick by (rewrite ?map_length, ?seq_length; auto). assert (X := index_lt Hs Ha). rewrite (@nth_map_any _ _ _ (seq 0 (nS * nA)) _ 0 0%nat) by (now rewrite seq_length). rewrite seq_nth by auto. f_equal. lia.
Qed.
Lemma v_sum : forall w x, v_net w x = total (map (fun i => nth i x 0 * nth i w 0) (seq 0 (length x))).
Proof.
  intros w x. unfold v_net, linear. cbn [seq map nth]. rewrite dot_seq by (now rewrite map_length, seq_length). apply total_ext. intros i Hi. apply in_seq in Hi. rewrite (@nth_map_any _ _ _ (seq 0 (length x)) i 0 0%nat) by (rewrite seq_length; lia). rewrite seq_nth by lia. do 2 f_equal. lia.
Qed.
Lemma v_row : forall nS w s, (s < nS)%nat -> v_net w (one_hot nS s) = nth s w 0.
Proof.
  intros nS w s Hs. rewrite v_sum, one_hot_length. rewrite (@total_pick _ nS s Hs).
  - rewrite nth_one_hot by auto. rewrite Nat.eqb_refl. lra.
  - intros k Hk. destruct (Nat.lt_ge_cases k nS) as [B|B]; [rewrite nth_one_hot by auto; destruct (Nat.eqb_spec k s); [congruence|lra]|]. rewrite (nth_overflow (one_hot nS s)) by (rewrite one_hot_length; lia). lra.
Qed.

(** * The losses are sums over cells *)
Lemma clip_cw : forall rows, clip_w (map t_w rows) = map cw rows.
Proof. intros rows. unfold clip_w. rewrite map_map. apply map_ext. intros x. apply wclip. Qed.
Section Data.
Variables nS nA : nat.
Variable gamma : R.
Variable rows : list trans.
Variable b : fbatch nat.
Hypothesis HB : bounded nS nA rows.
Hypothesis HR : records nA gamma rows b.
Hypothesis NE : rows <> [].
Definition r_cells : list cell := map (fun x => ((t_s x * nA + t_a x)%nat, cw x, t_r x)) rows.
Definition p_cells : list cell := flat_map (fun x => map (fun j => (((t_s x * nA + t_a x) * nS + j)%nat, cw x, if Nat.eqb j (t_next x) then 1 else 0)) (seq 0 nS)) rows.
Definition v_targ (v : list R) (x : trans) : R := t_r x + (if t_done x then 0 else gamma) * nth (t_next x) v 0.
Definition v_cells (v : list R) : list cell := map (fun x => (t_s x, cw x, v_targ v x)) rows.
Let N := INR (length rows).
Lemma jmean_some : forall l : list R, l <> [] -> jmean l = Some (total l / INR (length l)).
Proof. intros [|x l] H; [congruence|]. unfold jmean. now rewrite rsum_total. Qed.
Lemma combine_map_map : forall (A B C : Type) (f : A -> B) (g : A -> C) l, combine (map f l) (map g l) = map (fun x => (f x, g x)) l.
Proof. intros A B C f g l. induction l as [|x l IH]; auto. cbn. now rewrite IH. Qed.
Lemma zipw_map_map : forall (A : Type) h (f g : A -> R) l, zipw h (map f l) (map g l) = map (fun x => h (f x) (g x)) l.
Proof. intros A h f g l. induction l as [|x l IH]; auto. cbn. now rewrite IH. Qed.
Lemma rows_loss : forall l (f g w : trans -> R), zip_loss l (map f rows) (map g rows) (Some (map w rows)) = Ok (Some (total (map (fun x => w x * l (f x) (g x)) rows) / N)).
Proof.
  intros l f g w. unfold zip_loss, mean_w. rewrite !map_length, Nat.eqb_refl, zipw_map_map, !map_length, Nat.eqb_refl. f_equal. rewrite !map_map, combine_map_map, map_map. cbn [fst snd map].
  assert (E : concat (map (fun x => [w x * l (f x) (g x)]) rows) = map (fun x => w x * l (f x) (g x)) rows) by (clear; induction rows as [|x xs IH]; auto; cbn; now rewrite IH).
  rewrite E. rewrite jmean_some by (destruct rows; [congruence|discriminate]). now rewrite map_length.
Qed.
Lemma r_loss_eq : forall l w, r_loss nS nA l b w = Ok (Some (cells_loss l N r_cells w)).
Proof.
  intros l w. destruct HR as (R1 & R2 & R3 & R4 & R5 & R6). unfold r_loss. rewrite R1, R2, R3, R4. unfold r_net, function_type1. rewrite vmap2_ok by (now rewrite !map_length). cbn [bind]. rewrite map_map, combine_map_map, map_map. cbn [fst snd].
  rewrite (map_ext_in (fun x => nth 0 (linear 1 w (kron (one_hot nS (t_s x)) (one_hot nA (t_a x)))) 0) (fun x => nth (t_s x * nA + t_a x) w 0)). 2:{ intros x Hx. destruct (HB x Hx) as (A & B & _). now apply r_row. }
  unfold mu_loss. rewrite clip_cw, map_id, rows_loss. cbn [bind]. unfold cells_loss, r_cells. rewrite map_map. reflexivity.
Qed.
Lemma v_loss_eq : forall l v w, v_loss nS (zip_loss l) v b w = Ok (Some (cells_loss l N (v_cells v) w)).
Proof.
  intros l v w. destruct HR as (R1 & R2 & R3 & R4 & R5 & R6). unfold v_loss, simple_td, finish. rewrite R4, R5, R6. rewrite map_map.
  assert (E : bootstrap (fun x => x) (fun x => x) (map t_r rows) (map (fun x => if t_done x then 0 else gamma) rows) (map (fun x => v_net v (one_hot nS (t_next x))) rows) = Ok (map (v_targ v) rows)).
  { clear -HB. induction rows as [|x xs IH]; auto. cbn [map bootstrap]. rewrite IH by (intros y Hy; apply HB; now right). cbn [bind]. unfold v_targ at 2. rewrite v_row; auto. apply HB. now left. }
  rewrite E. cbn [bind]. unfold td_loss. rewrite minus_zeros, R1, R3, map_map, clip_cw.
  rewrite (map_ext_in (fun x => v_net w (one_hot nS (t_s x))) (fun x => nth (t_s x) w 0)). 2:{ intros x Hx. destruct (HB x Hx) as (A & _). now apply v_row. }
  rewrite rows_loss. unfold cells_loss, v_cells. rewrite map_map. reflexivity.
Qed.
Hypothesis HS : (1 <= nS)%nat.
Lemma p_loss_eq : forall l w, p_loss nS nA l b w = Ok (Some (cells_loss l (N * INR nS) p_cells w)).
Proof.
  intros l w. destruct HR as (R1 & R2 & R3 & R4 & R5 & R6). unfold p_loss. rewrite R1, R2, R3, R4, R6. unfold p_net, function_type1. rewrite vmap2_ok by (now rewrite !map_length). cbn [bind]. rewrite !map_map, combine_map_map, map_map. cbn [fst snd].
  rewrite (map_ext_in (fun x => linear nS w (kron (one_hot nS (t_s x)) (one_hot nA (t_a x)))) (fun x => map (fun j => nth ((t_s x * nA + t_a x) * nS + j) w 0) (seq 0 nS))). 2:{ intros x Hx. destruct (HB x Hx) as (A & B & _). now apply p_row. }
  unfold mu_loss. rewrite clip_cw. unfold loss_2_2.
  assert (E : zip_rows l (map (fun x => one_hot nS (t_next x)) rows) (map (fun x => map (fun j => nth ((t_s x * nA + t_a x) * nS + j) w 0) (seq 0 nS)) rows) =
    Ok (map (fun x => map (fun j => l (if Nat.eqb j (t_next x) then 1 else 0) (nth ((t_s x * nA + t_a x) * nS + j) w 0)) (seq 0 nS)) rows)).
  { clear. induction rows as [|x xs IH]; auto. cbn [map zip_rows]. unfold one_hot at 1. rewrite !map_length, Nat.eqb_refl. rewrite IH. cbn [bind]. do 2 f_equal. unfold one_hot.
    generalize (seq 0 nS). intros L. induction L as [|j L' IHL]; auto. cbn [map zipw]. now rewrite IHL. }
  rewrite E. cbn [bind mean_w]. rewrite !map_length, Nat.eqb_refl. cbn [bind]. f_equal. rewrite combine_map_map, map_map. cbn [fst snd].
  assert (F : concat (map (fun x => map (Rmult (cw x)) (map (fun j => l (if Nat.eqb j (t_next x) then 1 else 0) (nth ((t_s x * nA + t_a x) * nS + j) w 0)) (seq 0 nS))) rows) = map (fun c => cwt c * l (cy c) (nth (cpos c) w 0)) p_cells).
  { unfold p_cells. rewrite flat_map_concat_map, concat_map, map_map. f_equal. apply map_ext. intros x. rewrite !map_map. apply map_ext. reflexivity. }
  rewrite F. assert (LC : length p_cells = (length rows * nS)%nat).
  { unfold p_cells. clear. induction rows as [|x xs IH]; auto. etransitivity; [apply app_length|]. cbv beta. rewrite map_length, seq_length. cbn [length Nat.mul]. f_equal. exact IH. }
  assert (1 <= length rows)%nat by (destruct rows; [congruence|cbn; lia]).
  rewrite jmean_some. 2:{ intros C. apply (f_equal (@length R)) in C. rewrite map_length, LC in C. cbn in C. nia. }
  rewrite map_length, LC, mult_INR. reflexivity.
Qed.
Lemma r_pos : forall c, In c r_cells -> (cpos c < nS * nA)%nat.
Proof. intros c H. unfold r_cells in H. apply in_map_iff in H. destruct H as (x & <- & Hx). destruct (HB x Hx) as (A & B & _). unfold cpos. cbn. now apply index_lt. Qed.
Lemma v_pos : forall v c, In c (v_cells v) -> (cpos c < nS)%nat.
Proof. intros v c H. unfold v_cells in H. apply in_map_iff in H. destruct H as (x & <- & Hx). now destruct (HB x Hx) as (A & _). Qed.
Lemma p_pos : forall c, In c p_cells -> (cpos c < nS * nA * nS)%nat.
Proof. intros c H. unfold p_cells in H. apply in_flat_map in H. destruct H as (x & Hx & H). apply in_map_iff in H. destruct H as (j & <- & Hj). apply in_seq in Hj. destruct (HB x Hx) as (A & B & _). unfold cpos. cbn. assert (X := index_lt A B). apply index_lt; lia. Qed.

(** The entries of the gradients. *)
Lemma grad_entry : forall (F : list R -> outcome (option R)) l l' M cs th g j, (forall y h, derivable_pt_lim (l y) h (l' y h)) -> (forall w, F w = Ok (Some (cells_loss l M cs w))) -> (forall c, In c cs -> (cpos c < length th)%nat) ->
  gradient (fun x => loss_value (F x)) th g -> (j < length th)%nat -> length g = length th /\ nth j g 0 = cells_grad l' M cs th j.
Proof.
  intros F l l' M cs th g j D E HP G Hj. assert (G' : gradient (cells_loss l M cs) th g) by (eapply gradient_ext; [|exact G]; intros h _; cbv beta; now rewrite E).
  rewrite (gradient_unique G' (@cells_gradient l l' M cs th D HP)). rewrite map_length, seq_length. split; auto. rewrite (@nth_map_any _ _ _ (seq 0 (length th)) j 0 0%nat) by (now rewrite seq_length). now rewrite seq_nth.
Qed.
End Data.

(** * Updates *)
Lemma gm_update : forall (loss : list R -> outcome (option R)) g lr l th v, l_opt l = sgd lr -> f_params (l_func l) = wrap th -> loss th = Ok v -> length (g th) = length th ->
  exists l', update (gm loss g) l = (l', Ok tt) /\ l_opt l' = sgd lr /\ f_params (l_func l') = wrap (map (fun i => nth i th 0 - lr * nth i (g th) 0) (seq 0 (length th))).
Proof.
  intros loss g lr l th v HO Q V L.
  destruct (@update_ok unit (gm loss g) l (wrap (map (@Some R) (g th))) (f_state (l_func l)) tt
    (wrap (map (fun o => match o with Some v => - lr * v | None => 0 end) (map (@Some R) (g th)))) (l_ostate l)) as (p & l' & E & EP & F); auto.
  - unfold gm. rewrite Q, unwrap_wrap, V. reflexivity.
  - apply wrap_no_nan.
  - rewrite HO. reflexivity.
  - rewrite Q. unfold wrap. cbn. now rewrite !map_length, L.
  - rewrite E. exists l'. split; [reflexivity|]. red in F. subst l'. cbn. split; auto.
    rewrite Q in EP. apply wrap_entrywise in EP; [|now rewrite !map_length]. rewrite EP. f_equal. apply map_ext_in. intros i Hi. apply in_seq in Hi. rewrite map_map. rewrite (@nth_map_any _ _ _ (g th) i 0 0) by lia. lra.
Qed.
