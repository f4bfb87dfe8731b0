(** Gumbel sampling: the category drawn by CategoricalDist.sample and argmax has the probabilities of the softmax. *)
From Coq Require Import List ZArith Lia Bool Reals Lra.
From Verif Require Import PyCommon CommonProofs UtilsModel UtilsSpec UtilsProofs2 UtilsProofs3 DistModel DistSpec DistProofs DistProofs2 MeanSpec MeanProofs DrawProofs2.
Import ListNotations.
Set Implicit Arguments.
Local Open Scope R_scope.

(** * argmax with fixed noise *)
Lemma first_argmax_first : forall l pre best bv, (best < length pre)%nat -> nth best pre 0 = bv -> (forall j, (j < length pre)%nat -> nth j pre 0 <= bv) -> (forall j, (j < best)%nat -> nth j pre 0 < bv) ->
  let r := first_argmax l (length pre) best bv in forall j, (j < r)%nat -> nth j (pre ++ l) 0 < nth r (pre ++ l) 0.
Proof.
  induction l as [|y l IH]; intros pre best bv H1 H2 H3 H4; cbn [first_argmax]; cbv zeta.
  - rewrite app_nil_r, H2. exact H4.
  - assert (A : pre ++ y :: l = (pre ++ [y]) ++ l) by (rewrite <- app_assoc; reflexivity). assert (L : length (pre ++ [y]) = S (length pre)) by (rewrite app_length; cbn; lia).
    destruct (Rlt_dec bv y) as [C|C]; rewrite A, <- L; apply IH; rewrite ?L; try lia.
    + rewrite app_nth2, Nat.sub_diag by lia. reflexivity.
    + intros j Hj. destruct (Nat.eq_dec j (length pre)) as [->|N]; [rewrite app_nth2, Nat.sub_diag by lia; cbn; lra|]. rewrite app_nth1 by lia. specialize (H3 j ltac:(lia)). lra.
    + intros j Hj. rewrite app_nth1 by lia. specialize (H3 j Hj). lra.
    + rewrite app_nth1 by lia. auto.
    + intros j Hj. destruct (Nat.eq_dec j (length pre)) as [->|N]; [rewrite app_nth2, Nat.sub_diag by lia; cbn; lra|]. rewrite app_nth1 by lia. apply H3. lia.
    + intros j Hj. rewrite app_nth1 by lia. auto.
Qed.
Lemma jnp_argmax_first : forall l j, (j < jnp_argmax l)%nat -> nth j l 0 < nth (jnp_argmax l) l 0.
Proof.
  intros [|x l] j; [cbn; lia|]. unfold jnp_argmax. apply (@first_argmax_first l [x] 0%nat x); cbn; auto; [|intros; lia]. intros [|k] Hk; [lra|lia].
Qed.
Lemma jnp_argmax_iff : forall l a, l <> [] -> (jnp_argmax l = a <-> (a < length l)%nat /\ forall j, (j < length l)%nat -> j <> a -> nth j l 0 < nth a l 0 \/ (nth j l 0 = nth a l 0 /\ (a < j)%nat)).
Proof.
  intros l a NE. destruct (jnp_argmax_spec NE) as [H1 H2]. pose proof (@jnp_argmax_first l) as H3. split.
  - intros <-. split; auto. intros j Hj N. specialize (H2 j Hj). destruct (Nat.lt_ge_cases j (jnp_argmax l)) as [L|L]; [left; auto|]. destruct H2; [left; auto|right; split; auto; lia].
  - intros [Ha H]. destruct (Nat.eq_dec (jnp_argmax l) a) as [|N]; auto. exfalso. specialize (H _ H1 N). specialize (H2 a Ha). destruct H as [H|[H Hl]]; [lra|]. specialize (H3 a Hl). lra.
Qed.

Definition beats (gs : list R) (a j : nat) : Prop := nth j gs 0 < nth a gs 0 \/ (nth j gs 0 = nth a gs 0 /\ (a < j)%nat).

Lemma argmax_iff : forall arr gs a, arr <> [] -> length gs = length arr -> (forall g, In g gs -> -50 < g < 50) ->
  (argmax arr gs = Ok a <-> (a < length arr)%nat /\ forall j, (j < length arr)%nat -> j <> a -> nth j arr 0 < nth a arr 0 \/ (nth j arr 0 = nth a arr 0 /\ beats gs a j)).
Proof.
  intros arr gs a HA HL HG. pose proof (@argmax_spec arr gs HA HL HG) as S. revert S. unfold argmax. destruct arr as [|x l]; [congruence|]. set (m := rmax_list x l). set (arr := x :: l) in *.
  set (lg := map (fun q => fst q + snd q) (combine (map (fun y => if Req_EM_T y m then 50 else -50) arr) gs)).
  assert (LL : length lg = length arr) by (unfold lg; rewrite map_length, combine_length, map_length, HL; lia).
  assert (LN : lg <> []) by (intros C; rewrite C in LL; discriminate).
  assert (G : forall i, (i < length arr)%nat -> -50 < nth i gs 0 < 50) by (intros i Hi; apply HG, nth_In; lia).
  assert (NV : forall i, (i < length arr)%nat -> nth i lg 0 = (if Req_EM_T (nth i arr 0) m then 50 else -50) + nth i gs 0) by (intros i Hi; unfold lg; now rewrite argmax_logits_nth by auto).
  destruct (rmax_list_ge l x) as [U1 U2]. pose proof (rmax_list_in l x) as M. fold m in U1, U2, M.
  assert (UB : forall i, (i < length arr)%nat -> nth i arr 0 <= m) by (intros i Hi; pose proof (nth_In arr 0 Hi) as [<-|I]; auto).
  assert (AT : exists k, (k < length arr)%nat /\ nth k arr 0 = m) by (apply (In_nth arr m 0); exact M).
  intros _. split.
  - intros E. injection E as E. apply jnp_argmax_iff in E; auto. rewrite LL in E. destruct E as [Ha E]. split; auto.
    assert (Em : nth a arr 0 = m).
    { destruct AT as (k & Hk & Ek). destruct (Nat.eq_dec k a) as [->|N]; auto. specialize (E k Hk N). rewrite !NV in E by auto. pose proof (G k Hk). pose proof (G a Ha). destruct (Req_EM_T (nth a arr 0) m); auto. destruct (Req_EM_T (nth k arr 0) m); [lra|contradiction]. }
    intros j Hj N. specialize (E j Hj N). rewrite !NV in E by auto. rewrite Em in *. destruct (Req_EM_T m m); [|congruence]. destruct (Req_EM_T (nth j arr 0) m) as [Q|Q].
    + right. split; auto. unfold beats. destruct E as [E|[E L]]; [left; lra|right; split; auto; lra].
    + left. specialize (UB j Hj). lra.
  - intros [Ha H]. f_equal. apply jnp_argmax_iff; auto. rewrite LL. split; auto.
    assert (Em : nth a arr 0 = m).
    { destruct AT as (k & Hk & Ek). destruct (Nat.eq_dec k a) as [->|N]; auto. specialize (UB a Ha). destruct (H k Hk N); lra. }
    intros j Hj N. rewrite !NV by auto. rewrite Em. destruct (Req_EM_T m m); [|congruence]. pose proof (G j Hj). pose proof (G a Ha). destruct (Req_EM_T (nth j arr 0) m) as [Q|Q]; [|left; lra].
    destruct (H j Hj N) as [H'|[_ [B|[B L]]]]; [lra|left; lra|right; split; auto; lra].
Qed.

(** * The race *)
Lemma all_behind_iff : forall post t us, length us = length post -> (all_behind post t us = true <-> forall j, (j < length post)%nat -> behind (nth j post (0, false)) (nth j us 0) t = true).
Proof.
  induction post as [|ct post IH]; intros t [|u us] L; cbn in L; try lia; cbn [all_behind].
  - split; auto. intros _ j Hj. cbn in Hj. lia.
  - rewrite andb_true_iff, IH by lia. split.
    + intros [H1 H2] [|j] Hj; cbn; auto. apply H2. cbn in Hj. lia.
    + intros H. split; [apply (H 0%nat); cbn; lia|]. intros j Hj. apply (H (S j)). cbn. lia.
Qed.
Lemma wins_iff : forall pre post cond us, length us = (length pre + S (length post))%nat ->
  (wins pre post cond us = true <-> let t := nth (length pre) us 0 in cond t = true /\ (forall j, (j < length pre)%nat -> behind (nth j pre (0, false)) (nth j us 0) t = true) /\
     (forall j, (j < length post)%nat -> behind (nth j post (0, false)) (nth (length pre + 1 + j) us 0) t = true)).
Proof.
  induction pre as [|ct pre IH]; intros post cond [|u us] L; cbn [length plus] in L; try lia; cbn [wins length nth]; cbv zeta.
  - rewrite andb_true_iff, all_behind_iff by lia. split; [intros [H1 H2]; repeat split; auto; intros j Hj; lia|intros (H1 & _ & H2); split; auto].
  - rewrite IH by lia. cbv zeta. rewrite andb_true_iff. split.
    + intros ([H1 H2] & H3 & H4). split; auto. split; auto. intros [|j] Hj; cbn; auto. apply H3. lia.
    + intros (H1 & H2 & H3). split; [split; auto; apply (H2 0%nat); lia|]. split; auto. intros j Hj. apply (H2 (S j)). lia.
Qed.

(** The order of the perturbed logits. *)
Lemma gumbel_lt : forall u t zj za, 0 < u < 1 -> 0 < t < 1 -> (- ln (- ln u) + zj < - ln (- ln t) + za <-> u < Rpower t (exp (zj - za))).
Proof.
  intros u t zj za Hu Ht. assert (LU : 0 < - ln u) by (assert (ln u < ln 1) by (apply ln_increasing; lra); rewrite ln_1 in *; lra). assert (LT : 0 < - ln t) by (assert (ln t < ln 1) by (apply ln_increasing; lra); rewrite ln_1 in *; lra).
  assert (EU : u = exp (ln u)) by (symmetry; apply exp_ln; lra). assert (Q : - ln t * exp (zj - za) = exp (ln (- ln t) + (zj - za))) by (rewrite exp_plus, exp_ln by lra; reflexivity).
  unfold Rpower. split; intros H.
  - rewrite EU. apply exp_increasing. assert (exp (ln (- ln t) + (zj - za)) < exp (ln (- ln u))) by (apply exp_increasing; lra). rewrite (exp_ln (- ln u)) in * by lra. lra.
  - rewrite EU in H at 1. apply exp_lt_inv in H. assert (exp (ln (- ln t) + (zj - za)) < exp (ln (- ln u))) by (rewrite (exp_ln (- ln u)) by lra; lra). apply exp_lt_inv in H0. lra.
Qed.
Lemma gumbel_eq : forall u t zj za, 0 < u < 1 -> 0 < t < 1 -> (- ln (- ln u) + zj = - ln (- ln t) + za <-> u = Rpower t (exp (zj - za))).
Proof.
  intros u t zj za Hu Ht. assert (LU : 0 < - ln u) by (assert (ln u < ln 1) by (apply ln_increasing; lra); rewrite ln_1 in *; lra). assert (LT : 0 < - ln t) by (assert (ln t < ln 1) by (apply ln_increasing; lra); rewrite ln_1 in *; lra).
  assert (Q : - ln t * exp (zj - za) = exp (ln (- ln t) + (zj - za))) by (rewrite exp_plus, exp_ln by lra; reflexivity).
  unfold Rpower. split; intros H.
  - rewrite <- (exp_ln u) by lra. f_equal. replace (ln (- ln t) + (zj - za)) with (ln (- ln u)) in Q by lra. rewrite (exp_ln (- ln u)) in Q by lra. lra.
  - assert (H' : ln u = exp (zj - za) * ln t) by (rewrite H, ln_exp; reflexivity). assert (H2 : ln (- ln u) = ln (- ln t) + (zj - za)). { replace (- ln u) with (exp (ln (- ln t) + (zj - za))) by lra. apply ln_exp. } lra.
Qed.

Section Draw.
Variables (n : nat) (tau : R) (z gs : list R) (a : nat).
Hypotheses (Hz : length z = n) (Ht : 0 < tau) (Hg : length gs = n) (Hb : forall g, In g gs -> -50 < g < 50) (Ha : (a < n)%nat).

Definition beatsb (j : nat) : bool := if Rlt_dec (nth j gs 0) (nth a gs 0) then true else if Req_EM_T (nth j gs 0) (nth a gs 0) then Nat.ltb a j else false.
Lemma beatsb_iff : forall j, beatsb j = true <-> beats gs a j.
Proof.
  intros j. unfold beatsb, beats. destruct (Rlt_dec (nth j gs 0) (nth a gs 0)); [split; auto|]. destruct (Req_EM_T (nth j gs 0) (nth a gs 0)); [rewrite Nat.ltb_lt|]; split; intros; auto; [destruct H as [|[]]; [lra|auto]|discriminate|destruct H as [|[]]; lra].
Qed.
Definition runner (j : nat) : R * bool := (exp (nth j z 0 - nth a z 0), beatsb j).
Definition before := map runner (seq 0 a).
Definition after := map runner (seq (S a) (n - S a)).
Lemma len_before : length before = a.
Proof. unfold before. now rewrite map_length, seq_length. Qed.
Lemma len_after : length after = (n - S a)%nat.
Proof. unfold after. now rewrite map_length, seq_length. Qed.
Lemma nth_runner : forall s k j, (j < k)%nat -> nth j (map runner (seq s k)) (0, false) = runner (s + j).
Proof. intros s k j Hj. rewrite (nth_indep _ _ (runner 0)) by (rewrite map_length, seq_length; auto). rewrite map_nth, seq_nth by auto. reflexivity. Qed.

Lemma behind_iff : forall us j, length us = n -> (forall u, In u us -> 0 < u < 1) -> (j < n)%nat ->
  (behind (runner j) (nth j us 0) (nth a us 0) = true <->
   let s := zipw (fun u x => - ln (- ln u) + x) us z in nth j s 0 < nth a s 0 \/ (nth j s 0 = nth a s 0 /\ beats gs a j)).
Proof.
  intros us j Hu HU Hj. cbv zeta. rewrite !(@nth_zipw _ us z _ 0 0 0) by lia. assert (U1 : 0 < nth j us 0 < 1) by (apply HU, nth_In; lia). assert (U2 : 0 < nth a us 0 < 1) by (apply HU, nth_In; lia).
  rewrite gumbel_lt, gumbel_eq by auto. rewrite <- beatsb_iff. unfold behind, runner. cbn [fst snd]. rewrite pw_pos by lra.
  destruct (Rlt_dec _ _) as [L|L]; [split; auto|]. destruct (Req_EM_T _ _) as [E|E]; split; intros H; auto; [destruct H as [|[]]; [contradiction|auto]|discriminate|destruct H as [|[]]; contradiction].
Qed.

Lemma drawn_iff : forall us x, length us = n -> (forall u, In u us -> 0 < u < 1) -> cat_sample n tau z us = Ok x -> (cat_post n x gs = Ok a <-> wins before after (fun _ => true) us = true).
Proof.
  intros us x Hu HU E. destruct (@sample_spec n tau z us) as (m & Em & Lm & _ & _); auto; try lia. rewrite Em in E. injection E as <-.
  set (s := zipw (fun u x => - ln (- ln u) + x) us z). assert (Ls : length s = n) by (unfold s; rewrite zipw_length; lia).
  assert (OR : forall i j, (i < n)%nat -> (j < n)%nat -> (nth i m 0 <= nth j m 0 <-> nth i s 0 <= nth j s 0)).
  { intros i j Hi Hj. revert Em. unfold cat_sample. rewrite (check_ok _ Hz). cbn [bind]. intros Em. injection Em as <-.
    set (w := zipw Rplus (map gumbel us) (log_softmax z)). assert (Lw : length w = n) by (unfold w; rewrite zipw_length; rewrite map_length, ?log_softmax_length; lia).
    rewrite softmax_order; rewrite ?map_length; try lia; [|intros C; apply map_eq_nil in C; rewrite C in Lw; cbn in Lw; lia]. rewrite !(@nth_map0 (fun x => x / tau) w _ 0) by lia. rewrite div_order by auto.
    unfold w, s. rewrite !(@nth_zipw Rplus (map gumbel us) _ _ 0 0 0) by (rewrite map_length, ?log_softmax_length; lia). rewrite !(@nth_zipw _ us z _ 0 0 0) by lia. rewrite !(@nth_map0 gumbel us _ 0) by lia.
    unfold log_softmax. rewrite !(@nth_map0 (fun x => x - ln (sumexp z)) z _ 0) by lia. unfold gumbel. split; lra. }
  unfold cat_post. rewrite Lm, Nat.eqb_refl. rewrite argmax_iff; try lia; auto; [|intros C; rewrite C in Lm; cbn in Lm; lia]. rewrite Lm.
  assert (LT : forall i j, (i < n)%nat -> (j < n)%nat -> (nth i m 0 < nth j m 0 <-> nth i s 0 < nth j s 0)) by (intros i j Hi Hj; pose proof (OR j i Hj Hi) as [O1 O2]; split; intros L; apply Rnot_le_lt; intros C; [apply O2 in C|apply O1 in C]; lra).
  assert (EQ : forall i j, (i < n)%nat -> (j < n)%nat -> (nth i m 0 = nth j m 0 <-> nth i s 0 = nth j s 0)) by (intros i j Hi Hj; pose proof (OR j i Hj Hi) as [O1 O2]; pose proof (OR i j Hi Hj) as [O3 O4]; split; intros L; apply Rle_antisym; [apply O3|apply O1|apply O4|apply O2]; lra).
  rewrite wins_iff by (rewrite len_before, len_after; lia). cbv zeta. rewrite len_before, len_after. split.
  - intros [_ H]. split; auto. split; intros j Hj.
    + unfold before. rewrite nth_runner by auto. cbn [plus]. apply behind_iff; auto; try lia. cbv zeta. fold s. rewrite <- LT, <- EQ by lia. apply H; lia.
    + unfold after. rewrite nth_runner by auto. replace (a + 1 + j)%nat with (S a + j)%nat by lia. apply behind_iff; auto; try lia. cbv zeta. fold s. rewrite <- LT, <- EQ by lia. apply H; lia.
  - intros (_ & H1 & H2). split; auto. intros j Hj N. rewrite LT, EQ by lia. apply (@behind_iff us j); auto. destruct (Nat.lt_ge_cases j a) as [L|L].
    + specialize (H1 j L). unfold before in H1. now rewrite nth_runner in H1.
    + specialize (H2 (j - S a)%nat ltac:(lia)). unfold after in H2. rewrite nth_runner in H2 by lia. replace (a + 1 + (j - S a))%nat with j in H2 by lia. replace (S a + (j - S a))%nat with j in H2 by lia. exact H2.
Qed.

Lemma runners_sum : 1 + csum before + csum after = sum_over z exp / exp (nth a z 0).
Proof.
  assert (SE : sum_over z exp = sum_over (seq 0 n) (fun j => exp (nth j z 0))).
  { rewrite <- Hz. clear. induction z as [|x l IH]; [reflexivity|]. cbn [length seq]. rewrite !sum_cons, IH, <- seq_shift, sum_over_map. reflexivity. }
  rewrite SE. replace n with (a + S (n - S a))%nat by lia. rewrite seq_app, sum_over_app. cbn [seq plus]. rewrite sum_cons. unfold csum, before, after. rewrite !sum_over_map. unfold runner. cbn [fst].
  assert (D : forall l, sum_over l (fun x => exp (nth x z 0 - nth a z 0)) = / exp (nth a z 0) * sum_over l (fun x => exp (nth x z 0))).
  { intros l. rewrite <- sum_over_scal. apply sum_over_ext. intros j _. unfold Rminus. rewrite exp_plus, exp_Ropp. ring. }
  rewrite !D. replace (a + S (n - S a) - S a)%nat with (n - S a)%nat by lia. pose proof (exp_pos (nth a z 0)). field. lra.
Qed.

Lemma draw_mean : forall F, (forall us x, length us = n -> (forall u, In u us -> 0 < u < 1) -> cat_sample n tau z us = Ok x -> (cat_post n x gs = Ok a -> F us = 1) /\ (cat_post n x gs <> Ok a -> F us = 0)) ->
  mean_units n F (exp (nth a z 0) / sum_over z exp).
Proof.
  intros F H. assert (P : forall ct, In ct (before ++ after) -> 0 < fst ct) by (intros ct I; apply in_app_iff in I; destruct I as [I|I]; apply in_map_iff in I; destruct I as (j & <- & _); apply exp_pos).
  pose proof (race_mean _ _ P) as M. rewrite len_before, len_after in M. replace (a + S (n - S a))%nat with n in M by lia. rewrite runners_sum in M.
  replace (exp (nth a z 0) / sum_over z exp) with (/ (sum_over z exp / exp (nth a z 0))).
  - eapply mean_units_ext; [|exact M]. intros us Lu HU. cbv beta. destruct (@sample_spec n tau z us) as (m & Em & _); auto; try lia. destruct (H us m Lu HU Em) as [H1 H2]. pose proof (@drawn_iff us m Lu HU Em) as D. destruct (wins before after (fun _ => true) us) eqn:W.
    + cbn. symmetry. apply H1. now apply D.
    + cbn. symmetry. apply H2. intros C. apply D in C. discriminate.
  - assert (0 < sum_over z exp).
    { destruct z as [|x l]; [cbn in Hz; lia|]. rewrite sum_cons. pose proof (exp_pos x). assert (0 <= sum_over l exp) by (apply sum_over_nonneg; intros; left; apply exp_pos). lra. }
    pose proof (exp_pos (nth a z 0)). field. split; lra.
Qed.
End Draw.
