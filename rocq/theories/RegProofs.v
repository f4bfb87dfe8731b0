(** Proofs for RegModel.v: a regularizer is the same as a bonus added to the rewards of the batch. *)
From Coq Require Import List Lia Bool Arith Reals Lra.
From Verif Require Import PyCommon CommonProofs UtilsModel UtilsSpec UtilsProofs2 UtilsProofs3 WrappersProofs DistModel DistSpec DistProofs DistProofs2 DistProofs3 LossModel LossSpec LossProofs QModel QProofs QProps TDModel TDSpec TDProofs TDProofs2 TDProofs3 TDProofs4 CoreModel CoreSpec CoreProofs CoreProofs2 TracerModel WorkerModel PolicyModel PolicyProofs4 LearnModel LearnSpec LearnProofs LearnProofs2 LearnProofs3 LearnProofs4 LearnProofs5 LearnProofs6 LearnProofs7 RegModel RegSpec.
Import ListNotations.
Set Implicit Arguments.
Local Open Scope R_scope.

Lemma softmax_boltz : forall n (z : list R), length z = n -> softmax z = map (boltzmann n z) (seq 0 n).
Proof.
  intros n z L. apply (@list_eq_nth _ 0); [now rewrite map_length, seq_length, softmax_length|]. intros k Hk. rewrite softmax_length in Hk.
  rewrite (@nth_map_any _ _ _ (seq 0 n) k 0 0%nat) by (rewrite seq_length; lia). rewrite seq_nth by lia. rewrite nth_softmax by lia. unfold boltzmann. cbn [Nat.add]. now rewrite (@sumexp_seq n z L).
Qed.
Lemma H_entropy : forall n (z : list R), length z = n -> H (softmax z) = entropy_of n (boltzmann n z).
Proof.
  intros n z L. unfold H, expect, entropy_of, expectation. rewrite (@softmax_boltz n z L), map_length, seq_length. apply total_ext. intros a Ha. apply in_seq in Ha.
  rewrite !(@nth_map_any _ _ _ (seq 0 n) a 0 0%nat) by (rewrite seq_length; lia). rewrite !seq_nth by lia. reflexivity.
Qed.
Lemma KL_divergence : forall n (z p : list R), length z = n -> length p = n -> KL (softmax z) (softmax p) = divergence_of n (boltzmann n z) (boltzmann n p).
Proof.
  intros n z p L L'. unfold KL, expect, divergence_of, expectation. rewrite (@softmax_boltz n z L), (@softmax_boltz n p L'), map_length, seq_length. apply total_ext. intros a Ha. apply in_seq in Ha.
  rewrite !(@nth_map_any _ _ _ (seq 0 n) a 0 0%nat) by (rewrite seq_length; lia). rewrite !seq_nth by lia. reflexivity.
Qed.

Lemma zip_back : forall (f g : R -> R -> R), (forall x y, f (g x y) y = x) -> forall a b, length a = length b -> zipw f (zipw g a b) b = a.
Proof. intros f g E. induction a as [|x a IH]; intros [|y b] L; try discriminate; auto. cbn. rewrite E, IH; auto. Qed.
Lemma zip_len : forall f a b, length a = length b -> length (zipw f a b) = length a.
Proof. intros f. induction a as [|x a IH]; intros [|y b] L; try discriminate; auto. cbn. f_equal. apply IH. now injection L. Qed.
Lemma zip_nth : forall f a b i, length a = length b -> (i < length a)%nat -> nth i (zipw f a b) 0 = f (nth i a 0) (nth i b 0).
Proof. intros f. induction a as [|x a IH]; intros [|y b] i L Hi; try discriminate; [cbn in Hi; lia|]. destruct i as [|i]; auto. cbn. apply IH; [now injection L|cbn in Hi; lia]. Qed.
Lemma zip_opp : forall (c : nat -> R) G S, length G = length S -> zipw Rminus G (map (fun s => - c s) S) = zipw Rplus G (map c S).
Proof. intros c. induction G as [|x G IH]; intros [|s S] L; try discriminate; auto. cbn. rewrite IH by (now injection L). f_equal. lra. Qed.
Lemma boot_len : forall f g Rn In X G, bootstrap f g Rn In X = Ok G -> length G = length Rn.
Proof.
  intros f g. induction Rn as [|x Rn IH]; intros [|i In] [|z X] G E; try discriminate; cbn in E; [now injection E as <-|]. destruct (bootstrap f g Rn In X) as [G'|e] eqn:B; try discriminate. injection E as <-. cbn. f_equal. eauto.
Qed.
Lemma bootstrap_shift : forall Rn c In X, length c = length Rn ->
  bootstrap (fun x => x) (fun x => x) (zipw Rplus Rn c) In X = bind (bootstrap (fun x => x) (fun x => x) Rn In X) (fun G => Ok (zipw Rplus G c)).
Proof.
  induction Rn as [|x Rn IH]; intros [|y c] In X L; try discriminate; [destruct In, X; reflexivity|]. cbn [zipw]. destruct In as [|i In], X as [|z X]; try reflexivity. cbn [bootstrap]. rewrite IH by (now injection L).
  destruct (bootstrap (fun x => x) (fun x => x) Rn In X) as [G|e]; cbn; auto. do 2 f_equal. ring.
Qed.
Lemma update_ext : forall (A : Type) (g g' : ptree -> ptree -> nat -> outcome (gtree * ptree * A)) l, (forall p fs k, g p fs k = g' p fs k) -> update g l = update g' l.
Proof. intros A g g' l E. unfold update. now rewrite !E. Qed.

Section Reg.
Variable nA : nat.
Variable r : regularizer.
Hypothesis HA : (1 <= nA)%nat.
Hypothesis HR : reg_ok nA r.
Notation bon := (bonus nA r).

Lemma reg_rows_ok : forall S A, reg_rows nA r S A = Ok (map (fun s => - bon s) S).
Proof.
  intros S A. unfold reg_rows, bonus. destruct r as [beta pi|beta pi prior]; cbn [reg_ok] in HR; unfold batch_eval; cbn [bind]; induction S as [|s S IH]; auto; cbn [map collect].
  - rewrite entropy_reg_ok by auto. cbn [bind]. rewrite IH. cbn [bind]. rewrite (@H_entropy nA _ (HR s)). do 2 f_equal. ring.
  - destruct HR as [HP HQ]. rewrite kl_reg_ok by auto. cbn [bind]. rewrite IH. cbn [bind]. rewrite (@KL_divergence nA _ _ (HP s) HQ). do 2 f_equal. ring.
Qed.

(** Batches with the bonus added to, or taken from, the rewards. *)
Definition rebatch (h : R -> R -> R) (b : fbatch nat) : fbatch nat :=
  mk_fb (fb_S b) (fb_A b) (fb_W b) (mk_tb (zipw h (tb_Rn (fb_t b)) (map bon (fb_S b))) (tb_In (fb_t b)) (tb_Snext (fb_t b)) (tb_Anext (fb_t b))).
Definition plus_b := rebatch Rplus.
Definition minus_b := rebatch Rminus.
Lemma plus_minus : forall b, length (tb_Rn (fb_t b)) = length (fb_S b) -> plus_b (minus_b b) = b.
Proof. intros [S A W [Rn I S' A']] L. unfold plus_b, minus_b, rebatch. cbn in *. rewrite zip_back; auto; [intros; lra|now rewrite map_length]. Qed.
Lemma minus_plus : forall b, length (tb_Rn (fb_t b)) = length (fb_S b) -> minus_b (plus_b b) = b.
Proof. intros [S A W [Rn I S' A']] L. unfold plus_b, minus_b, rebatch. cbn in *. rewrite zip_back; auto; [intros; lra|now rewrite map_length]. Qed.

Lemma target_shift : forall net target val, algorithm nA net target val -> forall th0 targ b, length (tb_Rn (fb_t b)) = length (fb_S b) ->
  target th0 targ (fb_t (plus_b b)) = bind (target th0 targ (fb_t b)) (fun G => Ok (zipw Rplus G (map bon (fb_S b)))).
Proof.
  intros net target val AL th0 targ b L. assert (L' : length (map bon (fb_S b)) = length (tb_Rn (fb_t b))) by (now rewrite map_length).
  destruct AL as [|pi Hp|t Ht].
  - unfold target_q, q_learning, finish. cbn [plus_b rebatch fb_t tb_Snext tb_Rn tb_In]. destruct (eval2 _ _ _ _) as [Q|e]; auto. cbn [bind]. destruct (check_width nA Q) as [Q'|e]; auto. cbn [bind]. destruct (eval1 _ _ _ _) as [X|e]; auto. cbn [bind]. now apply bootstrap_shift.
  - unfold target_expected, expected_sarsa, finish. cbn [plus_b rebatch fb_t tb_Snext tb_Rn tb_In]. destruct (eval1 _ _ _ _) as [X|e]; auto. cbn [bind]. now apply bootstrap_shift.
  - unfold target_soft, soft_q, finish. cbn [plus_b rebatch fb_t tb_Snext tb_Rn tb_In]. destruct (eval2 _ _ _ _) as [Q|e]; auto. cbn [bind]. destruct (check_width nA Q) as [Q'|e]; auto. cbn [bind]. now apply bootstrap_shift.
Qed.
Lemma target_len : forall net target val, algorithm nA net target val -> forall th0 targ b G, target th0 targ b = Ok G -> length G = length (tb_Rn b).
Proof.
  intros net target val AL th0 targ b G. destruct AL as [|pi Hp|t Ht].
  - unfold target_q, q_learning, finish. destruct (eval2 _ _ _ _) as [Q|e]; [|discriminate]. cbn [bind]. destruct (check_width nA Q) as [Q'|e]; [|discriminate]. cbn [bind]. destruct (eval1 _ _ _ _) as [X|e]; [|discriminate]. cbn [bind]. apply boot_len.
  - unfold target_expected, expected_sarsa, finish. destruct (eval1 _ _ _ _) as [X|e]; [|discriminate]. cbn [bind]. apply boot_len.
  - unfold target_soft, soft_q, finish. destruct (eval2 _ _ _ _) as [Q|e]; [|discriminate]. cbn [bind]. destruct (check_width nA Q) as [Q'|e]; [|discriminate]. cbn [bind]. apply boot_len.
Qed.

Section Run.
Variable net : list R -> qfun nat R.
Variable target : list R -> list R -> tbatch nat -> outcome (list R).
Variable val : valuation.
Hypothesis AL : algorithm nA net target val.
Variable loss : list R -> list R -> option (list R) -> outcome (option R).
Lemma q_loss_shift : forall th0 targ b th, length (tb_Rn (fb_t b)) = length (fb_S b) ->
  q_loss_reg nA r net target loss th0 targ b th = q_loss (Some nA) net target loss th0 targ (plus_b b) th.
Proof.
  intros th0 targ b th L. unfold q_loss_reg, q_loss. rewrite reg_rows_ok. cbn [bind]. cbn [plus_b rebatch fb_S fb_A fb_W]. destruct (eval1 _ _ _ _) as [Q|e]; auto. cbn [bind]. fold (rebatch Rplus b). fold (plus_b b). rewrite (target_shift AL th0 targ b L). destruct (target th0 targ (fb_t b)) as [G|e] eqn:E; auto. cbn [bind].
  unfold td_loss. rewrite minus_zeros, zip_opp; auto. rewrite (target_len AL _ _ _ E). exact L.
Qed.
Variable grads : list R -> list R -> fbatch nat -> list R.
Variable sub : nat -> nat -> bool.
Definition grads' (th targ : list R) (b : fbatch nat) : list R := grads th targ (minus_b b).
Definition op_b (o : yop) : yop := match o with YUpdate b => YUpdate (plus_b b) | YSync tau => YSync tau end.
Definition op_len (o : yop) : Prop := match o with YUpdate b => length (tb_Rn (fb_t b)) = length (fb_S b) | YSync _ => True end.
Lemma gm_shift : forall tp b p fs key, length (tb_Rn (fb_t b)) = length (fb_S b) ->
  rgrads_and_metrics nA r net target loss grads tp b p fs key = grads_and_metrics nA net target loss grads' tp (plus_b b) p fs key.
Proof.
  intros tp b p fs key L. unfold rgrads_and_metrics, grads_and_metrics. destruct (unwrap p) as [th|]; auto. destruct (unwrap tp) as [targ|]; auto. rewrite q_loss_shift by auto. unfold grads'. now rewrite minus_plus by auto.
Qed.
Lemma rstep_shift : forall y o, op_len o -> rstep nA r net target loss grads sub y o = ystep nA net target loss grads' sub y (op_b o).
Proof.
  intros y [b|tau] L; auto. cbn [rstep ystep op_b]. cbn in L. rewrite (@update_ext _ _ (grads_and_metrics nA net target loss grads' (targ_params y) (plus_b b))); auto. intros. now apply gm_shift.
Qed.
Lemma rrun_shift : forall os y, (forall o, In o os -> op_len o) -> rrun nA r net target loss grads sub y os = yrun nA net target loss grads' sub y (map op_b os).
Proof.
  induction os as [|o os IH]; intros y L; auto. cbn [rrun yrun map]. rewrite rstep_shift by (apply L; now left). destruct (ystep _ _ _ _ _ _ y (op_b o)) as [y1 [u|e]]; auto. apply IH. intros. apply L. now right.
Qed.
Variables (nS : nat) (dyn : nat -> nat -> nat * R * bool) (gamma : R).
Notation dyn' := (with_bonus nA r dyn).
Lemma genuine_len : forall D rows b, genuine nS nA D gamma rows b -> length (tb_Rn (fb_t b)) = length (fb_S b).
Proof. intros D rows b (_ & E & _ & _ & L & _). now rewrite E, map_length, L. Qed.
Lemma genuine_rebatch : forall h D D' rows b, genuine nS nA D gamma rows b -> (forall s a, next D' s a = next D s a /\ ends D' s a = ends D s a /\ h (reward D s a) (bon s) = reward D' s a) ->
  genuine nS nA D' gamma rows (rebatch h b).
Proof.
  intros h D D' rows b G E. pose proof (genuine_len G) as LL. destruct G as (NE & ES & EA & LW & LR & LI & LS & F). split; auto. cbn [rebatch fb_S fb_A fb_W fb_t tb_Rn tb_In tb_Snext]. do 3 (split; auto). split; [rewrite zip_len; auto; now rewrite map_length|]. do 2 (split; auto).
  intros i s a s' H1 H2. destruct (F i s a s' H1 H2) as (A1 & A2 & A3 & A4 & A5). destruct (E s a) as (E1 & E2 & E3). rewrite E1, E2. do 3 (split; auto). split; auto.
  assert (Hi : (i < length rows)%nat) by (apply nth_error_Some; congruence). rewrite zip_nth by (rewrite ?map_length; auto; lia). rewrite A4. rewrite <- E3. f_equal. rewrite ES, map_map. rewrite (@nth_map_any _ _ _ rows i 0 (0,0)%nat) by auto. now rewrite (nth_error_nth _ _ _ H1).
Qed.
Lemma genuine_plus : forall rows b, genuine nS nA dyn gamma rows b -> genuine nS nA dyn' gamma rows (plus_b b).
Proof. intros rows b G. apply genuine_rebatch with (D := dyn); auto. Qed.
Lemma genuine_minus : forall rows b, genuine nS nA dyn' gamma rows b -> genuine nS nA dyn gamma rows (minus_b b).
Proof. intros rows b G. apply genuine_rebatch with (D := dyn'); auto. intros s a. split; [reflexivity|]. split; [reflexivity|]. unfold reward, with_bonus. cbn. lra. Qed.
Lemma closed_b : closed nS nA dyn -> closed nS nA dyn'.
Proof. intros C s a Hs Ha. exact (C s a Hs Ha). Qed.
Lemma differentiates_b : rdifferentiates nS nA dyn gamma r net target loss grads -> differentiates nS nA dyn' gamma net target loss grads'.
Proof.
  intros H th targ rows b L Lt G. pose proof (genuine_minus G) as G'. specialize (H th targ rows (minus_b b) L Lt G'). unfold grads'. destruct H as [H1 H2]. split; auto. intros i Hi. eapply derivable_pt_lim_ext; [|exact (H2 i Hi)].
  intros t. cbv beta. rewrite q_loss_shift by (now apply (genuine_len G')). rewrite plus_minus; auto. now apply (genuine_len G).
Qed.
Lemma op_ok_b : forall lr wl B o, op_ok nS nA dyn gamma lr wl B o -> op_ok nS nA dyn' gamma lr wl B (op_b o) /\ op_len o.
Proof.
  intros lr wl B [b|tau] H; [|split; [exact H|exact I]]. destruct H as (rows & G & W & L). split; [|exact (genuine_len G)]. exists rows. split; [now apply genuine_plus|]. split; auto.
Qed.
Lemma visits_b : forall o s a, visits nA (op_b o) s a <-> visits nA o s a.
Proof. intros [b|tau] s a; cbn; tauto. Qed.
Lemma covers_b : forall os, covers nS nA os -> covers nS nA (map op_b os).
Proof. intros os C s a Hs Ha. destruct (C s a Hs Ha) as (o & I & V). exists (op_b o). split; [now apply in_map|now apply visits_b]. Qed.
Lemma round_b : forall lr wl tau0 B y os, one_round nS nA dyn gamma lr wl tau0 B y os -> one_round nS nA dyn' gamma lr wl tau0 B y (map op_b os) /\ forall o, In o os -> op_len o.
Proof.
  intros lr wl tau0 B y os [O1 O2]. split; [|intros o I; exact (proj2 (@op_ok_b lr wl B o (O1 o I)))]. split.
  - intros o I. apply in_map_iff in I. destruct I as (o' & <- & I). exact (proj1 (@op_ok_b lr wl B o' (O1 o' I))).
  - destruct (y_targ y).
    + destruct O2 as (os1 & tau & os2 & -> & C & T). exists (map op_b os1), tau, (map op_b os2). split; [now rewrite map_app|]. split; auto. now apply covers_b.
    + destruct O2 as [C U]. split; [now apply covers_b|]. intros o I. apply in_map_iff in I. destruct I as (o' & <- & I). destruct (U o' I) as [b ->]. cbn. eauto.
Qed.
Lemma setting_b : forall lr wl cl D B, rsetting nS nA dyn gamma r net target val loss grads lr wl cl D B -> setting nS nA dyn' gamma net target val loss grads' lr wl cl D B.
Proof.
  intros lr wl cl D B (H1 & H2 & H3 & H4 & H5 & H6 & H7 & H8 & H9). split; auto. split; [now apply closed_b|]. split; auto. split; auto. split; auto. split; auto. split; auto. now apply differentiates_b.
Qed.
End Run.
End Reg.
