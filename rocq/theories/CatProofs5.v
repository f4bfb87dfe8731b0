(** QLearning with a categorical StochasticQ from arbitrary logits: the means contract towards the optimal values as long as q_targ has no ties. *)
From Coq Require Import List Lia Bool Arith Reals Lra.
From Verif Require Import PyCommon CommonProofs UtilsModel UtilsSpec UtilsProofs2 UtilsProofs3 DistModel DistSpec DistProofs DistProofs2 LossModel LossProofs TDModel TDSpec TDProofs CoreModel CoreSpec LearnModel LearnProofs3 LearnProofs5 MbModel MbProofs CatModel CatSpec CatProofs CatProofs2 CatProofs3 CatProofs4.
Import ListNotations.
Set Implicit Arguments.
Local Open Scope R_scope.

(** A largest entry. *)
Fixpoint best (n : nat) (h : nat -> R) : nat := match n with O => 0%nat | S n' => if Rlt_dec (h (best n' h)) (h n') then n' else best n' h end.
Lemma best_ok : forall n h, (1 <= n)%nat -> (best n h < n)%nat /\ forall a, (a < n)%nat -> h a <= h (best n h).
Proof.
  induction n as [|n IH]; intros h Hn; [lia|]. cbn [best]. destruct (Nat.eq_dec n 0) as [->|N0].
  - cbn. destruct (Rlt_dec (h 0%nat) (h 0%nat)); (split; [lia|]); intros a Ha; replace a with 0%nat by lia; lra.
  - destruct (IH h ltac:(lia)) as [A B]. destruct (Rlt_dec (h (best n h)) (h n)); (split; [lia|]); intros a Ha; destruct (Nat.eq_dec a n) as [->|]; try lra; specialize (B a ltac:(lia)); lra.
Qed.
Lemma best_or_tied : forall n h, (1 <= n)%nat -> {forall a, (a < n)%nat -> a <> best n h -> h a < h (best n h)} + {exists a, (a < n)%nat /\ a <> best n h /\ h a = h (best n h)}.
Proof.
  intros n h Hn. destruct (best_ok h Hn) as [A B]. set (i := best n h) in *. assert (D : {Forall (fun a => a = i \/ h a < h i) (seq 0 n)} + {Exists (fun a => ~ (a = i \/ h a < h i)) (seq 0 n)}).
  { apply Forall_Exists_dec. intros a. destruct (Nat.eq_dec a i); [left; now left|]. destruct (Rlt_dec (h a) (h i)); [left; now right|right; tauto]. }
  destruct D as [F|E]; [left|right].
  - intros a Ha Na. rewrite Forall_forall in F. destruct (F a) as [|]; [apply in_seq; lia|congruence|auto].
  - rewrite Exists_exists in E. destruct E as (a & Ia & Na). apply in_seq in Ia. exists a. split; [lia|]. split; [tauto|]. specialize (B a ltac:(lia)). destruct (Rlt_dec (h a) (h i)); [tauto|lra].
Qed.
Lemma total_tri : forall (A : Type) (f : A -> R) l, Rabs (total (map f l)) <= total (map (fun x => Rabs (f x)) l).
Proof. intros A f l. unfold total. induction l as [|x l IH]; cbn; [rewrite Rabs_R0; lra|]. eapply Rle_trans; [apply Rabs_triang|]. lra. Qed.

Lemma next_sum : forall an s a h rows, pair_sum s a h (map (with_next an) rows) = pair_sum s a (fun x => h (with_next an x)) rows.
Proof. intros an s a h rows. unfold pair_sum. rewrite map_map. reflexivity. Qed.
Lemma next_mean : forall an s a h rows, pair_mean s a h (map (with_next an) rows) = pair_mean s a (fun x => h (with_next an x)) rows.
Proof. intros. unfold pair_mean. now rewrite !next_sum. Qed.

Section Global.
Variables nS nA K : nat.
Variables lo hi gamma lr : R.
Hypotheses (HK : (2 <= K)%nat) (Hlh : lo < hi).
Variables (rows : list row) (b : fbatch nat) (g : list R -> fbatch nat -> list R -> list R) (sub : nat -> nat -> bool).
Hypotheses (HB : rows_in nS nA gamma rows) (HR : holds_rows nA CQ rows b) (NE : rows <> []) (AP : all_pairs nS nA rows) (Hlr : 0 < lr < 1) (Hg : 0 <= gamma < 1).
Hypothesis HG : forall an, (forall s, (an s < nA)%nat) -> ce_grads nS nA K lo hi CQ g (map (with_next an) rows) b.
Hypothesis RF : range_fits K lo hi rows.
Variables (q : nat -> nat -> R) (v : nat -> R).
Hypothesis HQ : optimal_q nS nA rows q v.
Notation mo := (mean_of nA K lo hi).
Notation FL := (2 * INR K * eps16 * (hi - lo)).
Notation run := (crun nS nA K lo hi CQ g sub).
Notation rstep := (fun y n y' => run y (round_of b n) = (y', Ok tt)).
Lemma nA_pos : (1 <= nA)%nat. Proof. destruct rows as [|x l]; [congruence|]. destruct (HB x (or_introl eq_refl)) as (_ & A & _). lia. Qed.
Definition gbest (wt : list R) (s : nat) : nat := best nA (mo wt s).
Lemma gbest_tied : forall wt, uses_next nA K lo hi CQ wt (map (with_next (gbest wt)) rows) \/ exists x a a', In x rows /\ (a < nA)%nat /\ (a' < nA)%nat /\ a <> a' /\ mo wt (w_next x) a = mo wt (w_next x) a' /\ forall a'', (a'' < nA)%nat -> mo wt (w_next x) a'' <= mo wt (w_next x) a.
Proof.
  intros wt. pose proof nA_pos as PA. assert (D : forall l, {Forall (fun x => forall a, (a < nA)%nat -> a <> gbest wt (w_next x) -> mo wt (w_next x) a < mo wt (w_next x) (gbest wt (w_next x))) l} + {Exists (fun x => exists a, (a < nA)%nat /\ a <> gbest wt (w_next x) /\ mo wt (w_next x) a = mo wt (w_next x) (gbest wt (w_next x))) l}).
  { induction l as [|x l IH]; [left; constructor|]. destruct (best_or_tied (mo wt (w_next x)) PA) as [F|E]; [|right; now constructor]. destruct IH as [F'|E']; [left; now constructor|right; now apply Exists_cons_tl]. }
  destruct (D rows) as [F|E]; [left|right].
  - intros x0 a Hx Ha Na. apply in_map_iff in Hx. destruct Hx as (x & <- & Hx). cbn in *. rewrite Forall_forall in F. now apply F.
  - rewrite Exists_exists in E. destruct E as (x & Hx & a & Ha & Na & E). destruct (best_ok (mo wt (w_next x)) PA) as [B1 B2]. exists x, a, (gbest wt (w_next x)). repeat (split; auto). intros a'' Ha''. rewrite E. now apply B2.
Qed.
Lemma best_close : forall wt s D, (forall a, (a < nA)%nat -> Rabs (mo wt s a - q s a) <= D) -> (s < nS)%nat -> Rabs (mo wt s (gbest wt s) - v s) <= D.
Proof.
  intros wt s D H Hs. destruct (best_ok (mo wt s) nA_pos) as [B1 B2]. destruct HQ as [HV _]. destruct (HV s Hs) as [(a & Ha & Ea) M]. pose proof (H a Ha) as X1. pose proof (H _ B1) as X2. pose proof (B2 a Ha). pose proof (M _ B1). unfold gbest. unfold Rabs in *. repeat destruct (Rcase_abs _); lra.
Qed.
Definition targ_mean (D : R) (y : csys) : Prop := exists w wt, nets nS nA K lr sub y w wt /\ c_targ y <> None /\ forall s a, (s < nS)%nat -> (a < nA)%nat -> Rabs (mo wt s a - q s a) <= D.
Definition both_mean (D : R) (y : csys) : Prop := exists w, nets nS nA K lr sub y w w /\ c_targ y <> None /\ forall s a, (s < nS)%nat -> (a < nA)%nat -> Rabs (mo w s a - q s a) <= D.
Lemma global_round : forall kap D y, 0 < kap -> 0 <= D -> targ_mean D y -> tied nA K lo hi rows y \/ exists N, forall n, (N <= n)%nat -> exists y', rstep y n y' /\ both_mean (gamma * D + (FL + kap)) y'.
Proof.
  intros kap D y Hk HD (w & wt & N1 & T1 & C). destruct (gbest_tied wt) as [U|T].
  2:{ left. destruct T as (x & a & a' & Hx & Ha & Ha' & Na & E & M). destruct N1 as (_ & _ & _ & _ & N5). destruct (c_targ y) as [f|] eqn:Ef; [|congruence]. destruct N5 as (P & _). exists f, wt, x, a, a'. repeat (split; auto). }
  right. set (rows' := map (with_next (gbest wt)) rows) in *. pose proof nA_pos as PA.
  assert (HB' : rows_in nS nA gamma rows'). { intros x0 Hx. apply in_map_iff in Hx. destruct Hx as (x & <- & Hx). destruct (@HB x Hx) as (A1 & A2 & A3 & A4 & A5). cbn. destruct (best_ok (mo wt (w_next x)) PA). repeat (split; auto); apply A5. }
  assert (AP' : all_pairs nS nA rows'). { intros s a Hs Ha. destruct (@AP s a Hs Ha) as (x & Hx & E1 & E2). exists (with_next (gbest wt) x). split; [now apply in_map|]. auto. }
  assert (HR' : holds_rows nA CQ rows' b). { destruct HR as (R1 & R2 & R3 & R4 & R5 & R6 & _). unfold rows', holds_rows. rewrite !map_map, map_length. repeat (split; auto). discriminate. }
  assert (NE' : rows' <> []) by (unfold rows'; destruct rows; [congruence|discriminate]).
  assert (RF' : range_fits K lo hi rows'). { intros x0 Hx. apply in_map_iff in Hx. destruct Hx as (x & <- & Hx). exact (@RF x Hx). }
  destruct (@inner_round nS nA K lo hi gamma lr HK Hlh rows' b CQ g sub HB' HR' NE' (HG (gbest wt) (fun s => proj1 (best_ok (mo wt s) PA))) AP' Hlr y w wt N1 T1 U _ (@kap_pos K lo hi HK Hlh kap Hk)) as (N & H). exists N. intros n Hn. destruct (H n Hn) as (y' & w' & E & N2 & T2 & B). exists y'. split; auto. exists w'. split; auto. split; auto. intros s a Hs Ha.
  assert (A1 := @entries_near nS nA K lo hi HK Hlh rows' AP' wt w' s a kap Hs Ha Hk (fun k Hk0 => B s a k Hs Ha Hk0)). assert (A2 := @tbar_near nS nA K lo hi HK Hlh rows' AP' wt s a Hs Ha). assert (A := near_value (near_trans A1 A2)). fold (mo w' s a) in A.
  assert (EB : ev K (bell K lo hi rows' (prob nA K wt) s a) (atom K lo hi) = pair_mean s a (fun x => w_r x + w_in x * mo wt (w_next x) (w_anext x)) rows').
  { unfold bell. rewrite (@pm_ev K rows' s a (fun x => proj K lo hi (w_r x) (w_in x) (prob nA K wt (w_next x) (w_anext x))) (atom K lo hi)). apply pm_ext. intros x Hx _ _. destruct (HB' x Hx) as (_ & _ & _ & _ & I0). destruct (RF' x Hx). apply proj_mean_fits; auto; [now apply prob_dist|lra]. }
  rewrite EB in A.
  assert (A3 : Rabs (pair_mean s a (fun x => w_r x + w_in x * mo wt (w_next x) (w_anext x)) rows' - q s a) <= gamma * D).
  { unfold rows'. rewrite next_mean. cbn [with_next w_r w_in w_next w_anext]. destruct HQ as [_ HQ2]. rewrite (HQ2 s a Hs Ha). rewrite <- (@pm_minus rows s a (@AP s a Hs Ha)). apply (@pm_bound rows s a (@AP s a Hs Ha)). intros x Hx _ _. destruct (@HB x Hx) as (_ & _ & X1 & X2 & X3). replace (w_r x + w_in x * mo wt (w_next x) (gbest wt (w_next x)) - (w_r x + w_in x * v (w_next x))) with (w_in x * (mo wt (w_next x) (gbest wt (w_next x)) - v (w_next x))) by ring.
    rewrite Rabs_mult, (Rabs_right (w_in x)) by lra. apply Rmult_le_compat; try lra; [apply Rabs_pos|]. apply best_close; auto. }
  replace (mo w' s a - q s a) with ((mo w' s a - pair_mean s a (fun x => w_r x + w_in x * mo wt (w_next x) (w_anext x)) rows') + (pair_mean s a (fun x => w_r x + w_in x * mo wt (w_next x) (w_anext x)) rows' - q s a)) by ring. eapply Rle_trans; [apply Rabs_triang|]. lra.
Qed.
Lemma both_targ : forall D y, both_mean D y -> targ_mean D y.
Proof. intros D y (w & N & T & C). exists w, w. auto. Qed.
Lemma global_rounds : forall kap m D y, 0 < kap -> 0 <= D -> targ_mean D y -> after_rounds_unless (tied nA K lo hi rows) rstep (S m) (both_mean (dn gamma (FL + kap) (S m) D)) y.
Proof.
  intros kap m D y Hk. assert (FP : 0 < FL) by (now apply FL_pos). revert D y. induction m as [|m IH]; intros D y HD T; (destruct (global_round Hk HD T) as [TI|(N & HN)]; [now left|right]); exists N; intros n Hn; destruct (HN n Hn) as (y' & S & B); exists y'; (split; [exact S|]).
  - exact B.
  - cbn [dn]. apply IH; [assert (0 <= gamma * D) by (apply Rmult_le_pos; lra); lra|now apply both_targ].
Qed.
Lemma unless_imp : forall tie step m (P P' : csys -> Prop), (forall y, P y -> P' y) -> forall y, after_rounds_unless tie step m P y -> after_rounds_unless tie step m P' y.
Proof. intros tie step m P P' H. induction m as [|m IH]; intros y; cbn; auto. intros [T|(N & HN)]; [now left|right]. exists N. intros n Hn. destruct (HN n Hn) as (y' & S & A). exists y'. auto. Qed.
Lemma table_bound : exists B, 0 <= B /\ forall s a, (s < nS)%nat -> (a < nA)%nat -> Rabs (q s a) <= B.
Proof.
  exists (total (map (fun s => total (map (fun a => Rabs (q s a)) (seq 0 nA))) (seq 0 nS))). assert (P : forall s, 0 <= total (map (fun a => Rabs (q s a)) (seq 0 nA))). { intros s. apply Rle_trans with (total (map (fun _ : nat => 0) (seq 0 nA))); [rewrite total_const; lra|]. apply total_le. intros; apply Rabs_pos. }
  split. { apply Rle_trans with (total (map (fun _ : nat => 0) (seq 0 nS))); [rewrite total_const; lra|]. apply total_le. intros; apply P. }
  intros s a Hs Ha. apply Rle_trans with (total (map (fun a => Rabs (q s a)) (seq 0 nA))).
  - apply (@total_in_le _ (fun a => Rabs (q s a))); [intros; apply Rabs_pos|apply in_seq; lia].
  - apply (@total_in_le _ (fun s => total (map (fun a => Rabs (q s a)) (seq 0 nA)))); [intros; apply P|apply in_seq; lia].
Qed.
Lemma mean_range : forall wt s a, Rabs (mo wt s a) <= Rabs (atom K lo hi 0) + (hi - lo).
Proof.
  intros wt s a. assert (PD := @prob_dist nA K HK wt s a).
  assert (A : forall k, (k < K)%nat -> Rabs (atom K lo hi k) <= Rabs (atom K lo hi 0) + (hi - lo)).
  { intros k Hk. assert (KP : 0 < INR K) by (apply lt_0_INR; lia). assert (E : atom K lo hi k = atom K lo hi 0 + INR k * ((hi - lo) / INR K)) by (unfold atom; cbn [INR]; field; lra). rewrite E. eapply Rle_trans; [apply Rabs_triang|]. apply Rplus_le_compat_l. assert (Z : 0 <= (hi - lo) / INR K) by (apply Rmult_le_pos; [lra|left; now apply Rinv_0_lt_compat]). rewrite Rabs_pos_eq by (apply Rmult_le_pos; [apply pos_INR|auto]).
    apply Rle_trans with (INR K * ((hi - lo) / INR K)); [apply Rmult_le_compat_r; auto; apply le_INR; lia|right; field; lra]. }
  unfold mean_of, ev. eapply Rle_trans; [apply total_tri|]. set (C := Rabs (atom K lo hi 0) + (hi - lo)) in *. apply Rle_trans with (total (map (fun k => C * prob nA K wt s a k) (seq 0 K))); [|rewrite total_scal, (proj2 PD); lra].
  apply total_le. intros k Hk. apply in_seq in Hk. rewrite Rabs_mult, Rabs_pos_eq by (apply PD; lia). rewrite Rmult_comm. apply Rmult_le_compat_r; [apply PD; lia|apply A; lia].
Qed.
Lemma global_converges : forall eps, 0 < eps -> exists M0, forall M y w wt, (M0 <= M)%nat -> nets nS nA K lr sub y w wt -> c_targ y <> None -> after_rounds_unless (tied nA K lo hi rows) rstep M (both_mean (eps + FL / (1 - gamma))) y.
Proof.
  intros eps He. set (kap := eps / 2 * (1 - gamma)). assert (Hk : 0 < kap) by (unfold kap; apply Rmult_lt_0_compat; lra). assert (FP : 0 < FL) by (now apply FL_pos). destruct table_bound as (Bq & B0 & HBq). set (D := Rabs (atom K lo hi 0) + (hi - lo) + Bq).
  assert (D0 : 0 < D) by (unfold D; pose proof (Rabs_pos (atom K lo hi 0)); lra). destruct (@pow_small gamma D (eps / 2) Hg) as (M0 & HM); [lra|lra|]. exists (S M0). intros M y w wt HM0 N1 T1. destruct M as [|M]; [lia|].
  assert (T0 : targ_mean D y). { exists w, wt. split; auto. split; auto. intros s a Hs Ha. unfold D. eapply Rle_trans; [apply Rabs_triang|]. rewrite Rabs_Ropp. apply Rplus_le_compat; [apply mean_range|now apply HBq]. }
  refine (@unless_imp _ rstep (S M) _ _ _ y (@global_rounds kap M D y Hk ltac:(lra) T0)). intros y' (w' & N' & T' & C'). exists w'. split; auto. split; auto. intros s a Hs Ha. eapply Rle_trans; [now apply C'|]. eapply Rle_trans; [apply dn_bound; lra|]. specialize (HM (S M) ltac:(lia)). unfold kap. replace ((FL + eps / 2 * (1 - gamma)) / (1 - gamma)) with (FL / (1 - gamma) + eps / 2) by (field; lra). lra.
Qed.
End Global.
