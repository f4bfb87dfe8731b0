From Coq Require Import List Lia Bool Arith Reals Lra.
From Verif Require Import PyCommon CommonProofs UtilsModel UtilsSpec UtilsProofs2 UtilsProofs3 WrappersProofs DistModel DistSpec DistProofs DistProofs2 DistProofs3 LossModel LossSpec LossProofs QModel QProofs QProps TDModel TDSpec TDProofs TDProofs2 TDProofs3 TDProofs4 CoreModel CoreSpec CoreProofs CoreProofs2 TracerModel WorkerModel LearnModel LearnSpec LearnProofs LearnProofs2 LearnProofs3 LearnProofs4.
Import ListNotations.
Set Implicit Arguments.
Local Open Scope R_scope.

(** * Gradients computed by a formula *)
Fixpoint decode (v : list R) : nat := match v with [] => 0%nat | x :: v' => if Req_EM_T x 0 then S (decode v') else 0%nat end.
Lemma decode_at : forall v a, (a < length v)%nat -> (forall k, (k < a)%nat -> nth k v 0 = 0) -> nth a v 0 <> 0 -> decode v = a.
Proof.
  induction v as [|x v IH]; intros a Ha H N; cbn in Ha; [lia|]. cbn [decode]. destruct a as [|a].
  - cbn in N. destruct (Req_EM_T x 0); congruence.
  - pose proof (H 0%nat ltac:(lia)) as H0. cbn in H0. destruct (Req_EM_T x 0); [|congruence]. f_equal. apply IH; [lia| |exact N]. intros k Hk. apply (H (S k)). lia.
Qed.
Lemma decode_one_hot : forall n a, (a < n)%nat -> decode (one_hot n a) = a.
Proof.
  intros n a Ha. apply decode_at; [now rewrite one_hot_length| |].
  - intros k Hk. rewrite nth_one_hot by lia. destruct (Nat.eqb_spec k a); [lia|auto].
  - rewrite nth_one_hot by lia. rewrite Nat.eqb_refl. lra.
Qed.
Section Analytic.
Variables nS nA : nat.
Hypothesis HA : (1 <= nA)%nat.
Variables (l' : R -> R -> R) (target : list R -> list R -> tbatch nat -> outcome (list R)).
Definition analytic (th targ : list R) (b : fbatch nat) : list R :=
  let rows := combine (fb_S b) (map decode (fb_A b)) in
  let G := match target th targ (fb_t b) with Ok G => G | Err _ => [] end in
  map (fun k => total (map (fun i => let r := nth i rows (0, 0)%nat in nth i (clip_w (fb_W b)) 0 * l' (nth i G 0) (tq nA th (fst r) (snd r)) * nth k (one_hot (nS * nA) (fst r * nA + snd r)) 0) (seq 0 (length rows))) / INR (length rows)) (seq 0 (length th)).
Lemma genuine_rows : forall dyn gamma rows b, genuine nS nA dyn gamma rows b -> forall s a, In (s, a) rows -> (s < nS)%nat /\ (a < nA)%nat.
Proof.
  intros dyn gamma rows b (NE & HS & HAc & HW & L1 & L2 & L3 & GE) s a I. apply In_nth_error in I. destruct I as [i I]. assert (i < length rows)%nat by (apply nth_error_Some; congruence). destruct (nth_error (tb_Snext (fb_t b)) i) as [s'|] eqn:N; [|apply nth_error_None in N; lia]. destruct (GE _ _ _ _ I N) as (? & ? & _). auto.
Qed.
Lemma decode_rows : forall dyn gamma rows b, genuine nS nA dyn gamma rows b -> combine (fb_S b) (map decode (fb_A b)) = rows.
Proof.
  intros dyn gamma rows b G. pose proof (genuine_rows G) as GR. destruct G as (NE & -> & -> & _). clear NE. rewrite map_map. induction rows as [|[s a] rows IH]; auto. cbn [map combine fst snd]. destruct (GR s a (or_introl eq_refl)). rewrite decode_one_hot by auto. f_equal. apply IH. intros; apply GR; now right.
Qed.
Lemma analytic_differentiates : forall net l dyn gamma val, tabular nS nA net -> (forall y h, derivable_pt_lim (l y) h (l' y h)) -> sound_target nS nA target val -> differentiates nS nA dyn gamma net target (zip_loss l) analytic.
Proof.
  intros net l dyn gamma val T Dl ST th targ rows b L Lt GEN. pose proof (genuine_rows GEN) as HR. pose proof (decode_rows GEN) as DR. destruct GEN as (NE & HS & HAc & HW & L1 & L2 & L3 & GE).
  destruct (ST th targ (fb_t b) Lt) as (G & TG & LG & _); [split; lia| |].
  { intros s Hs. apply In_nth_error in Hs. destruct Hs as [i Hi]. assert (i < length rows)%nat by (rewrite <- L3; apply nth_error_Some; congruence). destruct (nth_error rows i) as [[s0 a0]|] eqn:R0; [|apply nth_error_None in R0; lia]. now destruct (GE _ _ _ _ R0 Hi) as (_ & _ & ? & _). }
  unfold analytic. rewrite DR, TG. apply (@table_gradient nS nA HA net T l l' Dl target rows b th targ G th HS HAc HW ltac:(lia) NE HR TG L).
Qed.
End Analytic.

(** * The loop *)
Section Loops.
Variables nS nA : nat.
Variable net : list R -> qfun nat R.
Variable dyn : nat -> nat -> nat * R * bool.
Hypothesis CL : closed nS nA dyn.
Variable gamma : R.
Hypothesis Hg : 0 <= gamma <= 1.
Variables (target : list R -> list R -> tbatch nat -> outcome (list R)) (loss : list R -> list R -> option (list R) -> outcome (option R)) (grads : list R -> list R -> fbatch nat -> list R) (sub : nat -> nat -> bool).
Notation ystep := (ystep nA net target loss grads sub).
Notation yrun := (yrun nA net target loss grads sub).
Notation loop := (loop nA net target loss grads sub 1 gamma).
(** The transition recorded for a call that is followed by [c'] or is the last. *)
Definition trans (c : call nat nat) (c' : option (call nat nat)) : single nat nat :=
  match c' with
  | Some d => mkSingle (c_s c) (c_a c) (c_logp c) (0 + gamma ^ 0 * c_r c) (gamma ^ 1 * (1 - 0)) (c_s d) (c_a d) (c_logp d) 1 None
  | None => mkSingle (c_s c) (c_a c) (c_logp c) (0 + gamma ^ 0 * c_r c) (gamma ^ 1 * (1 - 1)) (c_s c) (c_a c) (c_logp c) 1 None
  end.
Fixpoint ops (cs : list (call nat nat)) : list yop :=
  match cs with [] => [] | c :: cs' => YUpdate (batch_of nA [trans c (match cs' with [] => None | d :: _ => Some d end)]) :: ops cs' end.
Lemma from_single_ok : forall s a logp r (d : bool) s' a' logp' e, logp <= 0 -> logp' <= 0 ->
  from_single (S := nat) (A := nat) s a logp r d (gamma ^ 1) s' a' logp' 1 true e = Ok (mkSingle s a logp r (gamma ^ 1 * (1 - if d then 1 else 0)) s' a' logp' 1 e).
Proof.
  intros. unfold from_single. rewrite pow_1. destruct (Rle_dec logp 0); [|contradiction]. destruct (Rle_dec 0 gamma); [|lra]. destruct (Rle_dec gamma 1); [|lra]. destruct (Rle_dec logp' 0); [|contradiction]. destruct (Rlt_dec 0 1); [reflexivity|lra].
Qed.
Definition stp (c : call nat nat) : step nat nat := mkStep (c_s c) (c_a c) (c_logp c) 1 true.
Lemma pop_first : forall c d dn, c_logp c <= 0 -> c_logp d <= 0 -> nstep_pop 1 gamma false (mkN [stp c; stp d] [c_r c; c_r d] dn) = (mkN [stp d] [c_r d] dn, Ok (trans c (Some d))).
Proof. intros c d dn H1 H2. unfold nstep_pop. unfold nstep_bool. cbn [n_s nstep_len length Nat.eqb negb andb n_done Nat.ltb Nat.leb]. rewrite orb_true_r. cbn [negb n_r nth_error stp st_s st_a st_logp st_w st_wnative]. rewrite from_single_ok by auto. reflexivity. Qed.
Lemma pop_last : forall c, c_logp c <= 0 -> nstep_pop 1 gamma false (mkN [stp c] [c_r c] true) = (mkN [] [] true, Ok (trans c None)).
Proof. intros c H1. unfold nstep_pop. unfold nstep_bool. cbn [n_s nstep_len length Nat.eqb negb andb n_done Nat.ltb Nat.leb orb n_r stp st_s st_a st_logp st_w st_wnative]. rewrite from_single_ok by auto. reflexivity. Qed.
Notation plays := (plays nS nA dyn).
Lemma plays_pending : forall cs c, plays (c :: cs) -> cs <> [] -> forall y y' rest, yrun y (ops (c :: cs)) = (y', Ok tt) ->
  loop y (mkN [stp c] [c_r c] false) (cs ++ rest) = loop y' (mkN [] [] true) rest.
Proof.
  induction cs as [|d cs IH]; intros c P NE y y' rest R; [congruence|]. destruct P as (P1 & P2 & P3 & P4 & P5 & P6 & P7 & P8).
  assert (Pd := P8). destruct Pd as (D1 & D2 & D3 & D4 & D5 & D6). cbn [app LearnModel.loop]. unfold loop_step. unfold nstep_add. cbn [n_done andb]. cbn [n_s n_r app]. fold (stp d). cbn [nstep_len length n_s drain].
  assert (B2 : nstep_bool 1 (mkN [stp c; stp d] [c_r c; c_r d] (c_done d)) = true) by (unfold nstep_bool; cbn; apply orb_true_r). rewrite B2, pop_first by auto.
  change (ops (c :: d :: cs)) with (YUpdate (batch_of nA [trans c (Some d)]) :: ops (d :: cs)) in R. cbn [LearnModel.yrun] in R. destruct (ystep y (YUpdate (batch_of nA [trans c (Some d)]))) as [y1 [[]|e]] eqn:Y1; [|discriminate].
  destruct cs as [|d' cs].
  - rewrite D6. unfold nstep_bool at 1. cbn [n_s nstep_len length Nat.eqb negb andb n_done orb]. rewrite pop_last by auto. cbn [ops LearnModel.yrun] in R. destruct (ystep y1 (YUpdate (batch_of nA [trans d None]))) as [y2 [[]|e]] eqn:Y2; [|discriminate]. injection R as <-. reflexivity.
  - destruct D6 as (D6 & D7 & D8). rewrite D6. unfold nstep_bool at 1. cbn [n_s nstep_len length Nat.eqb negb andb n_done orb Nat.ltb Nat.leb]. apply (IH d P8); auto. discriminate.
Qed.
Definition empty (t : nstate nat nat) : Prop := n_s t = [] /\ n_r t = [].
Lemma plays_loop : forall cs, plays cs -> forall y y' t rest, empty t -> yrun y (ops cs) = (y', Ok tt) -> loop y t (cs ++ rest) = loop y' (mkN [] [] true) rest.
Proof.
  intros [|c cs] P y y' [ts tr td] rest [E1 E2] R; [destruct P|]. cbn in E1, E2. subst ts tr. pose proof P as (P1 & P2 & P3 & P4 & P5 & P6). cbn [app LearnModel.loop]. unfold loop_step, nstep_add. cbn [n_done n_s n_r nstep_len length Nat.eqb negb andb]. rewrite andb_false_r. cbn [app]. fold (stp c). cbn [nstep_len length n_s drain].
  destruct cs as [|d cs].
  - rewrite P6. unfold nstep_bool. cbn [n_s nstep_len length Nat.eqb negb andb n_done orb]. rewrite pop_last by auto. cbn [ops LearnModel.yrun] in R. destruct (ystep y (YUpdate (batch_of nA [trans c None]))) as [y2 [[]|e]] eqn:Y2; [|discriminate]. injection R as <-. reflexivity.
  - destruct P6 as (P6 & P7 & P8). rewrite P6. unfold nstep_bool. cbn [n_s nstep_len length Nat.eqb negb andb n_done orb Nat.ltb Nat.leb]. apply (plays_pending P); auto. discriminate.
Qed.
(** The updates use genuine transitions. *)
Lemma trans_genuine : forall c c', (c_s c < nS)%nat -> (c_a c < nA)%nat -> c_r c = reward dyn (c_s c) (c_a c) ->
  match c' with Some d => ends dyn (c_s c) (c_a c) = false /\ c_s d = next dyn (c_s c) (c_a c) | None => ends dyn (c_s c) (c_a c) = true end ->
  genuine nS nA dyn gamma [(c_s c, c_a c)] (batch_of nA [trans c c']) /\ fb_W (batch_of nA [trans c c']) = [1] /\ visits nA (YUpdate (batch_of nA [trans c c'])) (c_s c) (c_a c).
Proof.
  intros c c' Hs Ha Hr H. assert (X : x_s (trans c c') = c_s c /\ x_a (trans c c') = c_a c /\ x_w (trans c c') = 1 /\ x_rn (trans c c') = reward dyn (c_s c) (c_a c) /\ (x_s_next (trans c c') < nS)%nat /\ (if ends dyn (c_s c) (c_a c) then x_in (trans c c') = 0 else x_in (trans c c') = gamma /\ x_s_next (trans c c') = next dyn (c_s c) (c_a c))).
  { destruct c' as [d|]; cbn [trans x_s x_a x_w x_rn x_s_next x_in]; rewrite Hr; [destruct H as [H1 H2]; rewrite H1, H2|rewrite H]; (do 3 (split; [reflexivity|])).
    - split; [cbn [pow]; lra|]. split; [now apply CL|]. split; [rewrite pow_1; lra|auto].
    - split; [cbn [pow]; lra|]. split; [auto|lra]. }
  destruct X as (X1 & X2 & X3 & X4 & X5 & X6). unfold batch_of. cbn [map fb_W fb_S fb_A fb_t]. rewrite X1, X2, X3. split; [|split; [reflexivity|exists 0%nat; split; reflexivity]].
  split; [discriminate|]. cbn [fb_W fb_S fb_A fb_t tb_Rn tb_In tb_Snext map length fst snd]. do 6 (split; [reflexivity|]).
  intros i s a s' N1 N2. destruct i as [|i]; [|destruct i; discriminate]. cbn in N1, N2. injection N1 as <- <-. injection N2 as <-. cbn [nth]. rewrite X4. repeat (split; auto).
Qed.
Lemma ops_ok : forall lr cs, 0 < lr <= 1 -> plays cs -> (forall o, In o (ops cs) -> op_ok nS nA dyn gamma lr 1 1 o /\ exists b, o = YUpdate b) /\ (forall c, In c cs -> exists o, In o (ops cs) /\ visits nA o (c_s c) (c_a c)).
Proof.
  intros lr cs Hlr. assert (W : forall c c', fb_W (batch_of nA [trans c c']) = [1] -> weights_fit lr 1 (batch_of nA [trans c c'])). { intros c c' E w Iw. rewrite E in Iw. destruct Iw as [<-|[]]. rewrite <- wclip. rewrite clip_in by lra. lra. }
  induction cs as [|c cs IH]; intros P; [destruct P|]. destruct P as (P1 & P2 & P3 & P4 & P5 & P6).
  assert (G : genuine nS nA dyn gamma [(c_s c, c_a c)] (batch_of nA [trans c (match cs with [] => None | d :: _ => Some d end)]) /\ fb_W (batch_of nA [trans c (match cs with [] => None | d :: _ => Some d end)]) = [1] /\ visits nA (YUpdate (batch_of nA [trans c (match cs with [] => None | d :: _ => Some d end)])) (c_s c) (c_a c)).
  { apply trans_genuine; auto. destruct cs as [|d cs]; [congruence|]. destruct P6 as (? & ? & _). split; [congruence|auto]. }
  destruct G as (G1 & G2 & G3). cbn [ops]. split.
  - intros o [<-|I]; [split; [exists [(c_s c, c_a c)]; split; [exact G1|split; [now apply W|cbn; lia]]|eauto]|]. destruct cs as [|d cs]; [destruct I|]. destruct P6 as (_ & _ & P8). now apply IH.
  - intros x [<-|I]; [eexists; split; [now left|auto]|]. destruct cs as [|d cs]; [destruct I|]. destruct P6 as (_ & _ & P8). destruct (IH P8) as [_ H]. destruct (H x I) as (o & O1 & O2). exists o. split; auto. now right.
Qed.
Lemma plays_loops : forall es, (forall cs, In cs es -> plays cs) -> forall y y' t rest, empty t -> yrun y (concat (map ops es)) = (y', Ok tt) -> exists t', empty t' /\ loop y t (concat es ++ rest) = loop y' t' rest.
Proof.
  induction es as [|cs es IH]; intros P y y' t rest E R.
  - cbn in R. injection R as <-. exists t. auto.
  - cbn [map concat] in *. rewrite yrun_app in R. destruct (yrun y (ops cs)) as [y1 [[]|e]] eqn:R1; [|discriminate]. rewrite <- app_assoc. rewrite (@plays_loop cs (P cs (or_introl eq_refl)) y y1 t _ E R1). apply IH; auto; [intros; apply P; now right|]. split; reflexivity.
Qed.
End Loops.
