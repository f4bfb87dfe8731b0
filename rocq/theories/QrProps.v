(** C129: quantile TD learning (EmpiricalQuantileDist) in training. *)
From Coq Require Import List Lia Bool Arith Reals Lra.
From Verif Require Import PyCommon CommonProofs UtilsModel UtilsSpec UtilsProofs2 UtilsProofs3 DistModel DistSpec DistProofs LossModel QModel QProofs TDModel TDSpec CoreModel CoreSpec LearnModel LearnProofs3 MbModel MbProofs CatModel CatSpec CatProofs3 QrModel QrSpec QrProofs QrProofs2.
Import ListNotations.
Set Implicit Arguments.
Local Open Scope R_scope.

(** The data of the examples: one state, two actions, two quantiles; the action values of the data are 2 and 1. *)
Definition ex_rows : list qrow := [mk_q (mk_r 0 0 1 (1/2) 0 0) 1 [1/4; 3/4]; mk_q (mk_r 0 1 0 (1/2) 0 0) 100 [1/3; 1/2]].
Definition ex_b : fbatch nat := mk_fb [0%nat; 0%nat] [one_hot 2 0; one_hot 2 1] [1; 100] (mk_tb [1; 0] [1/2; 1/2] [0%nat; 0%nat] [one_hot 2 0; one_hot 2 0]).
Definition ex_taus : list (list R) := [[1/4; 3/4]; [1/3; 1/2]].
Definition ex_w : list R := [2; 3; 3/4; 1].
Definition ex_q (s a : nat) : R := if Nat.eqb a 0 then 2 else 1.
Definition ex_func (w : list R) : func := mkFunc 0 (Node [0%nat] [Node [0%nat] [Leaf w]]) (Node [] []) 0.
Definition ex_y (tb : bool) : csys := mkC (mkLearner KTD (ex_func ex_w) (sgd (1/10)) (Node [] [])) (if tb then Some (ex_func ex_w) else None).
Lemma ex_in : qrows_in 1 2 2 (1/2) (1/4) ex_rows.
Proof. split; [intros x [<-|[<-|[]]]; cbn; repeat split; try lia; lra|]. intros x [<-|[<-|[]]]; (split; [reflexivity|]); intros t [<-|[<-|[]]]; lra. Qed.
Lemma ex_holds : forall alg, holds_qrows 2 alg ex_rows ex_b ex_taus.
Proof. intros alg. repeat split; reflexivity. Qed.
Lemma ex_nets : forall tb sub, sub 0%nat 0%nat = true -> nets 1 2 2 (1/10) sub (ex_y tb) ex_w ex_w.
Proof. intros tb sub H. destruct tb; repeat split; auto. Qed.
Lemma ex_grads : forall alg, exists g, qh_grads 1 2 2 alg g ex_rows ex_b ex_taus.
Proof. intros alg. eexists. apply (@qgrads_exist 1 2 2 ltac:(lia) alg (1/2) (1/4) ex_rows ex_b ex_taus); try lra; auto using ex_in, ex_holds. discriminate. Qed.
Lemma ex_good : forall alg, exists g, good_update 1 2 2 (1/2) (1/4) (1/10) 1 2 alg g ex_q ex_rows ex_b ex_taus.
Proof.
  intros alg. destruct (ex_grads alg) as (g & G). exists g. split; [discriminate|]. split; [cbn; lia|]. split; [apply ex_in|]. split; [apply ex_holds|]. split; [intros x [<-|[<-|[]]]; unfold ex_q; cbn; lra|]. split; [|split; [|exact G]].
  - intros x [<-|[<-|[]]]; unfold cwt; cbn; unfold Rmin; repeat destruct (Rle_dec _ _); unfold Rmax; repeat destruct (Rle_dec _ _); lra.
  - intros _ x a [<-|[<-|[]]] Ha Na; cbn in *; destruct a; try lia; unfold ex_q; cbn; lra.
Qed.
Lemma ex_covers : covers 1 2 [QU ex_b ex_taus].
Proof.
  intros s a Hs Ha. destruct s; [|lia]. exists (QU ex_b ex_taus). split; [now left|]. exists ex_b, ex_taus, a. split; [reflexivity|]. destruct a as [|[|a]]; [| |lia]; (split; [reflexivity|]); eexists; (split; [reflexivity|]); reflexivity.
Qed.

(** What is observed of a table of values. *)
Theorem C129_calls : forall nS nA K lr sub y w wt s a, (1 <= K)%nat -> nets nS nA K lr sub y w wt -> (s < nS)%nat -> (a < nA)%nat ->
  (exists z, call_values nS nA K y s a = Ok z /\ length z = K /\ forall k, (k < K)%nat -> nth k z 0 = val nA K w s a k) /\ call_qmean nS nA K y s a = Ok (val_mean nA K w s a).
Proof.
  intros nS nA K lr sub y w wt s a HK (_ & N & _) Hs Ha. unfold call_values, call_qmean. rewrite N. cbn [unwrap]. split; [|now rewrite mean_eq].
  rewrite logits_row by auto. eexists. split; [reflexivity|]. unfold lgl. split; [now rewrite map_length, seq_length|]. intros k Hk. rewrite nth_seq_map by auto. reflexivity.
Qed.
Print Assumptions C129_calls.
Example C129_calls_ex : exists sub, nets 1 2 2 (1/10) sub (ex_y true) ex_w ex_w /\ val_mean 2 2 ex_w 0 0 = 5/2.
Proof. exists (fun _ _ => true). split; [now apply ex_nets|]. unfold val_mean, val. cbn. field. Qed.

(** One update, of Sarsa or QLearning, with a target network or without: every value moves by the weighted pulls of the targets of its pair. *)
Theorem C129_update : forall nS nA K gamma t0 lr rows b taus alg g sub y w wt, (1 <= K)%nat -> 0 <= t0 <= 1 - t0 -> qrows_in nS nA K gamma t0 rows -> holds_qrows nA alg rows b taus -> rows <> [] -> qh_grads nS nA K alg g rows b taus ->
  nets nS nA K lr sub y w wt -> quses_next nA K alg wt rows ->
  exists y' w' wt', qstep nS nA K alg g sub y (QU b taus) = (y', Ok tt) /\ nets nS nA K lr sub y' w' wt' /\ (c_targ y <> None -> wt' = wt) /\ c_targ y' = c_targ y /\
  forall s a k, (s < nS)%nat -> (a < nA)%nat -> (k < K)%nat -> val nA K w' s a k = val nA K w s a k + lr / (INR (length rows) * INR K) * qpair_sum s a (fun x => cwt x * row_pull nA K wt x k (val nA K w s a k)) rows.
Proof. intros nS nA K gamma t0 lr rows b taus alg g sub y w wt HK [T0 T1] HB HR NE HG HN U. exact (@qstep_update nS nA K HK alg gamma t0 rows b taus T0 HB HR NE lr g sub HG T1 y w wt HN U). Qed.
Print Assumptions C129_update.
Example C129_update_ex : exists g sub, qrows_in 1 2 2 (1/2) (1/4) ex_rows /\ holds_qrows 2 CQ ex_rows ex_b ex_taus /\ qh_grads 1 2 2 CQ g ex_rows ex_b ex_taus /\ nets 1 2 2 (1/10) sub (ex_y true) ex_w ex_w /\ quses_next 2 2 CQ ex_w ex_rows.
Proof.
  destruct (ex_grads CQ) as (g & G). exists g, (fun _ _ => true). split; [apply ex_in|]. split; [apply ex_holds|]. split; [exact G|]. split; [now apply ex_nets|]. intros x a Hx Ha Na. assert (a = 1%nat) by (destruct Hx as [<-|[<-|[]]]; cbn in Na; lia). subst a. destruct Hx as [<-|[<-|[]]]; unfold val_mean, val; cbn; lra.
Qed.
(** A soft update of q_targ mixes the two tables, entry by entry, and leaves q as it is. *)
Theorem C129_sync : forall nS nA K alg g lr sub tau y w wt, nets nS nA K lr sub y w wt -> c_targ y <> None -> exists y' wt', qstep nS nA K alg g sub y (QSync tau) = (y', Ok tt) /\ nets nS nA K lr sub y' w wt' /\ c_targ y' <> None /\
  forall s a k, (s < nS)%nat -> (a < nA)%nat -> (k < K)%nat -> val nA K wt' s a k = tau * val nA K w s a k + (1 - tau) * val nA K wt s a k.
Proof. intros. eapply qstep_sync; eauto. Qed.
Print Assumptions C129_sync.
Example C129_sync_ex : exists sub, nets 1 2 2 (1/10) sub (ex_y true) ex_w ex_w /\ c_targ (ex_y true) <> None.
Proof. exists (fun _ _ => true). split; [now apply ex_nets|discriminate]. Qed.
(** Batches whose Rn or In have a wrong length are rejected, and nothing but the random key changes. *)
Lemma qaffine_shape : forall K Z In Rn, (forall z, List.In z Z -> length z = K) -> length In <> length Z \/ length Rn <> length Z -> qd_affine K In Rn Z = Err EType.
Proof.
  intros K Z. induction Z as [|z Z IH]; intros [|i In] [|r Rn] HZ HL; cbn [qd_affine]; auto; try (cbn in HL; lia). rewrite (HZ z) by (now left). rewrite Nat.eqb_refl. rewrite IH; auto; [intros z' Hz; apply HZ; now right|cbn [length] in HL; lia].
Qed.
Theorem C129_shapes : forall nS nA K gamma t0 lr rows b taus alg g sub y w wt Rn In, (1 <= K)%nat -> 0 <= t0 -> qrows_in nS nA K gamma t0 rows -> holds_qrows nA alg rows b taus -> nets nS nA K lr sub y w wt -> quses_next nA K alg wt rows ->
  length Rn <> length rows /\ length Rn <> 1%nat \/ length In <> length rows /\ length In <> 1%nat ->
  exists l', qstep nS nA K alg g sub y (QU (mk_fb (fb_S b) (fb_A b) (fb_W b) (mk_tb Rn In (tb_Snext (fb_t b)) (tb_Anext (fb_t b)))) taus) = (mkC l' (c_targ y), Err EType) /\
  f_params (l_func l') = f_params (l_func (c_q y)) /\ f_state (l_func l') = f_state (l_func (c_q y)) /\ l_ostate l' = l_ostate (c_q y).
Proof.
  intros nS nA K gamma t0 lr rows b taus alg g sub y w wt Rn In HK T0 HB HR (N1 & N2 & N3 & N4 & N5) U BAD. assert (T : unwrap (match c_targ y with Some f => f_params f | None => f_params (l_func (c_q y)) end) = Some wt). { destruct (c_targ y) as [f|]; [destruct N5 as (-> & _); apply unwrap_wrap|]. rewrite N2, N5. apply unwrap_wrap. }
  set (b' := mk_fb _ _ _ _). assert (L : qd_loss nS nA K alg wt taus b' w = Err EType).
  { unfold b', qd_loss, qd_target. cbn [fb_S fb_A fb_t fb_W]. replace (qd_next nS nA K alg wt (mk_tb Rn In (tb_Snext (fb_t b)) (tb_Anext (fb_t b)))) with (qd_next nS nA K alg wt (fb_t b)) by (destruct alg; reflexivity).
    pose proof (@row_bounds nS nA K gamma t0 rows HB) as RB. pose proof (@qnext_eq nS nA K alg gamma t0 rows b taus HB HR wt U) as QN. destruct HR as (R1 & R2 & R3 & R4 & R5 & R6 & R7 & R8). rewrite R1, R2. rewrite (@qvalues_rows nS nA K rows w (fun x => w_s (q_row x)) (fun x => w_a (q_row x))) by (intros x Hx; destruct (RB x Hx) as (A & B & _); auto). cbn [bind]. rewrite QN. cbn [bind tb_Snext tb_In tb_Rn]. rewrite R7.
    rewrite (@qvalues_rows nS nA K rows wt (fun x => w_next (q_row x)) (fun x => w_anext (q_row x))) by (intros x Hx; destruct (RB x Hx) as (_ & _ & A & B & _); auto). cbn [bind]. rewrite qaffine_shape; auto; [intros z Hz; apply in_map_iff in Hz; destruct Hz as (x & <- & _); apply lgl_length|rewrite map_length; lia]. }
  cbn [qstep]. rewrite T. unfold update. rewrite N2. unfold gm at 1. change (unwrap (Node [0%nat] [Node [0%nat] [Leaf w]])) with (Some w). cbn iota. rewrite L. cbn [bind]. eexists. split; [reflexivity|]. cbn. auto.
Qed.
Print Assumptions C129_shapes.
Example C129_shapes_ex : exists Rn : list R, length Rn <> length ex_rows /\ length Rn <> 1%nat /\ qrows_in 1 2 2 (1/2) (1/4) ex_rows /\ holds_qrows 2 CQ ex_rows ex_b ex_taus /\ nets 1 2 2 (1/10) (fun _ _ => true) (ex_y true) ex_w ex_w /\ quses_next 2 2 CQ ex_w ex_rows.
Proof. destruct C129_update_ex as (g & sub & D & H & G & _ & U). exists [1; 1; 1]. split; [discriminate|]. split; [discriminate|]. split; [exact D|]. split; [exact H|]. split; [now apply ex_nets|exact U]. Qed.
(** Without a target network there is nothing to synchronise: AttributeError, after whatever updates. *)
Theorem C129_no_target : forall nS nA K alg g sub y os y1 tau os', c_targ y = None -> qrun nS nA K alg g sub y os = (y1, Ok tt) -> qrun nS nA K alg g sub y (os ++ QSync tau :: os') = (y1, Err EAttribute).
Proof.
  intros nS nA K alg g sub y os. revert y. induction os as [|o os IH]; intros y y1 tau os' N E; cbn [app qrun] in *.
  - injection E as <-. unfold qstep. now rewrite N.
  - destruct (qstep nS nA K alg g sub y o) as [y2 [u|e]] eqn:S; [|discriminate]. apply IH; auto. destruct o as [b taus|t]; cbn [qstep] in S; [|rewrite N in S; discriminate]. destruct (unwrap _) as [targ|]; [|discriminate]. destruct (update _ _) as [l r]. injection S as <- _. exact N.
Qed.
Print Assumptions C129_no_target.
Example C129_no_target_ex : c_targ (ex_y false) = None /\ exists g sub y1, qrun 1 2 2 CQ g sub (ex_y false) [QU ex_b ex_taus] = (y1, Ok tt).
Proof.
  split; [reflexivity|]. destruct C129_update_ex as (g & sub & D & H & G & _ & U). exists g, (fun _ _ => true).
  destruct (@C129_update 1 2 2 (1/2) (1/4) (1/10) ex_rows ex_b ex_taus CQ g (fun _ _ => true) (ex_y false) ex_w ex_w) as (y' & w' & wt' & E & _); auto; [lra|discriminate|now apply ex_nets|]. exists y'. cbn [qrun]. now rewrite E.
Qed.

Lemma both_calls : forall nS nA K lr sub q eps tb y, (1 <= K)%nat -> both nS nA K lr sub q eps tb y ->
  forall s a, (s < nS)%nat -> (a < nA)%nat -> exists z m, call_values nS nA K y s a = Ok z /\ length z = K /\ (forall x, In x z -> Rabs (x - q s a) <= eps) /\ call_qmean nS nA K y s a = Ok m /\ Rabs (m - q s a) <= eps.
Proof.
  intros nS nA K lr sub q eps tb y HK (w & wt & N & W & _) s a Hs Ha. destruct (@C129_calls nS nA K lr sub y w wt s a HK N Hs Ha) as ((z & Z1 & Z2 & Z3) & Z4). exists z, (val_mean nA K w s a). split; [exact Z1|]. split; [exact Z2|]. split; [|split; [exact Z4|now apply mean_within with (nS := nS)]].
  intros x Hx. apply In_nth with (d := 0) in Hx. destruct Hx as (k & Hk & <-). rewrite Z2 in Hk. rewrite Z3 by auto. now apply W.
Qed.

(** Deterministic data, Sarsa: however the values start, after enough stretches of calls in which every pair is visited, every quantile of every
    pair, and so q.mean, is within eps of the action value. *)
Theorem C129_converges : forall nS nA K B gamma t0 lr margin tau0 g sub q eps D, (1 <= K)%nat -> 0 <= gamma < 1 -> 0 < t0 -> 0 < lr -> (1 <= B)%nat -> 0 < tau0 <= 1 -> 0 < eps ->
  exists M0, forall segs y w wt, (M0 <= length segs)%nat -> Forall (Forall (good_op nS nA K gamma t0 lr margin B CSarsa g q)) segs -> Forall (stretch nS nA (match c_targ y with Some _ => true | None => false end) tau0) segs ->
  nets nS nA K lr sub y w wt -> (forall s a k, (s < nS)%nat -> (a < nA)%nat -> (k < K)%nat -> Rabs (val nA K w s a k - q s a) <= D /\ Rabs (val nA K wt s a k - q s a) <= D) ->
  exists y', qrun nS nA K CSarsa g sub y (concat segs) = (y', Ok tt) /\
  forall s a, (s < nS)%nat -> (a < nA)%nat -> exists z m, call_values nS nA K y' s a = Ok z /\ length z = K /\ (forall x, In x z -> Rabs (x - q s a) <= eps) /\ call_qmean nS nA K y' s a = Ok m /\ Rabs (m - q s a) <= eps.
Proof.
  intros nS nA K B gamma t0 lr margin tau0 g sub q eps D HK Hg Ht Hlr HB1 Htau He.
  destruct (@qr_converges nS nA K B gamma t0 lr margin HK Hg Ht Hlr CSarsa g sub q tau0 Htau eps (Rmax 0 D) HB1 He (Rmax_l 0 D) ltac:(discriminate)) as (M0 & H). exists M0. intros segs y w wt HL GO ST N I.
  destruct (H segs _ y HL GO ST) as (y' & E & P).
  - exists w, wt. split; [exact N|]. split; [|split; [|destruct (c_targ y); split; congruence]]; intros s a k Hs Ha Hk; destruct (I s a k Hs Ha Hk); (eapply Rle_trans; [|apply Rmax_r]); auto.
  - exists y'. split; [exact E|]. eapply both_calls; eauto.
Qed.
Print Assumptions C129_converges.
Example C129_converges_ex : forall tb, exists g sub segs, good_op 1 2 2 (1/2) (1/4) (1/10) 1 2 CSarsa g ex_q (QU ex_b ex_taus) /\ length segs = 1000%nat /\ Forall (Forall (good_op 1 2 2 (1/2) (1/4) (1/10) 1 2 CSarsa g ex_q)) segs /\
  Forall (stretch 1 2 tb (1/2)) segs /\ nets 1 2 2 (1/10) sub (ex_y tb) ex_w ex_w /\ (tb = true <-> c_targ (ex_y tb) <> None).
Proof.
  intros tb. destruct (ex_good CSarsa) as (g & G). exists g, (fun _ _ => true), (repeat (QU ex_b ex_taus :: if tb then [QSync (1/2)] else []) 1000). split; [econstructor; exact G|]. split; [apply repeat_length|]. split; [|split; [|split; [now apply ex_nets|destruct tb; cbn; split; congruence]]].
  - apply Forall_forall. intros l Hl. apply repeat_spec in Hl. subst l. constructor; [econstructor; exact G|]. destruct tb; constructor; [constructor; lra|constructor].
  - apply Forall_forall. intros l Hl. apply repeat_spec in Hl. subst l. destruct tb; cbn.
    + exists [QU ex_b ex_taus], [QSync (1/2)], (1/2). split; [reflexivity|]. split; [apply ex_covers|]. split; [now left|lra].
    + split; [apply ex_covers|]. intros tau [H|[]]. discriminate.
Qed.

(** Deterministic data, QLearning: the same, from tables that are close to the values of the data, compared to the margin of their greedy actions. *)
Theorem C129_control : forall nS nA K B gamma t0 lr margin tau0 g sub q eps D, (1 <= K)%nat -> 0 <= gamma < 1 -> 0 < t0 -> 0 < lr -> (1 <= B)%nat -> 0 < tau0 <= 1 -> 0 < eps -> 0 <= D -> 2 * D < margin ->
  exists M0, forall segs y w wt, (M0 <= length segs)%nat -> Forall (Forall (good_op nS nA K gamma t0 lr margin B CQ g q)) segs -> Forall (stretch nS nA (match c_targ y with Some _ => true | None => false end) tau0) segs ->
  nets nS nA K lr sub y w wt -> (forall s a k, (s < nS)%nat -> (a < nA)%nat -> (k < K)%nat -> Rabs (val nA K w s a k - q s a) <= D /\ Rabs (val nA K wt s a k - q s a) <= D) ->
  exists y', qrun nS nA K CQ g sub y (concat segs) = (y', Ok tt) /\
  forall s a, (s < nS)%nat -> (a < nA)%nat -> exists z m, call_values nS nA K y' s a = Ok z /\ length z = K /\ (forall x, In x z -> Rabs (x - q s a) <= eps) /\ call_qmean nS nA K y' s a = Ok m /\ Rabs (m - q s a) <= eps.
Proof.
  intros nS nA K B gamma t0 lr margin tau0 g sub q eps D HK Hg Ht Hlr HB1 Htau He HD HM.
  destruct (@qr_converges nS nA K B gamma t0 lr margin HK Hg Ht Hlr CQ g sub q tau0 Htau eps D HB1 He HD ltac:(auto)) as (M0 & H). exists M0. intros segs y w wt HL GO ST N I.
  destruct (H segs _ y HL GO ST) as (y' & E & P).
  - exists w, wt. split; [exact N|]. split; [|split; [|destruct (c_targ y); split; congruence]]; intros s a k Hs Ha Hk; destruct (I s a k Hs Ha Hk); auto.
  - exists y'. split; [exact E|]. eapply both_calls; eauto.
Qed.
Print Assumptions C129_control.
Definition ex_w2 : list R := [2; 9/4; 3/4; 1].
Example C129_control_ex : exists g sub, good_op 1 2 2 (1/2) (1/4) (1/10) 1 2 CQ g ex_q (QU ex_b ex_taus) /\ stretch 1 2 false 1 [QU ex_b ex_taus] /\ nets 1 2 2 (1/10) sub (mkC (mkLearner KTD (ex_func ex_w2) (sgd (1/10)) (Node [] [])) None) ex_w2 ex_w2 /\
  2 * (1/4) < 1 /\ forall s a k, (s < 1)%nat -> (a < 2)%nat -> (k < 2)%nat -> Rabs (val 2 2 ex_w2 s a k - ex_q s a) <= 1/4.
Proof.
  destruct (ex_good CQ) as (g & G). exists g, (fun _ _ => true). split; [econstructor; exact G|]. split; [split; [apply ex_covers|intros tau [H|[]]; discriminate]|]. split; [repeat split|]. split; [lra|].
  intros s a k Hs Ha Hk. destruct s; [|lia]. destruct a as [|[|a]]; [| |lia]; (destruct k as [|[|k]]; [| |lia]); unfold val, ex_q; cbn; apply Rabs_le; lra.
Qed.

(** Random rewards: the values that no update changes any more are not unique, and their mean is not the mean of the data. *)
Definition rnd_rows : list qrow := map (fun r => mk_q (mk_r 0 0 r 0 0 0) 1 [1/4; 3/4]) [0; 10; 20; 30].
Definition rnd_b : fbatch nat := mk_fb (repeat 0%nat 4) (repeat [1] 4) (repeat 1 4) (mk_tb [0; 10; 20; 30] (repeat 0 4) (repeat 0%nat 4) (repeat [1] 4)).
Definition rnd_taus : list (list R) := repeat [1/4; 3/4] 4.
Lemma rnd_in : qrows_in 1 1 2 (1/2) (1/4) rnd_rows.
Proof. split; [intros x [<-|[<-|[<-|[<-|[]]]]]; cbn; repeat split; try lia; lra|]. intros x [<-|[<-|[<-|[<-|[]]]]]; (split; [reflexivity|]); intros t [<-|[<-|[]]]; lra. Qed.
Lemma rnd_holds : forall alg, holds_qrows 1 alg rnd_rows rnd_b rnd_taus.
Proof. intros alg. repeat split; reflexivity. Qed.
Lemma rnd_uses : forall alg wt, quses_next 1 2 alg wt rnd_rows.
Proof. intros [|] wt; [exact I|]. intros x a [<-|[<-|[<-|[<-|[]]]]] Ha Na; cbn in Na; lia. Qed.
Lemma pull_far : forall tau e, 1 <= e -> pull tau e = tau.
Proof. intros tau e H. unfold pull. destruct (Rlt_dec e 0); [lra|]. rewrite Rmin_right, Rmax_right by lra. ring. Qed.
Lemma pull_below : forall tau e, e <= -1 -> pull tau e = - (1 - tau).
Proof. intros tau e H. unfold pull. destruct (Rlt_dec e 0); [|lra]. rewrite Rmin_left by lra. rewrite Rmax_left by lra. ring. Qed.
Lemma rnd_pull : forall wt k v, (k = 0%nat /\ 1 <= v <= 9) \/ (k = 1%nat /\ 21 <= v <= 29) -> qpair_sum 0 0 (fun x => cwt x * row_pull 1 2 wt x k v) rnd_rows = 0.
Proof.
  intros wt k v H. assert (C : forall r, cwt (mk_q (mk_r 0 0 r 0 0 0) 1 [1/4; 3/4]) = 1) by (intros r; unfold cwt; cbn; rewrite Rmin_left, Rmax_right by lra; reflexivity). unfold qpair_sum, rnd_rows, row_pull. cbn [map q_row q_taus w_r w_in w_next w_anext at_pair w_s w_a Nat.eqb andb seq]. rewrite !C, !Rmult_0_l. unfold total. cbn [fold_right].
  destruct H as [[-> H]|[-> H]]; cbn [nth]; rewrite (@pull_below _ (0 + 0 - v)) by lra; rewrite (@pull_far _ (30 + 0 - v)) by lra.
  - rewrite (@pull_far _ (10 + 0 - v)), (@pull_far _ (20 + 0 - v)) by lra. lra.
  - rewrite (@pull_below _ (10 + 0 - v)), (@pull_below _ (20 + 0 - v)) by lra. lra.
Qed.
Theorem C129_limits_refuted : exists rows b taus q, qrows_in 1 1 2 (1/2) (1/4) rows /\ (forall alg, holds_qrows 1 alg rows b taus) /\ data_q 1 1 (map q_row rows) q /\
  forall lr alg g sub, qh_grads 1 1 2 alg g rows b taus -> forall v1 v2, 1 <= v1 <= 9 -> 21 <= v2 <= 29 -> forall n y wt, nets 1 1 2 lr sub y [v1; v2] wt ->
  exists y', qrun 1 1 2 alg g sub y (repeat (QU b taus) n) = (y', Ok tt) /\ call_values 1 1 2 y' 0 0 = Ok [v1; v2] /\ call_qmean 1 1 2 y' 0 0 = Ok ((v1 + v2) / 2) /\ q 0%nat 0%nat = 15.
Proof.
  exists rnd_rows, rnd_b, rnd_taus, (fun _ _ => 15). split; [apply rnd_in|]. split; [apply rnd_holds|]. split.
  { intros s a Hs Ha. destruct s; [|lia]. destruct a; [|lia]. unfold pair_mean, pair_sum. cbn. field. }
  intros lr alg g sub HG v1 v2 H1 H2. induction n as [|n IH]; intros y wt HN.
  - exists y. split; [reflexivity|]. destruct (@C129_calls 1 1 2 lr sub y _ wt 0 0 ltac:(lia) HN ltac:(lia) ltac:(lia)) as ((z & Z1 & Z2 & Z3) & Z4). destruct z as [|z1 [|z2 [|? ?]]]; try discriminate. pose proof (Z3 0%nat ltac:(lia)) as A. pose proof (Z3 1%nat ltac:(lia)) as B. cbn in A, B. subst z1 z2. split; [exact Z1|]. split; [|reflexivity]. rewrite Z4. unfold val_mean, val. cbn. f_equal. field.
  - destruct (@qstep_update 1 1 2 ltac:(lia) alg (1/2) (1/4) rnd_rows rnd_b rnd_taus ltac:(lra) rnd_in (rnd_holds alg) ltac:(discriminate) lr g sub HG ltac:(lra) y [v1; v2] wt HN (rnd_uses alg wt)) as (y' & w' & wt' & E & N' & _ & _ & EV).
    assert (w' = [v1; v2]) as ->. { pose proof (EV 0%nat 0%nat 0%nat ltac:(lia) ltac:(lia) ltac:(lia)) as A. pose proof (EV 0%nat 0%nat 1%nat ltac:(lia) ltac:(lia) ltac:(lia)) as B. rewrite rnd_pull in A by (left; split; [reflexivity|exact H1]). rewrite rnd_pull in B by (right; split; [reflexivity|exact H2]). destruct N' as (_ & _ & L & _). destruct w' as [|z1 [|z2 [|? ?]]]; try discriminate. unfold val in A, B. cbn in A, B. f_equal; [lra|f_equal; lra]. }
    destruct (IH y' wt' N') as (y'' & E2 & R). exists y''. split; [|exact R]. cbn [repeat qrun]. rewrite E. exact E2.
Qed.
Print Assumptions C129_limits_refuted.
Example C129_limits_refuted_ex : exists g sub, qh_grads 1 1 2 CSarsa g rnd_rows rnd_b rnd_taus /\ nets 1 1 2 (1/10) sub (mkC (mkLearner KTD (ex_func [1; 21]) (sgd (1/10)) (Node [] [])) None) [1; 21] [1; 21].
Proof. eexists. exists (fun _ _ => true). split; [apply (@qgrads_exist 1 1 2 ltac:(lia) CSarsa (1/2) (1/4) rnd_rows rnd_b rnd_taus); try lra; auto using rnd_in, rnd_holds; discriminate|repeat split]. Qed.
