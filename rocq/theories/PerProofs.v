(** Proofs for PerProps.v. *)
From Coq Require Import List Bool Arith ZArith Lia Reals Lra Permutation.
From Verif Require Import PyCommon CommonProofs SegTreeModel SegTreeSpec UtilsModel UtilsSpec UtilsProofs2 UtilsProofs3 WrappersProofs DistModel DistSpec DistProofs DistProofs2 DistProofs3 LossModel LossSpec LossProofs QModel QProofs TDModel TDSpec CoreModel CoreSpec ReplayModel ReplaySpec ReplayProofs PrioModel PrioSpec PrioProofs PrioProofs2 PrioProofs3 PrioProofs4 TracerModel TracerSpec TracerProofs TracerProofs2 WorkerModel PipeModel PipeSpec PipeProofs PipeProofs2 PipeProofs3 PipeProofs4 MeanSpec MeanProofs DrawProofs LearnModel LearnSpec LearnProofs LearnProofs2 LearnProofs3 LearnProofs4 LearnProofs5 LearnProofs6 LearnProofs7 DqnModel DqnSpec DqnProofs PerModel PerSpec.
Import ListNotations.
Set Implicit Arguments.
Local Open Scope R_scope.

Lemma follows_app : forall nS nA dyn es1 es2, follows nS nA dyn (es1 ++ es2) -> follows nS nA dyn es1.
Proof.
  intros nS nA dyn es1 es2. induction es1 as [|e es1 IH]; intros F; [exact I|]. cbn [app follows] in *. destruct F as (F1 & F2 & F3 & F4 & F5 & F6 & F7 & F8 & F9 & F10). do 8 (split; auto). split; [|auto]. destruct es1; auto.
Qed.
Lemma steps_app : forall os1 os2, steps_of (os1 ++ os2) = steps_of os1 ++ steps_of os2.
Proof. induction os1 as [|[] os1 IH]; intros; cbn; auto. now rewrite IH. Qed.
Lemma follows_valid : forall nS nA dyn es, follows nS nA dyn es -> forall e, In e es -> valid_step (es_step e).
Proof.
  induction es as [|e es IH]; intros F x I; [destruct I|]. destruct F as (F1 & F2 & F3 & F4 & F5 & F6 & F7 & F8 & F9 & F10). destruct I as [<-|I]; [|now apply IH]. red. rewrite F4. repeat split; auto; lra.
Qed.

Lemma cut_total : forall S A (ins : list (step S A * R * bool)) cur, (length (concat (fst (cut cur ins))) + length (snd (cut cur ins)) = length cur + length ins)%nat.
Proof.
  induction ins as [|[[x r] d] ins IH]; intros cur; cbn [cut].
  - cbn. lia.
  - destruct d.
    + specialize (IH []). destruct (cut [] ins) as [eps rest]. cbn [fst snd concat length] in *. rewrite !app_length. cbn. lia.
    + rewrite IH, app_length. cbn. lia.
Qed.
Lemma due_length : forall S A n (ins : list (step S A * R * bool)), (length (nstep_due n ins) <= length ins)%nat.
Proof.
  intros S A n ins. pose proof (cut_total ins []) as H. unfold nstep_due. destruct (cut [] ins) as [eps rest]. cbn [fst snd] in H. rewrite app_length, map_length, seq_length. cbn in H.
  assert (X : length (flat_map (fun ep : list (step S A * R) => map (fun t => (ep, true, t)) (seq 0 (length ep))) eps) = length (concat eps)) by (clear; induction eps as [|e l IH]; cbn; auto; rewrite !app_length, map_length, seq_length; lia). lia.
Qed.

Section Per.
Variables nS nA : nat.
Variable dyn : nat -> nat -> nat * R * bool.
Variable gamma : R.
Variable net : list R -> qfun nat R.
Variable target : list R -> list R -> TDModel.tbatch nat -> outcome (list R).
Variable val : valuation.
Variable loss : list R -> list R -> option (list R) -> outcome (option R).
Variable grads : list R -> list R -> fbatch nat -> list R.
Variable tds : list R -> list R -> fbatch nat -> list R.
Variable sub : nat -> nat -> bool.
Variables (lr cl D : R) (B : nat).
Hypothesis SET : setting nS nA dyn gamma net target val loss grads lr (1/10) cl D B.
Hypothesis Hlr1 : lr <= 1.
Hypothesis HTD : forall th targ b, length (tds th targ b) = length (fb_S b).
Variable q : nat -> nat -> R.
Hypothesis BE : bellman nS nA dyn gamma val q.
Variable warm : nat.
Variables (h : list (ReplayModel.tbatch (single nat nat * R))) (cap : nat) (alpha beta0 eps0 : R) (w0 : pworld (single nat nat)).
Hypothesis Hinit : prio_init h cap alpha beta0 eps0 = Ok w0.
Notation good := (good nS nA sub lr q).
Notation ystep := (ystep nA net target loss grads sub).
Notation yrun := (yrun nA net target loss grads sub).
Notation row_ok := (row_ok nS nA dyn gamma).
Notation y_td_error := (y_td_error nA net target loss tds).
Notation per_drain := (per_drain nA net target loss tds 1 gamma).
Notation per_step := (per_step nA net target loss grads tds sub 1 gamma warm).
Notation per_run := (per_run nA net target loss grads tds sub 1 gamma warm).
Notation tr := (traced (@nstep_add nat nat) (nstep_pop 1 gamma false) (nstep_reset nat nat)).
Notation reached := (reached w0).
Notation op_ok := (op_ok nS nA dyn gamma lr (1/10) B).
Lemma Hgam : 0 <= gamma <= 1.
Proof. now destruct SET as (_ & _ & H & _). Qed.

(** One learning operation. *)
Lemma one_op : forall y o, good y D -> op_ok o -> (exists t, y_targ y = Some t) -> exists y', ystep y o = (y', Ok tt) /\ good y' D /\ exists t, y_targ y' = Some t.
Proof.
  intros y o G OK [t YT]. pose proof SET as (HA & CL & Hg & TB & AL & PL & GR & Hlr & Hwl & Hlw & HB & HD). pose proof (table_tabular TB) as T. destruct (algorithm_ok HA T AL) as [ST NX].
  destruct (@never_worse nS nA HA net T dyn CL gamma Hg target val ST NX loss grads sub D cl lr (1/10) B PL GR Hlr Hwl q BE [o] y D) as (y' & R & G' & K); auto; [lra|intros x [<-|[]]; auto|rewrite YT; discriminate|].
  cbn [LearnModel.yrun] in R. destruct (ystep y o) as [y1 [[]|x]] eqn:E; [|discriminate]. injection R as ->. exists y'. split; auto. split; auto. destruct (y_targ y'); eauto. destruct K as [K _]. rewrite YT in K. specialize (K eq_refl). discriminate.
Qed.
Lemma td_ok : forall y y' b, ystep y (YUpdate b) = (y', Ok tt) -> exists advs, y_td_error y b = Ok advs /\ length advs = length (fb_S b).
Proof.
  intros y y' b E. cbn [LearnModel.ystep] in E. unfold update in E. unfold PerModel.y_td_error. unfold grads_and_metrics in E. fold (q_params y) in E. destruct (unwrap (q_params y)) as [th|]; [|discriminate]. destruct (unwrap (targ_params y)) as [targ|]; [|discriminate].
  destruct (q_loss (Some nA) net target loss th targ b th) as [v|x]; [|discriminate]. cbn [bind]. eauto.
Qed.

(** Rows with any weights. *)
Definition unit_w (x : single nat nat) : single nat nat := mkSingle (x_s x) (x_a x) (x_logp x) (x_rn x) (x_in x) (x_s_next x) (x_a_next x) (x_logp_next x) 1 (x_extra x).
Lemma batch_op : forall ys, ys <> [] -> (length ys <= B)%nat -> (forall y, In y ys -> row_ok (unit_w y) /\ 0 < x_w y <= 1) -> op_ok (YUpdate (batch_of nA ys)).
Proof.
  intros ys NE LB OK. pose proof SET as (HA & CL & Hg & TB & AL & PL & GR & Hlr & Hwl & Hlw & HB & HD).
  destruct (@rows_genuine nS nA dyn gamma (map unit_w ys)) as [GE _]; [destruct ys; [congruence|discriminate]|intros y I; apply in_map_iff in I; destruct I as (z & <- & I); now apply OK|].
  exists (map (fun y => (x_s y, x_a y)) ys). split; [|split; [|now rewrite map_length]].
  - rewrite map_map in GE. cbn [x_s x_a unit_w] in GE. destruct GE as (G1 & G2 & G3 & G4 & G5 & G6 & G7 & G8). unfold batch_of in *. cbn [fb_S fb_A fb_W fb_t tb_Rn tb_In tb_Snext] in *. rewrite !map_map in *. cbn [x_s x_a x_rn x_in x_s_next unit_w fst snd] in *. red. cbn [fb_S fb_A fb_W fb_t tb_Rn tb_In tb_Snext]. rewrite !map_map. split; [destruct ys; [congruence|discriminate]|]. split; [reflexivity|]. split; [reflexivity|]. split; [now rewrite !map_length|]. split; [now rewrite !map_length|]. split; [now rewrite !map_length|]. split; [now rewrite !map_length|]. exact G8.
  - intros w I. cbn in I. apply in_map_iff in I. destruct I as (y & <- & I). destruct (OK y I) as [_ W]. unfold Rmax, Rmin. repeat destruct (Rle_dec _ _); split; nra.
Qed.

(** Popped transitions. *)
Lemma traced_rows : forall t es outs, follows nS nA dyn es -> tr t (played es) outs -> forall y, In y outs -> row_ok y.
Proof.
  intros t es outs F (os & V & E) y I. pose proof (@nrun_fresh nat nat 1 gamma false ltac:(lia) Hgam os V) as H. rewrite E in H. destruct H as (pre & post & Du & F2 & _).
  assert (X : exists d, In d pre /\ nstep_spec 1 gamma false (fst (fst d)) (snd (fst d)) (snd d) y). { clear - F2 I. induction F2 as [|d z l m H F IH]; [destruct I|]. destruct I as [<-|I]; [exists d; split; [now left|auto]|]. destruct (IH I) as (d' & ? & ?). exists d'. split; [now right|auto]. }
  destruct X as (((ep & fin) & u) & Id & Sp). cbn [fst snd] in Sp. assert (Id' : In (ep, fin, u) (nstep_due 1 (played es))) by (rewrite Du; apply in_or_app; now left).
  pose proof SET as (_ & CL & _). apply (@episode_row nS nA dyn gamma es y CL F). exists ep, fin, u. split; auto. unfold nstep_due in Id'. destruct (cut [] (played es)) as [eps rest]. cbn [fst snd]. apply in_app_or in Id'. destruct Id' as [Q|Q].
  - apply in_flat_map in Q. destruct Q as (ep' & Ie & Q). apply in_map_iff in Q. destruct Q as (u' & Q & _). injection Q as -> <- <-. exact Ie.
  - apply in_map_iff in Q. destruct Q as (u' & Q & T). injection Q as -> <- <-. apply in_seq in T. split; auto. lia.
Qed.
Lemma traced_length : forall t es outs, tr t (played es) outs -> (length outs <= length es)%nat.
Proof.
  intros t es outs (os & V & E). pose proof (@nrun_fresh nat nat 1 gamma false ltac:(lia) Hgam os V) as H. rewrite E in H. destruct H as (pre & post & Du & F2 & _). pose proof (due_length 1 (played es)) as L. rewrite Du, app_length in L. apply f2_length in F2. unfold played in L. rewrite map_length in L. lia.
Qed.

Lemma unit_row : forall y, row_ok y -> row_ok (unit_w y).
Proof. intros y (H1 & H2 & H3 & H4 & H5 & H6). repeat (split; auto). Qed.

Notation bool1 := (@nstep_bool nat nat 1).
Lemma per_drain_ok : forall y es, good y D -> (exists t, y_targ y = Some t) -> follows nS nA dyn es -> forall fuel p outs,
  ngood (pp_tracer p) -> (nstep_len (pp_tracer p) <= fuel)%nat -> tr (pp_tracer p) (played es) outs -> reached (pp_world p) outs ->
  exists p' ys, per_drain fuel y p = (p', None) /\ ngood (pp_tracer p') /\ bool1 (pp_tracer p') = false /\ tr (pp_tracer p') (played es) (outs ++ ys) /\ reached (pp_world p') (outs ++ ys).
Proof.
  intros y es G YT F. induction fuel as [|fuel IH]; intros p outs Gd Lf Tr R.
  - exists p, []. rewrite app_nil_r. cbn [PerModel.per_drain]. split; auto. split; auto. split; [apply nempty; lia|auto].
  - cbn [PerModel.per_drain]. destruct (bool1 (pp_tracer p)) eqn:Bo.
    2:{ exists p, []. rewrite app_nil_r. auto 10. }
    destruct (@ngood_pop nat nat 1 gamma false (pp_tracer p) ltac:(lia) Hgam Gd Bo) as (x & t' & P & Gd' & L). rewrite P.
    assert (Tr' : tr t' (played es) (outs ++ [x])) by (eapply traced_pop; eauto).
    assert (RO : row_ok x) by (apply (@traced_rows _ _ _ F Tr' x); apply in_or_app; right; now left).
    pose proof SET as (_ & _ & _ & _ & _ & _ & _ & _ & _ & _ & HB & _).
    destruct (@one_op y (YUpdate (batch_of nA [x])) G) as (y' & Y & _); auto.
    { apply batch_op; [discriminate|cbn; lia|]. intros z [<-|[]]. split; [now apply unit_row|]. destruct RO as (_ & _ & W & _). rewrite W. lra. }
    destruct (@td_ok _ _ _ Y) as (advs & TE & TL). rewrite TE. destruct advs as [|adv [|]]; try discriminate.
    destruct (@reached_new nat nat (nstate nat nat) bool1 (@nstep_len nat nat) (@nstep_add nat nat) (nstep_pop 1 gamma false) (@ngood nat nat) (fun t x r d => @ngood_add nat nat 1 t x r d) (fun t => @ngood_pop nat nat 1 gamma false t ltac:(lia) Hgam) (nempty 1) (nstep_reset nat nat) cap h alpha beta0 eps0 w0 Hinit (pp_world p) outs x adv R) as (w' & E & R'). unfold prio_new in E. rewrite E.
    destruct (IH (mkPP t' w') (outs ++ [x])) as (p' & ys & Dr & G1 & B1 & T1 & I1); cbn [pp_tracer pp_world]; auto; [lia|].
    exists p', (x :: ys). rewrite <- app_assoc in T1, I1. cbn [app] in T1, I1. auto 10.
Qed.

(** The invariant of the buffer and the tracer. *)
Definition pok (p : ppipe nat nat (nstate nat nat)) (es : list (envstep nat nat)) : Prop :=
  ngood (pp_tracer p) /\ bool1 (pp_tracer p) = false /\ exists outs, tr (pp_tracer p) (played es) outs /\ reached (pp_world p) outs.
(** What an event is for the learner, and what was sampled. *)
Definition ev_ops (e : event) : list yop := match e with EvBatch out => [YUpdate (batch_of nA (map reweigh out))] | EvSync tau => [YSync tau] | EvOther => [] end.
Definition out_ok (out : list (single nat nat * R * list Z)) : Prop :=
  (1 <= length out <= B)%nat /\ forall o, In o out -> exists x w k, o = (x, w, [Z.of_nat k]) /\ row_ok x /\ 0 < w <= 1.
Definition ev_ok (e : event) : Prop := match e with EvBatch out => out_ok out | EvSync tau => 0 <= tau <= 1 | EvOther => True end.
Lemma out_op : forall out, out_ok out -> op_ok (YUpdate (batch_of nA (map reweigh out))).
Proof.
  intros out [L OK]. apply batch_op; [destruct out; [cbn in L; lia|discriminate]|rewrite map_length; lia|]. intros y I. apply in_map_iff in I. destruct I as (o & <- & I). destruct (OK o I) as (x & w & k & -> & RO & W). cbn [reweigh x_w]. split; auto. apply unit_row in RO. exact RO.
Qed.
Lemma played_snoc : forall (es : list (envstep nat nat)) e, played (es ++ [e]) = played es ++ [(es_step e, es_r e, orb (es_done e) (es_trunc e))].
Proof. intros. unfold played. now rewrite map_app. Qed.

Lemma per_step_ok : forall y p es o, good y D -> (exists t, y_targ y = Some t) -> pok p es -> trop_ok B o -> follows nS nA dyn (es ++ steps_of [o]) -> (Z.of_nat (length es) <= 2147483648)%Z ->
  exists y' p' e, per_step y p o = (y', p', Ok e) /\ yrun y (ev_ops e) = (y', Ok tt) /\ ev_ok e /\ good y' D /\ (exists t, y_targ y' = Some t) /\ pok p' (es ++ steps_of [o]).
Proof.
  intros y p es o G YT (Gd & Bo & outs & Tr & Rc) OK F SM. destruct o as [b|e|us|tau]; cbn [steps_of] in *; rewrite ?app_nil_r in *; cbn [PerModel.per_step].
  - unfold prio_set_beta. cbn in OK. destruct (Rle_dec b 0); [lra|]. eexists y, _, EvOther. split; [reflexivity|]. split; [reflexivity|]. split; [exact I|]. split; auto. split; auto. split; auto. split; auto. exists outs. split; auto.
    pose proof (@reached_keep nat nat w0 (pp_world p) outs (PBeta b) Rc I) as X. cbn [prio_step] in X. unfold prio_set_beta in X. destruct (Rle_dec b 0); [lra|]. exact X.
  - assert (V : valid_step (es_step e)) by (eapply follows_valid; [exact F|apply in_or_app; right; now left]).
    destruct (@ngood_add nat nat 1 (pp_tracer p) (es_step e) (es_r e) (flag_of DoneOrTruncated e) Gd V Bo) as (t1 & E & Gd1). rewrite E.
    assert (Tr1 : tr t1 (played (es ++ [e])) outs). { rewrite played_snoc. eapply traced_add; eauto. }
    destruct (@per_drain_ok y (es ++ [e]) G YT F (nstep_len t1) (mkPP t1 (pp_world p)) outs) as (p' & ys & Dr & G1 & B1 & T1 & I1); auto. rewrite Dr.
    exists y, p', EvOther. split; [reflexivity|]. split; [reflexivity|]. split; [exact I|]. split; auto. split; auto. split; auto. split; auto. exists (outs ++ ys). auto.
  - destruct OK as [LU RU]. destruct (Nat.ltb_spec warm (prio_len (pp_world p))) as [Hw|Hw].
    2:{ exists y, p, EvOther. split; [reflexivity|]. split; [reflexivity|]. split; [exact I|]. split; auto. split; auto. split; auto. split; auto. exists outs. auto. }
    destruct (@reached_view nat nat cap h alpha beta0 eps0 w0 Hinit (pp_world p) outs Rc) as (PL & _ & SM').
    assert (NO : outs <> []). { intros ->. rewrite PL in Hw. cbn in Hw. lia. } assert (NU : us <> []) by (destruct us; [cbn in LU; lia|discriminate]).
    destruct (SM' us NO NU RU) as (ks & out & E & F1 & F2 & _). rewrite E.
    assert (OO : out_ok out).
    { split; [apply f2_length in F1; apply f2_length in F2; lia|]. intros o Io. assert (X : exists k, In k ks /\ exists y0 f, nth_error outs k = Some y0 /\ 0 < f <= 1 /\ o = (y0, x_w y0 * f, [Z.of_nat k])). { clear - F2 Io. induction F2 as [|k z l m H F IH]; [destruct Io|]. destruct Io as [<-|Io]; [exists k; split; [now left|auto]|]. destruct (IH Io) as (k' & ? & ?). exists k'. split; [now right|auto]. }
      destruct X as (k & _ & x & f & Nk & Hf & ->). pose proof (@traced_rows _ _ _ F Tr x (nth_error_In _ _ Nk)) as RO. exists x. eexists. exists k. split; [reflexivity|]. split; auto. destruct RO as (_ & _ & W & _). rewrite W, Rmult_1_l. exact Hf. }
    destruct (@one_op y (YUpdate (batch_of nA (map reweigh out))) G (@out_op _ OO) YT) as (y' & Y & G' & YT'). rewrite Y.
    destruct (@td_ok _ _ _ Y) as (advs & TE & TL). rewrite TE. unfold batch_of in TL. cbn [fb_S] in TL. rewrite !map_length in TL.
    pose proof Rc as Rc'. destruct Rc' as (pos & Al & EW & Ad). rewrite EW in E.
    assert (LL : length advs = length us) by (apply f2_length in F1; apply f2_length in F2; lia). assert (LO : (Z.of_nat (length (p_added w0 pos [])) <= 2147483648)%Z). { rewrite Ad, map_length. pose proof (@traced_length _ _ _ Tr). lia. }
    destruct (@feedback (single nat nat) cap h alpha beta0 eps0 w0 pos Hinit Al us out advs LO NU RU E LL) as (FB & _). rewrite <- EW in FB.
    pose proof (@reached_keep nat nat w0 (pp_world p) outs (PUpdate (flat_map (fun o : single nat nat * R * list Z => snd o) out) advs) Rc I) as RK. cbn [prio_step] in RK.
    destruct (prio_update (pp_world p) (flat_map (fun o : single nat nat * R * list Z => snd o) out) advs) as [w' xx]. cbn [snd fst] in FB, RK. subst xx.
    exists y', (mkPP (pp_tracer p) w'), (EvBatch out). split; [reflexivity|]. split; [cbn [ev_ops LearnModel.yrun]; now rewrite Y|]. split; [exact OO|]. split; auto. split; auto. split; auto. split; auto. exists outs. auto.
  - destruct (@one_op y (YSync tau) G OK YT) as (y' & Y & G' & YT'). rewrite Y. exists y', p, (EvSync tau). split; [reflexivity|]. split; [cbn [ev_ops LearnModel.yrun]; now rewrite Y|]. split; [exact OK|]. split; auto. split; auto. split; auto. split; auto. exists outs. auto.
Qed.

Lemma per_run_ok : forall os y p es, good y D -> (exists t, y_targ y = Some t) -> pok p es -> (forall o, In o os -> trop_ok B o) -> follows nS nA dyn (es ++ steps_of os) -> (Z.of_nat (length (es ++ steps_of os)) <= 2147483648)%Z ->
  exists y' p' log, per_run y p os = (y', p', Ok log) /\ yrun y (flat_map ev_ops log) = (y', Ok tt) /\ (forall e, In e log -> ev_ok e) /\ good y' D /\ (exists t, y_targ y' = Some t) /\ pok p' (es ++ steps_of os).
Proof.
  induction os as [|o os IH]; intros y p es G YT P OK F SM.
  - exists y, p, []. split; [reflexivity|]. split; [reflexivity|]. split; [intros ? []|]. split; auto. split; auto. cbn [steps_of]. now rewrite app_nil_r.
  - assert (ES : es ++ steps_of (o :: os) = (es ++ steps_of [o]) ++ steps_of os). { rewrite <- app_assoc. f_equal. destruct o; reflexivity. }
    rewrite ES in F, SM. destruct (@per_step_ok y p es o) as (y1 & p1 & e & S1 & R1 & E1 & G1 & YT1 & P1); auto; [apply OK; now left|now apply follows_app in F|rewrite !app_length in SM; lia|].
    destruct (IH y1 p1 (es ++ steps_of [o])) as (y' & p' & log & S2 & R2 & E2 & G2 & YT2 & P2); auto; [intros; apply OK; now right|].
    exists y', p', (e :: log). cbn [PerModel.per_run]. rewrite S1, S2. split; [reflexivity|]. split; [cbn [flat_map]; rewrite yrun_app, R1; exact R2|]. split; [intros x [<-|I]; auto|]. split; auto. split; auto. now rewrite ES.
Qed.

Lemma ev_ops_ok : forall log, (forall e, In e log -> ev_ok e) -> forall o, In o (flat_map ev_ops log) -> op_ok o.
Proof. intros log H o I. apply in_flat_map in I. destruct I as (e & Ie & I). pose proof (H e Ie) as OK. destruct e; cbn in I; [destruct I as [<-|[]]; now apply out_op|destruct I as [<-|[]]; exact OK|destruct I]. Qed.
Lemma flat_parts : forall parts, flat_map ev_ops (concat parts) = concat (map (flat_map ev_ops) parts).
Proof. induction parts as [|p ps IH]; cbn; auto. now rewrite flat_map_app, IH. Qed.
Lemma picks_covers : forall es, (forall s a, (s < nS)%nat -> (a < nA)%nat -> picks es s a) -> covers nS nA (flat_map ev_ops es).
Proof.
  intros es H s a Hs Ha. destruct (H s a Hs Ha) as (out & x & w & i & I1 & I2 & <- & <-). exists (YUpdate (batch_of nA (map reweigh out))). split; [apply in_flat_map; exists (EvBatch out); split; auto; now left|].
  apply (in_map reweigh) in I2. apply In_nth_error in I2. destruct I2 as [j J]. exists j. unfold batch_of. cbn [fb_S fb_A]. split; now rewrite (map_nth_error _ _ _ J).
Qed.
Lemma beta_small : 0 < beta cl lr (1/10) B <= 1.
Proof. exact (beta_le SET). Qed.

Lemma per_whole : forall y t os, sgd_learner lr sub y -> y_targ y = Some t -> within nS nA net (q_params y) q D -> within nS nA net (targ_params y) q D ->
  (forall o, In o os -> trop_ok B o) -> follows nS nA dyn (steps_of os) -> (Z.of_nat (length (steps_of os)) <= 2147483648)%Z ->
  exists y' p' log, per_run y (mkPP (nstep_reset nat nat) w0) os = (y', p', Ok log) /\ (forall e, In e log -> ev_ok e) /\ within nS nA net (q_params y') q D /\ within nS nA net (targ_params y') q D /\
    forall tau0 N, 0 < tau0 <= 1 -> per_sweeps nS nA tau0 N log -> let D' := (1 - tau0 * (lr * (1/10) * cl / INR B * (1 - gamma))) ^ N * D in within nS nA net (q_params y') q D' /\ within nS nA net (targ_params y') q D'.
Proof.
  intros y t os SG YT W1 W2 OK F SM. pose proof beta_small as [Hb0 Hb]. pose proof SET as (HA & CL & Hg & TB & AL & PL & GR & Hlr & Hwl & Hlw & HB & HD). pose proof (table_tabular TB) as T. destruct (algorithm_ok HA T AL) as [ST NX].
  pose proof (proj2 (@good_within nS nA net q lr sub y D T) (conj SG (conj W1 W2))) as GD.
  destruct (@per_run_ok os y (mkPP (nstep_reset nat nat) w0) []) as (y' & p' & log & R & YR & EO & G' & _); auto; [eauto| |].
  { split; [apply ngood_reset|]. split; [now apply nempty|]. exists []. split; [apply traced_nil|]. exists []. split; [exact I|]. auto. }
  pose proof (ev_ops_ok log EO) as OPS. pose proof (proj1 (@good_within nS nA net q lr sub y' D T) G') as (_ & A1 & A2).
  exists y', p', log. split; auto. split; auto. split; auto. split; auto. intros tau0 N Ht (parts & rest & EL & LN & SW) D'. subst log. rewrite flat_map_app, flat_parts, yrun_app in YR.
  destruct (@rounds_good nS nA HA net T dyn CL gamma Hg target val ST NX loss grads sub D cl lr (1/10) B PL GR Hlr Hwl q BE tau0 Ht Hb (map (flat_map ev_ops) parts) y D) as (y1 & R1 & G1 & K1); auto; [lra| |].
  { intros oss I. apply in_map_iff in I. destruct I as (part & <- & I). split.
    - apply ev_ops_ok. intros e Ie. apply EO. apply in_or_app. left. apply in_concat. eauto.
    - rewrite YT. destruct (SW part I) as (es1 & tau & es2 & -> & Htau & C). exists (flat_map ev_ops es1), tau, (flat_map ev_ops es2). split; [now rewrite flat_map_app|]. split; [now apply picks_covers|exact Htau]. }
  rewrite R1 in YR. rewrite map_length, LN in G1. change (rate gamma cl lr (1/10) B tau0 ^ N * D) with D' in G1.
  assert (K0 : 0 <= rate gamma cl lr (1/10) B tau0 <= 1). { unfold rate. assert (X : 0 <= beta cl lr (1/10) B * (1 - gamma) <= 1) by (split; [apply Rmult_le_pos; lra|nra]). assert (0 <= tau0 * (beta cl lr (1/10) B * (1 - gamma)) <= 1) by (split; [apply Rmult_le_pos; lra|nra]). lra. }
  assert (HD' : 0 <= D' <= D). { change D' with (rate gamma cl lr (1/10) B tau0 ^ N * D). assert (0 <= rate gamma cl lr (1/10) B tau0 ^ N <= 1). { revert K0. clear. generalize (rate gamma cl lr (1/10) B tau0). intros r K0. split; [apply pow_le; lra|]. rewrite <- (pow1 N). apply pow_incr. exact K0. } split; [apply Rmult_le_pos; lra|]. rewrite <- (Rmult_1_l D) at 2. apply Rmult_le_compat_r; lra. }
  destruct (@never_worse nS nA HA net T dyn CL gamma Hg target val ST NX loss grads sub D cl lr (1/10) B PL GR Hlr Hwl q BE (flat_map ev_ops rest) y1 D') as (y2 & R2 & G2 & _); auto.
  - intros o I. apply OPS. rewrite flat_map_app. apply in_or_app. now right.
  - intros X. red in K1. rewrite YT in K1. destruct K1 as [K1 _]. specialize (K1 X). discriminate.
  - rewrite R2 in YR. injection YR as ->. apply (@good_within _ _ _ _ _ _ _ _ T) in G2. destruct G2 as (_ & G2). exact G2.
Qed.

(** Any stored transitions can make up a batch. *)
Lemma per_run_app : forall os1 os2 y p, per_run y p (os1 ++ os2) = match per_run y p os1 with (y1, p1, Err x) => (y1, p1, Err x) | (y1, p1, Ok l1) => match per_run y1 p1 os2 with (y2, p2, Err x) => (y2, p2, Err x) | (y2, p2, Ok l2) => (y2, p2, Ok (l1 ++ l2)) end end.
Proof.
  induction os1 as [|o os1 IH]; intros os2 y p; cbn [app PerModel.per_run].
  - destruct (per_run y p os2) as [[y2 p2] [l|x]]; reflexivity.
  - destruct (per_step y p o) as [[y1 p1] [e|x]]; auto. rewrite IH. destruct (per_run y1 p1 os1) as [[y2 p2] [l1|x]]; auto. destruct (per_run y2 p2 os2) as [[y3 p3] [l2|x]]; auto.
Qed.
Lemma pick_any : forall w outs ks, reached w outs -> ks <> [] -> (forall k, In k ks -> in_window cap (length outs) k) ->
  exists us out, prio_sample w us = Ok out /\ length us = length ks /\ (forall u, In u us -> 0 <= u < 1) /\ Forall2 (fun k o => nth_error outs k = Some (fst (fst o))) ks out.
Proof.
  intros w outs ks R NE W. pose proof R as (pos & Al & EW & Ad). assert (NO : outs <> []). { destruct ks as [|k ks]; [congruence|]. specialize (W k (or_introl eq_refl)). red in W. destruct outs; [cbn in W; lia|discriminate]. }
  assert (NL : p_added w0 pos [] <> []) by (rewrite Ad; destruct outs; [congruence|discriminate]). assert (LL : length (p_added w0 pos []) = length outs) by (rewrite Ad; apply map_length).
  assert (K : forall k, In k ks -> In k (stored cap (length (p_added w0 pos [])))) by (intros k I; rewrite LL; apply (@stored_window _ cap h alpha beta0 eps0 w0 Hinit); auto).
  exists (map (fun k => prefix_sum (prio_values w) (k mod cap) / SegTreeSpec.rsum (prio_values w)) ks). destruct (@reached_view nat nat cap h alpha beta0 eps0 w0 Hinit w outs R) as (_ & _ & SM).
  assert (RG : forall k, In k ks -> 0 <= prefix_sum (prio_values w) (k mod cap) / SegTreeSpec.rsum (prio_values w) < 1 /\ prefix_sum (prio_values w) (k mod cap) <= prefix_sum (prio_values w) (k mod cap) / SegTreeSpec.rsum (prio_values w) * SegTreeSpec.rsum (prio_values w) < prefix_sum (prio_values w) (S (k mod cap))).
  { intros k I. rewrite EW. exact (@reps _ cap h alpha beta0 eps0 w0 pos Hinit Al NL k (K k I)). }
  assert (RU : forall u, In u (map (fun k => prefix_sum (prio_values w) (k mod cap) / SegTreeSpec.rsum (prio_values w)) ks) -> 0 <= u < 1) by (intros u I; apply in_map_iff in I; destruct I as (k & <- & I); now apply RG).
  destruct (SM (map (fun k => prefix_sum (prio_values w) (k mod cap) / SegTreeSpec.rsum (prio_values w)) ks) NO ltac:(destruct ks; [congruence|discriminate]) RU) as (ks' & out & E & F1 & F2 & _). exists out. split; auto. split; [apply map_length|]. split; auto.
  assert (EK : ks' = ks).
  { clear - F1 RG K EW LL Hinit Al NL. revert ks' F1. induction ks as [|k ks IH]; intros ks' F; inversion F as [|u k' l m [Hw Hb] F']; subst; auto. f_equal; [|apply IH; auto; intros; [apply K|apply RG]; now right].
    apply (@keys_unique _ cap h alpha beta0 eps0 w0 pos Hinit Al k' k (prefix_sum (prio_values (prio_run w0 pos)) (k mod cap) / SegTreeSpec.rsum (prio_values (prio_run w0 pos)))); auto; [|apply K; now left|apply RG; now left]. rewrite LL. apply (@stored_window _ cap h alpha beta0 eps0 w0 Hinit). exact Hw. }
  subst ks'. eapply Forall2_weaken; [|exact F2]. cbv beta. intros k o (x & f & N & _ & ->). exact N.
Qed.
Lemma per_any : forall y t os, sgd_learner lr sub y -> y_targ y = Some t -> within nS nA net (q_params y) q D -> within nS nA net (targ_params y) q D ->
  (forall o, In o os -> trop_ok B o) -> follows nS nA dyn (steps_of os) -> (Z.of_nat (length (steps_of os)) <= 2147483648)%Z ->
  exists y' p' log outs, per_run y (mkPP (nstep_reset nat nat) w0) os = (y', p', Ok log) /\ Forall2 (fun d x => nstep_spec 1 gamma false (fst (fst d)) (snd (fst d)) (snd d) x) (nstep_due 1 (played (steps_of os))) outs /\
    forall xs, xs <> [] -> (length xs <= B)%nat -> (warm < Nat.min cap (length outs))%nat -> (forall x, In x xs -> In x (ReplaySpec.lastn cap outs)) ->
    exists us, trop_ok B (TLearn us) /\ length us = length xs /\ exists y'' p'' out, per_run y (mkPP (nstep_reset nat nat) w0) (os ++ [TLearn us]) = (y'', p'', Ok (log ++ [EvBatch out])) /\ map (fun o => fst (fst o)) out = xs.
Proof.
  intros y t os SG YT W1 W2 OK F SM. pose proof SET as (HA & CL & Hg & TB & _). pose proof (table_tabular TB) as T.
  pose proof (proj2 (@good_within nS nA net q lr sub y D T) (conj SG (conj W1 W2))) as GD.
  destruct (@per_run_ok os y (mkPP (nstep_reset nat nat) w0) []) as (y' & p' & log & R & YR & EO & G' & YT' & P'); auto; [eauto| |].
  { split; [apply ngood_reset|]. split; [now apply nempty|]. exists []. split; [apply traced_nil|]. exists []. split; [exact I|]. auto. }
  pose proof P' as (Gd & Bo & outs & Tr & Rc). cbn [app] in Tr, P'. exists y', p', log, outs. split; auto. split; [exact (@ntraced_due nat nat 1 gamma false (pp_tracer p') (played (steps_of os)) outs ltac:(lia) Hgam Bo Tr)|].
  intros xs NE LB Hw IN. assert (KS : exists ks, Forall2 (fun x k => nth_error outs k = Some x /\ in_window cap (length outs) k) xs ks).
  { clear NE LB. induction xs as [|x xs IH]; [exists []; constructor|]. destruct IH as [ks IH]; [intros; apply IN; now right|]. assert (I : In x (ReplaySpec.lastn cap outs)) by (apply IN; now left). apply In_nth_error in I. destruct I as [j J]. unfold ReplaySpec.lastn in J. rewrite nth_error_skipn in J. exists ((length outs - cap + j)%nat :: ks). constructor; auto. split; auto. assert (length outs - cap + j < length outs)%nat by (apply nth_error_Some; congruence). red. lia. }
  destruct KS as [ks FK]. destruct (@pick_any (pp_world p') outs ks Rc) as (us & out & E & LU & RU & FO); [destruct FK; [congruence|discriminate]|intros k I; clear - FK I; induction FK as [|x k' l m [_ H] FK IH]; [destruct I|destruct I as [<-|I]; auto]|].
  pose proof (f2_length FK) as LK. assert (TO : trop_ok B (TLearn us)). { split; [rewrite LU, <- LK; destruct xs; [congruence|cbn in *; lia]|auto]. }
  exists us. split; auto. split; [lia|]. destruct (@per_step_ok y' p' (steps_of os) (TLearn us) G' YT' P' TO) as (y'' & p'' & e & SS & _); [cbn [steps_of]; now rewrite app_nil_r|auto|].
  assert (EE : e = EvBatch out). { cbn [PerModel.per_step] in SS. destruct (@reached_view nat nat cap h alpha beta0 eps0 w0 Hinit (pp_world p') outs Rc) as (PL & _). rewrite PL in SS. apply Nat.ltb_lt in Hw. rewrite Hw, E in SS. destruct (ystep y' (YUpdate (batch_of nA (map reweigh out)))) as [y1 [u|x]]; [|discriminate]. destruct (y_td_error y' (batch_of nA (map reweigh out))) as [advs|x]; [|discriminate]. destruct (prio_update (pp_world p') _ advs) as [w1 [x|]]; [discriminate|]. now injection SS. }
  subst e. exists y'', p'', out. split; [rewrite per_run_app, R; cbn [PerModel.per_run]; now rewrite SS|].
  clear - FK FO. revert xs FK. induction FO as [|k o ks out H FO IH]; intros xs FK; inversion FK as [|x ? xs' ? [N _] FK']; subst; [reflexivity|]. cbn [map]. f_equal; [congruence|auto].
Qed.
End Per.
