(** Proofs for RoundProps.v. *)
From Coq Require Import List ZArith Lia Bool Reals Lra.
From Verif Require Import PyCommon CommonProofs ReplayModel ReplaySpec ReplayProofs PrioModel TracerModel TracerSpec TracerProofs TracerProofs2 PipeModel PipeSpec PipeProofs PipeProofs2 PipeProofs3 RoundModel RoundSpec.
Import ListNotations.
Set Implicit Arguments.

(** * Counting *)
Lemma nth_error_seq : forall m a j, j < m -> nth_error (seq a m) j = Some (a + j).
Proof. induction m as [|m IH]; intros a [|j] H; cbn; try lia; [f_equal; lia|]. rewrite IH by lia. f_equal. lia. Qed.
Lemma nth_error_take : forall X m (l : list X) j, j < m -> nth_error (firstn m l) j = nth_error l j.
Proof. intros X. induction m as [|m IH]; intros [|x l] [|j] H; cbn; try lia; auto. apply IH. lia. Qed.
Lemma Forall2_imp : forall X Y (P Q : X -> Y -> Prop) l m, (forall a b, P a b -> Q a b) -> Forall2 P l m -> Forall2 Q l m.
Proof. intros X Y P Q l m H F. induction F; constructor; auto. Qed.
Section Count.
Variables S A : Type.
Variable n : nat.
Notation ins_t := (list (step S A * R * bool)).
Lemma cut_concat : forall (ins : ins_t) cur eps rest, cut cur ins = (eps, rest) -> concat eps ++ rest = cur ++ map fst ins.
Proof.
  induction ins as [|[[x r] d] ins IH]; intros cur eps rest E; cbn [cut] in E.
  - injection E as <- <-. cbn. now rewrite app_nil_r.
  - destruct d.
    + destruct (cut [] ins) as [e1 r1] eqn:C. injection E as <- <-. cbn [concat map fst]. rewrite <- !app_assoc. rewrite (IH [] _ _ C). reflexivity.
    + rewrite (IH _ _ _ E). cbn [map fst]. now rewrite <- app_assoc.
Qed.
Lemma due_map : forall (ins : ins_t), map (fun d => nth_error (fst (fst d)) (snd d)) (nstep_due n ins) = map (@Some _) (firstn (length (nstep_due n ins)) (map fst ins)).
Proof.
  intros ins. unfold nstep_due. destruct (cut [] ins) as [eps rest] eqn:C. pose proof (cut_concat _ _ C) as E. cbn [app] in E. rewrite <- E.
  assert (Q : forall (l : episode S A) m b, m <= length l -> map (fun d => nth_error (fst (fst d)) (snd d)) (map (fun t => (l, b : bool, t)) (seq 0 m)) = map (@Some _) (firstn m l)).
  { intros l m b Hm. rewrite map_map. cbn [fst snd]. apply nth_error_ext'. intros j. rewrite !nth_error_map. destruct (Nat.lt_ge_cases j m) as [H|H].
    - rewrite nth_error_seq by auto. cbn [option_map]. rewrite (nth_error_take l H). cbn [plus]. destruct (nth_error l j) eqn:N; auto. apply nth_error_None in N. lia.
    - rewrite (proj2 (nth_error_None (seq 0 m) j)) by (rewrite seq_length; lia). rewrite (proj2 (nth_error_None (firstn m l) j)) by (rewrite firstn_length; lia). reflexivity. }
  assert (F : forall (es : list (episode S A)), map (fun d => nth_error (fst (fst d)) (snd d)) (flat_map (fun ep => map (fun t => (ep, true, t)) (seq 0 (length ep))) es) = map (@Some _) (concat es) /\ length (flat_map (fun ep => map (fun t => (ep, true, t)) (seq 0 (length ep))) es) = length (concat es)).
  { induction es as [|e es [I1 I2]]; [split; reflexivity|]. cbn [flat_map concat]. rewrite !map_app, !app_length, I1, I2, Q by auto. rewrite firstn_all, map_length, seq_length. auto. }
  destruct (F eps) as [F1 F2]. rewrite map_app, app_length, F1, F2, Q by lia. rewrite map_length, seq_length. rewrite firstn_app_2, map_app. reflexivity.
Qed.
Lemma due_length : forall (ins : ins_t), length (nstep_due n ins) = length ins - Nat.min n (length (snd (cut [] ins))).
Proof.
  intros ins. unfold nstep_due. destruct (cut [] ins) as [eps rest] eqn:C. pose proof (f_equal (@length _) (cut_concat _ _ C)) as E. cbn [app snd] in *. rewrite app_length, map_length in E. rewrite app_length, map_length, seq_length.
  replace (length (flat_map (fun ep => map (fun t => (ep, true, t)) (seq 0 (length ep))) eps)) with (length (concat eps)); [lia|]. clear. induction eps as [|e es IH]; auto. cbn. rewrite !app_length, map_length, seq_length. lia.
Qed.
Lemma cut_snoc : forall (ins : ins_t) cur x r d, snd (cut cur (ins ++ [(x, r, d)])) = if d then [] else snd (cut cur ins) ++ [(x, r)].
Proof.
  induction ins as [|[[x' r'] d'] ins IH]; intros cur x r d; cbn [app cut].
  - destruct d; reflexivity.
  - destruct d'; [|apply IH]. specialize (IH [] x r d). destruct (cut [] (ins ++ [(x, r, d)])) as [e1 r1]. destruct (cut [] ins) as [e2 r2]. exact IH.
Qed.
Lemma due_step : forall (ins : ins_t) x r d, length (nstep_due n ins) <= length (nstep_due n (ins ++ [(x, r, d)])) /\ length (nstep_due n (ins ++ [(x, r, d)])) <= length (nstep_due n ins) + (if d then Datatypes.S n else 1).
Proof. intros ins x r d. rewrite !due_length, app_length, cut_snoc. cbn [length]. destruct (cut [] ins) as [e rest]. cbn [snd]. destruct d; [|rewrite app_length]; cbn [length]; lia. Qed.
Lemma due_pending : forall (ins : ins_t), length (nstep_due n ins) <= length ins <= length (nstep_due n ins) + n.
Proof. intros ins. rewrite due_length. lia. Qed.
Lemma firstn_S : forall T (l : list T) t x, nth_error l t = Some x -> firstn (Datatypes.S t) l = firstn t l ++ [x].
Proof. induction l as [|y l IH]; intros [|t] x H; try discriminate; cbn in *. - now injection H as ->. - now rewrite (IH t x H). Qed.
Lemma avail_step : forall (ins : ins_t) t x r d, nth_error ins t = Some (x, r, d) -> avail n ins t <= avail n ins (Datatypes.S t) <= avail n ins t + (if d then Datatypes.S n else 1).
Proof. intros ins t x r d H. unfold avail. rewrite (firstn_S _ _ H). pose proof (due_step (firstn t ins) x r d). lia. Qed.
Lemma avail_pending : forall (ins : ins_t) t, t <= length ins -> avail n ins t <= t <= avail n ins t + n.
Proof. intros ins t H. unfold avail. pose proof (due_pending (firstn t ins)) as P. rewrite firstn_length in P. lia. Qed.
Lemma avail_0 : forall (ins : ins_t), avail n ins 0 = 0.
Proof. intros ins. unfold avail. cbn [firstn]. rewrite due_length. reflexivity. Qed.
Lemma avail_mono : forall (ins : ins_t) t t', t <= t' <= length ins -> avail n ins t <= avail n ins t'.
Proof.
  intros ins t t' [H1 H2]. induction H1 as [|t' H IH]; [lia|]. destruct (nth_error ins t') as [[[x r] d]|] eqn:E; [|apply nth_error_None in E; lia]. pose proof (avail_step _ _ E). lia.
Qed.
(** Windows of a schedule. *)
Lemma sched_window : forall cap (ins : ins_t) t0 T ws, schedule (avail n ins) cap t0 T ws -> 1 <= cap -> T <= length ins -> forall u v, In (u, v) ws ->
  t0 <= u < v /\ v <= T /\ avail n ins u + cap <= avail n ins v /\ exists x r d, nth_error ins (v - 1) = Some (x, r, d) /\ avail n ins v <= avail n ins u + cap + (if d then n else 0).
Proof.
  intros cap ins t0 T ws H. induction H as [|t0 t1 T ws H1 H2 H3 H4 IH]; intros Hc HT u v Hin; [contradiction|]. destruct Hin as [E|Hin].
  - injection E as <- <-. split; [lia|]. split; [lia|]. split; [lia|]. destruct (nth_error ins (t1 - 1)) as [[[x r] d]|] eqn:E; [|apply nth_error_None in E; lia]. exists x, r, d. split; auto. pose proof (avail_step _ _ E) as Q. replace (Datatypes.S (t1 - 1)) with t1 in Q by lia.
    assert (avail n ins (t1 - 1) < avail n ins t0 + cap). { destruct (Nat.eq_dec (t1 - 1) t0) as [->|NE]; [lia|apply H2; lia]. } destruct d; lia.
  - destruct (IH Hc HT u v Hin) as (Q1 & Q2 & Q3 & Q4). split; [lia|]. auto.
Qed.
End Count.

(** * The loop *)
Section Loop.
Variables S A G : Type.
Variable draw : G -> nat -> nat -> list nat * G.
Variables (n : nat) (gamma : R).
Hypothesis Hn : 1 <= n.
Hypothesis Hg : (0 <= gamma <= 1)%R.
Hypothesis Hd : draws_distinct draw.
Notation npipe := (pipe S A (nstate S A) G).
Notation tr := (traced (@nstep_add S A) (nstep_pop n gamma false) (nstep_reset S A)).
Definition rinv (cap : nat) (p : npipe) ins (old cur : list (single S A)) : Prop :=
  ngood (p_tracer p) /\ nstep_bool n (p_tracer p) = false /\ scap (sb (p_world p)) = cap /\ tr (p_tracer p) ins (old ++ cur) /\ inv (p_world p) cur.
Lemma rdrain : forall fuel (p : npipe) ins old cur, ngood (p_tracer p) -> nstep_len (p_tracer p) <= fuel -> tr (p_tracer p) ins (old ++ cur) -> inv (p_world p) cur ->
  exists p' ys, pipe_drain (nstep_bool n) (nstep_pop n gamma false) fuel p = (p', None) /\ rinv (scap (sb (p_world p))) p' ins old (cur ++ ys).
Proof.
  induction fuel as [|fuel IH]; intros p ins old cur Gd L T I.
  - exists p, []. rewrite app_nil_r. cbn [pipe_drain]. split; auto. repeat (split; auto). apply nempty. lia.
  - cbn [pipe_drain]. destruct (nstep_bool n (p_tracer p)) eqn:B.
    + destruct (ngood_pop false Hn Hg Gd B) as (y & t' & P & Gd' & L'). rewrite P. destruct (buffer_new_inv y I) as [I' C'].
      destruct (IH (mkPipe t' (buffer_new (p_world p) y)) ins old (cur ++ [y])) as (p' & ys & D & Q); cbn [p_tracer p_world]; auto; [lia|rewrite app_assoc; eapply traced_pop; eauto|].
      exists p', (y :: ys). rewrite <- app_assoc in Q. cbn [app p_world] in Q. rewrite C' in Q. auto.
    + exists p, []. rewrite app_nil_r. split; auto. repeat (split; auto).
Qed.
Lemma rrecord : forall cap (p : npipe) ins old cur x r d, rinv cap p ins old cur -> valid_step x ->
  exists p' ys, pipe_record (nstep_bool n) (@nstep_len S A) (@nstep_add S A) (nstep_pop n gamma false) p x r d = (p', None) /\ rinv cap p' (ins ++ [(x, r, d)]) old (cur ++ ys).
Proof.
  intros cap p ins old cur x r d (Gd & B & C & T & I) V. unfold pipe_record. destruct (ngood_add n r d Gd V B) as (t' & E & Gd'). rewrite E.
  destruct (@rdrain (nstep_len t') (mkPipe t' (p_world p)) (ins ++ [(x, r, d)]) old cur) as (p' & ys & D & Q); cbn [p_tracer p_world]; auto; [eapply traced_add; eauto|]. cbn [p_world] in Q. rewrite C in Q. eauto.
Qed.
Lemma rdue : forall cap p ins old cur, rinv cap p ins old cur -> Forall2 (fun d y => nstep_spec n gamma false (fst (fst d)) (snd (fst d)) (snd d) y) (nstep_due n ins) (old ++ cur).
Proof. intros cap p ins old cur (Gd & B & C & T & I). eapply ntraced_due; eauto. Qed.
Lemma rlen : forall cap p ins old cur, rinv cap p ins old cur -> length old + length cur = length (nstep_due n ins) /\ simple_len (p_world p) = Nat.min cap (length cur).
Proof. intros cap p ins old cur H. split; [pose proof (f2_length (rdue H)) as E; rewrite app_length in E; lia|]. destruct H as (Gd & B & C & T & I). apply (inv_contents I C). Qed.
Lemma rsamples : forall m k cap (w : sworld (single S A) G) log, inv w log -> scap (sb w) = cap -> 1 <= k <= Nat.min cap (length log) ->
  exists w' bs, round_samples draw m k w = (w', Ok bs) /\ inv w' log /\ scap (sb w') = cap /\ length bs = m /\ forall b, In b bs -> exists js, length js = k /\ NoDup js /\
    Forall2 (fun j x => j < length log /\ length log <= j + cap /\ exists y, nth_error log j = Some y /\ x = mkTB [y] [Z.of_nat j]) js b.
Proof.
  induction m as [|m IH]; intros k cap w log I C Hk; cbn [round_samples].
  - exists w, []. repeat (split; auto). intros b [].
  - destruct (@sample_log S A G draw w log cap k Hd I C Hk) as (js & b & E & J). destruct (sample_inv draw k I) as [I1 C1]. destruct (simple_sample draw w k) as [w1 x]. cbn [fst snd] in *. subst x.
    destruct (IH k cap w1 log I1 ltac:(congruence) Hk) as (w2 & bs & E2 & I2 & C2 & L2 & Q2). rewrite E2. exists w2, (b :: bs). split; auto. split; auto. split; auto. split; [cbn; congruence|]. intros b' [<-|Hb]; [exists js; exact J|auto].
Qed.
Lemma clear_inv : forall (w : sworld (single S A) G), inv (simple_clear w) [] /\ scap (sb (simple_clear w)) = scap (sb w).
Proof. intros w. split; [|reflexivity]. split; reflexivity. Qed.

Variable f : flagged.
Definition rec1 (e : envstep S A) : step S A * R * bool := (es_step e, es_r e, flag_of f e).
Lemma round_app : forall D k cap m outs more w round, @round_of S A D k cap m outs w round -> @round_of S A D k cap m (outs ++ more) w round.
Proof.
  intros D k cap m outs more w round [L H]. split; auto. intros b Hb. destruct (H b Hb) as (js & L1 & N & F). exists js. split; auto. split; auto. eapply Forall2_imp; [|exact F]. cbn beta. intros j x (B1 & B2 & y & E & E2). split; auto. split; auto. exists y. split; auto. rewrite nth_error_app1; auto. apply nth_error_Some. congruence.
Qed.
Lemma rrun : forall k cap, 1 <= k <= cap -> forall es (p : npipe) ins old cur t0, rinv cap p ins old cur -> played_valid es -> t0 <= length ins -> length old = length (nstep_due n (firstn t0 ins)) ->
  (forall t, t0 < t <= length ins -> length (nstep_due n (firstn t ins)) < length old + cap) -> (length cur < cap) ->
  exists p' rounds ys ws, round_run draw n gamma f k p es = (p', Ok rounds) /\ Forall2 (fun d y => nstep_spec n gamma false (fst (fst d)) (snd (fst d)) (snd d) y) (nstep_due n (ins ++ map rec1 es)) (old ++ cur ++ ys) /\
    schedule (avail n (ins ++ map rec1 es)) cap t0 (length (ins ++ map rec1 es)) ws /\ Forall2 (round_of (avail n (ins ++ map rec1 es)) k cap (4 * cap / k) (old ++ cur ++ ys)) ws rounds.
Proof.
  intros k cap Hk. induction es as [|e es IH]; intros p ins old cur t0 H V T0 LO HB LC.
  - exists p, [], [], []. cbn [round_run map]. rewrite !app_nil_r. split; auto. split; [eapply rdue; eauto|]. split; [|constructor]. constructor. intros t Ht. unfold avail. rewrite <- LO. auto.
  - assert (Ve : valid_step (es_step e)) by (apply V; now left). assert (V' : played_valid es) by (intros x Hx; apply V; now right). cbn [round_run map]. unfold round_step. set (all := ins ++ rec1 e :: map rec1 es).
    destruct (@rrecord cap p ins old cur (es_step e) (es_r e) (flag_of f e) H Ve) as (p1 & ys & E & H1). rewrite E. fold (rec1 e) in H1. destruct (rlen H1) as [L1 L2]. assert (C1 : scap (sb (p_world p1)) = cap) by apply H1. rewrite C1, L2. rewrite app_length in L1.
    assert (EA : all = (ins ++ [rec1 e]) ++ map rec1 es) by (unfold all; rewrite <- app_assoc; reflexivity).
    assert (A0 : forall t, t <= length (ins ++ [rec1 e]) -> avail n all t = length (nstep_due n (firstn t (ins ++ [rec1 e])))). { intros t Ht. unfold avail. rewrite EA. rewrite firstn_app. replace (t - length (ins ++ [rec1 e])) with 0 by lia. cbn [firstn]. now rewrite app_nil_r. }
    assert (LI : length (ins ++ [rec1 e]) = Datatypes.S (length ins)) by (rewrite app_length; cbn; lia).
    assert (A1 : forall t, t <= length ins -> avail n all t = length (nstep_due n (firstn t ins))). { intros t Ht. rewrite A0 by lia. rewrite firstn_app. replace (t - length ins) with 0 by lia. cbn [firstn]. now rewrite app_nil_r. }
    assert (A2 : avail n all (Datatypes.S (length ins)) = length (nstep_due n (ins ++ [rec1 e]))). { rewrite A0 by lia. rewrite <- LI, firstn_all. reflexivity. }
    destruct (Nat.eqb_spec (Nat.min cap (length (cur ++ ys))) cap) as [F|F].
    + rewrite app_length in F. destruct H1 as (Gd & B & _ & Tr & I). destruct (@rsamples (4 * cap / k) k cap (p_world p1) (cur ++ ys) I C1) as (w & bs & E2 & I2 & C2 & L3 & Q); [rewrite app_length; lia|]. rewrite E2.
      assert (H2 : rinv cap (mkPipe (p_tracer p1) (simple_clear w)) (ins ++ [rec1 e]) (old ++ cur ++ ys) []). { split; auto. split; auto. destruct (clear_inv w) as [I3 C3]. cbn [p_world p_tracer]. split; [congruence|]. rewrite app_nil_r. auto. }
      destruct (IH _ _ _ _ (Datatypes.S (length ins)) H2 V') as (p' & rounds & zs & ws & E3 & F3 & S3 & R3).
      * lia.
      * rewrite <- LI, firstn_all, !app_length. lia.
      * intros t Ht. lia.
      * cbn [length]. lia.
      * rewrite <- EA in *. rewrite E3. exists p', (bs :: rounds), (ys ++ zs), ((t0, Datatypes.S (length ins)) :: ws). replace (old ++ cur ++ ys ++ zs) with ((old ++ cur ++ ys) ++ [] ++ zs) by (cbn [app]; rewrite <- !app_assoc; reflexivity).
        assert (A3 : avail n all t0 = length old) by (rewrite A1 by lia; auto). assert (LL : Datatypes.S (length ins) <= length all) by (rewrite EA, app_length; lia).
        split; auto. split; auto. split.
        { constructor; auto; [lia| |lia]. intros t Ht. rewrite A1, A3 by lia. apply HB. lia. }
        constructor; auto. cbn [app]. apply round_app. split; auto. intros b Hb. destruct (Q b Hb) as (js & J1 & J2 & J3). exists (map (fun j => length old + j) js). rewrite map_length. split; auto. split. { apply FinFun.Injective_map_NoDup; auto. intros x y. lia. }
        cbn [fst snd]. clear - J3 A3 A2 L1. induction J3 as [|j x js b (Q1 & Q2 & y & Q3 & Q4) J3 IHJ]; cbn [map]; constructor; auto. rewrite A2, A3. rewrite app_length in Q1, Q2. split; [lia|]. split; [lia|]. exists y. split; [rewrite nth_error_app2 by lia; now replace (length old + j - length old) with j by lia|]. rewrite Q4. do 3 f_equal. lia.
    + rewrite app_length in F. destruct (IH p1 (ins ++ [rec1 e]) old (cur ++ ys) t0 H1 V') as (p' & rounds & zs & ws & E3 & F3 & S3 & R3).
      * lia.
      * rewrite LO. rewrite firstn_app. replace (t0 - length ins) with 0 by lia. cbn [firstn]. now rewrite app_nil_r.
      * intros t Ht. rewrite LI in Ht. destruct (Nat.eq_dec t (Datatypes.S (length ins))) as [->|NE]. { rewrite <- LI, firstn_all. lia. } rewrite firstn_app. replace (t - length ins) with 0 by lia. cbn [firstn]. rewrite app_nil_r. apply HB. lia.
      * rewrite app_length. lia.
      * rewrite <- EA in *. rewrite E3. exists p', rounds, (ys ++ zs), ws. rewrite app_assoc. rewrite <- app_assoc in F3, R3. rewrite <- app_assoc. auto.
Qed.
Lemma rinit : forall h cap g, rinv cap (mkPipe (nstep_reset S A) (simple_init h cap g)) [] [] [].
Proof. intros h cap g. split; [apply ngood_reset|]. split; [reflexivity|]. split; [reflexivity|]. split; [apply traced_nil|apply init_inv]. Qed.
End Loop.
