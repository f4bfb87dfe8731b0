(** Property C121: on-policy training in rounds (doc/examples/stubs/ppo.py, stubs/a2c.py, atari/ppo.py). *)
From Coq Require Import List ZArith Lia Bool Reals Lra.
From Verif Require Import PyCommon CommonProofs ReplayModel ReplaySpec ReplayProofs PrioModel TracerModel TracerSpec TracerProofs TracerProofs2 PipeModel PipeSpec PipeProofs PipeProofs2 PipeProofs3 PipeProps RoundModel RoundSpec RoundProofs RoundProofs2.
Import ListNotations.

(** C121: the loop never raises for buffers at least as large as a batch.  A round takes place at the first step at which [cap] transitions have become
    available since the last one ([schedule]); it consists of 4 cap / k batches, each of k different ones of the last [cap] transitions that became
    available, numbered since the last round ([round_of]).  Transition j is the n-step transition of time step j, with the log-propensity recorded
    there.  At least [cap] and at most cap + n transitions become available between two rounds; those of at most n steps were taken before the last round,
    hence by an older policy. *)
Theorem C121_rounds : forall S A G draw n gamma f k cap h (g : G) (es : list (envstep S A)),
  1 <= n -> (0 <= gamma <= 1)%R -> draws_distinct draw -> 1 <= k <= cap -> played_valid es ->
  exists p rounds outs ws, round_run draw n gamma f k (mkPipe (nstep_reset S A) (simple_init h cap g)) es = (p, Ok rounds) /\
    Forall2 (fun d y => nstep_spec n gamma false (fst (fst d)) (snd (fst d)) (snd d) y) (nstep_due n (fed f es)) outs /\
    (forall j y, nth_error outs j = Some y -> exists e, nth_error es j = Some e /\ about e y) /\
    schedule (avail n (fed f es)) cap 0 (length es) ws /\ Forall2 (round_of (avail n (fed f es)) k cap (4 * cap / k) outs) ws rounds /\
    forall u v, In (u, v) ws -> avail n (fed f es) u + cap <= avail n (fed f es) v <= avail n (fed f es) u + cap + n /\ avail n (fed f es) u <= u <= avail n (fed f es) u + n /\
      (forall x r, nth_error (fed f es) (v - 1) = Some (x, r, false) -> avail n (fed f es) v = avail n (fed f es) u + cap).
Proof.
  intros S A G draw n gamma f k cap h g es Hn Hg Hd Hk V. destruct (@rounds_ok S A G draw n gamma Hn Hg Hd f k cap h g es Hk V) as (p & rounds & outs & ws & E & F & SC & RO). exists p, rounds, outs, ws. split; auto. split; auto. split; [intros j y; eapply about_step; eauto|]. split; auto. split; auto.
  intros u v Hin. destruct (sched_window SC ltac:(lia) ltac:(rewrite fed_length; lia) u v Hin) as (Q1 & Q2 & Q3 & x & r & d & N & Q4). split; [destruct d; lia|]. split; [apply avail_pending; rewrite fed_length; lia|]. intros x' r' N'. rewrite N' in N. injection N as <- <- <-. lia.
Qed.
Print Assumptions C121_rounds.
Definition ex_rounds : list (envstep nat nat) := [mkES (ex_step 1) 1%R false false; mkES (ex_step 2) 1%R false false; mkES (ex_step 3) 1%R true false; mkES (ex_step 4) 1%R false true].
Example C121_rounds_ex : played_valid ex_rounds /\ draws_distinct ex_draw /\ 1 <= 1 <= 2 /\ exists p r, round_run ex_draw 1 1%R DoneOrTruncated 1 (mkPipe (nstep_reset nat nat) (simple_init [] 2 0)) ex_rounds = (p, Ok [r]) /\ length r = 8.
Proof.
  assert (V : played_valid ex_rounds) by (intros e [<-|[<-|[<-|[<-|[]]]]]; unfold valid_step; cbn; repeat split; lra). split; [exact V|]. split; [apply ex_draw_distinct|]. split; [lia|].
  destruct (@C121_rounds nat nat nat ex_draw 1 1%R DoneOrTruncated 1 2 [] 0 ex_rounds ltac:(lia) ltac:(lra) ex_draw_distinct ltac:(lia) V) as (p & rounds & outs & ws & E & _ & _ & SC & RO & _). exists p.
  assert (W : ws = [(0, 3)]). { inversion SC as [t0 T H|t0 t1 T ws' H1 H2 H3 H4]; subst. - specialize (H 3 ltac:(cbn; lia)). cbn in H. lia.
    - assert (t1 = 3). { cbn in H1. destruct (Nat.lt_trichotomy t1 3) as [X|[X|X]]; auto. + destruct t1 as [|[|[|t1]]]; cbn in H3; lia. + specialize (H2 3 ltac:(lia)). cbn in H2. lia. } subst t1. f_equal. inversion H4 as [t0 T H|t0 t1 T ws'' G1 G2 G3 G4]; subst; auto. cbn in G1. assert (t1 = 4) by lia. subst t1. cbn in G3. lia. }
  subst ws. inversion RO as [|w r ws' rs R1 R2]; subst. inversion R2; subst. exists r. split; [exact E|]. apply R1.
Qed.

(** C121: no transition is used in two rounds: rows of an earlier round are about earlier time steps. *)
Theorem C121_once : forall S A G draw n gamma f k cap h (g : G) (es : list (envstep S A)),
  1 <= n -> (0 <= gamma <= 1)%R -> draws_distinct draw -> 1 <= k <= cap -> played_valid es ->
  exists p rounds, round_run draw n gamma f k (mkPipe (nstep_reset S A) (simple_init h cap g)) es = (p, Ok rounds) /\
    forall i i' r r' b b' x x', i < i' -> nth_error rounds i = Some r -> nth_error rounds i' = Some r' -> In b r -> In b' r' -> In x b -> In x' b' ->
    exists j j' e e' y y', j < j' /\ nth_error es j = Some e /\ nth_error es j' = Some e' /\ about e y /\ about e' y' /\ rows x = [y] /\ rows x' = [y'].
Proof.
  intros S A G draw n gamma f k cap h g es Hn Hg Hd Hk V. destruct (@C121_rounds S A G draw n gamma f k cap h g es Hn Hg Hd Hk V) as (p & rounds & outs & ws & E & F & AB & SC & RO & W). exists p, rounds. split; auto.
  intros i i' r r' b b' x x' Hi Er Er' Hb Hb' Hx Hx'. destruct (Forall2_nth _ RO Er) as (w & Ew & _ & R1). destruct (Forall2_nth _ RO Er') as (w' & Ew' & _ & R1'). destruct (R1 b Hb) as (js & _ & _ & F1). destruct (R1' b' Hb') as (js' & _ & _ & F1').
  apply In_nth_error in Hx. destruct Hx as [q Hq]. apply In_nth_error in Hx'. destruct Hx' as [q' Hq']. destruct (Forall2_nth _ F1 Hq) as (j & _ & J1 & J2 & y & J3 & ->). destruct (Forall2_nth _ F1' Hq') as (j' & _ & J1' & J2' & y' & J3' & ->).
  destruct (AB j y J3) as (e & Ee & Ae). destruct (AB j' y' J3') as (e' & Ee' & Ae'). exists j, j', e, e', y, y'. split; [|auto 10].
  pose proof (sched_order SC Hi Ew Ew') as O. destruct w as [u v]. destruct w' as [u' v']. cbn [fst snd] in *. destruct (W u' v' (nth_error_In _ _ Ew')) as [W1 _]. pose proof (sched_lo SC (u', v') (nth_error_In _ _ Ew')) as L. cbn [fst snd] in L. pose proof (@avail_mono S A n (fed f es) v u' ltac:(rewrite fed_length; lia)). lia.
Qed.
Print Assumptions C121_once.
Example C121_once_ex : exists p r1 r2 r3, round_run ex_draw 1 1%R DoneOrTruncated 1 (mkPipe (nstep_reset nat nat) (simple_init [] 1 0)) ex_rounds = (p, Ok [r1; r2; r3]) /\ length r1 = 4 /\ length r2 = 4.
Proof. unfold ex_rounds. do 4 (cbn; unfold round_step, pipe_record; run_checks). do 4 eexists. split; [reflexivity|]. split; reflexivity. Qed.

(** C121: but not every transition is used.  An episode of cap + n steps makes its last n + 1 transitions available at once; the round then takes place
    with the first n of them already dropped: no batch contains any of the first n steps of the episode. *)
Theorem C121_dropped_refuted : forall S A G draw n gamma f k cap h (g : G) (es : list (envstep S A)),
  1 <= n -> (0 <= gamma <= 1)%R -> draws_distinct draw -> 1 <= k <= cap -> played_valid es ->
  length es = cap + n -> (forall j x r d, nth_error (fed f es) j = Some (x, r, d) -> d = Nat.eqb (j + 1) (cap + n)) ->
  exists p round, round_run draw n gamma f k (mkPipe (nstep_reset S A) (simple_init h cap g)) es = (p, Ok [round]) /\ length round = 4 * cap / k /\
    forall b x, In b round -> In x b -> exists j e y, n <= j /\ nth_error es j = Some e /\ about e y /\ x = mkTB [y] [Z.of_nat j].
Proof.
  intros S A G draw n gamma f k cap h g es Hn Hg Hd Hk V HL HF. destruct (@C121_rounds S A G draw n gamma f k cap h g es Hn Hg Hd Hk V) as (p & rounds & outs & ws & E & F & AB & SC & RO & _).
  destruct (@avail_episode S A n (fed f es)) as [A1 A2]. { intros j [[x r] d] Hj. rewrite fed_length, HL. cbn [snd]. rewrite (HF _ _ _ _ Hj). f_equal. lia. } { intros X. apply (f_equal (@length _)) in X. rewrite fed_length in X. cbn in X. lia. } rewrite fed_length in A1, A2.
  assert (W : ws = [(0, length es)]).
  { pose proof (A1 0 ltac:(lia)) as A0. inversion SC as [t0 T H|t0 t1 T ws' H1 H2 H3 H4]; subst.
    - specialize (H (length es) ltac:(lia)). rewrite A2, A0 in H. lia.
    - assert (t1 = length es). { destruct (Nat.eq_dec t1 (length es)); auto. rewrite (A1 t1 ltac:(lia)), A0 in H3. lia. } subst t1. f_equal. inversion H4 as [|t0 t1 T ws'' G1]; subst; auto. lia. }
  subst ws. inversion RO as [|w r ws' rs [R0 R1] R2]; subst. inversion R2; subst. exists p, r. split; auto. split; auto.
  intros b x Hb Hx. destruct (R1 b Hb) as (js & _ & _ & F1). apply In_nth_error in Hx. destruct Hx as [q Hq]. destruct (Forall2_nth _ F1 Hq) as (j & _ & J1 & J2 & y & J3 & ->). cbn [fst snd] in *. destruct (AB j y J3) as (e & Ee & Ae). exists j, e, y. split; [lia|]. split; auto. split; auto. rewrite (A1 0 ltac:(lia)). do 3 f_equal. lia.
Qed.
Print Assumptions C121_dropped_refuted.
Example C121_dropped_refuted_ex : let es := firstn 3 ex_rounds in played_valid es /\ length es = 2 + 1 /\ forall j x r d, nth_error (fed DoneOrTruncated es) j = Some (x, r, d) -> d = Nat.eqb (j + 1) (2 + 1).
Proof.
  cbn. split; [intros e [<-|[<-|[<-|[]]]]; unfold valid_step; cbn; repeat split; lra|]. split; [reflexivity|]. intros [|[|[|j]]] x r d H; cbn in H; try (injection H as _ _ <-; reflexivity). destruct j; discriminate.
Qed.

(** C121: buffers smaller than a batch.  If even four times the capacity is less than the batch size, the loop runs without exception and without a single
    update.  Otherwise the first round raises ValueError. *)
Theorem C121_small_silent : forall S A G draw n gamma f k cap h (g : G) (es : list (envstep S A)),
  1 <= n -> (0 <= gamma <= 1)%R -> 4 * cap < k -> played_valid es ->
  exists p rounds, round_run draw n gamma f k (mkPipe (nstep_reset S A) (simple_init h cap g)) es = (p, Ok rounds) /\ forall r, In r rounds -> r = [].
Proof. intros S A G draw n gamma f k cap h g es Hn Hg Hk V. eapply silent; eauto. apply rinit. Qed.
Print Assumptions C121_small_silent.
Theorem C121_small_raises : forall S A G draw n gamma f k cap h (g : G) (es : list (envstep S A)) t,
  1 <= n -> (0 <= gamma <= 1)%R -> draws_distinct draw -> cap < k <= 4 * cap -> played_valid es -> t <= length es -> cap <= avail n (fed f es) t ->
  snd (round_run draw n gamma f k (mkPipe (nstep_reset S A) (simple_init h cap g)) es) = Err EValue.
Proof.
  intros S A G draw n gamma f k cap h g es t Hn Hg Hd Hk V Ht HA. eapply (@raises S A G draw n gamma Hn Hg Hd f k cap Hk es _ [] [] [] t); eauto; [apply rinit|cbn; lia|]. cbn [app length plus]. unfold avail in HA. rewrite <- fed_rec, <- map_rev in HA || rewrite <- fed_rec in HA. rewrite firstn_map in HA. exact HA.
Qed.
Print Assumptions C121_small_raises.
Example C121_small_ex : played_valid ex_rounds /\ 2 < 3 <= 4 * 2 /\ 2 <= avail 1 (fed DoneOrTruncated ex_rounds) 3 /\ 4 * 7 < 32 /\ 8 < 32 <= 4 * 8.
Proof. split; [intros e [<-|[<-|[<-|[<-|[]]]]]; unfold valid_step; cbn; repeat split; lra|]. cbn. lia. Qed.
