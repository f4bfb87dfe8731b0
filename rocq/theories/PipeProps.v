(** Properties C105-C107: a reward tracer before a replay buffer, and the loops of the scripts
    (doc/examples/cartpole/dqn.py, doc/examples/stubs/dqn.py, doc/examples/stubs/dqn_per.py).

    [nstep_due] and [mc_due] list the (episode, time) pairs for which the tracer has enough data; nstep_spec and mc_spec
    say what the transition of such a pair is (TracerSpec.v). *)
From Coq Require Import List ZArith Lia Bool Reals Lra Permutation.
From Verif Require Import PyCommon CommonProofs SegTreeSpec ReplayModel ReplaySpec ReplayProofs PrioModel PrioSpec PrioProofs4 TracerModel TracerSpec TracerProofs TracerProofs2
  PipeModel PipeSpec PipeProofs PipeProofs2 PipeProofs3 PipeProofs4 PipeProofs5.
Import ListNotations.

(** C105: NStep tracer and SimpleReplayBuffer.  Whatever is recorded and sampled, the buffer holds the last [cap] of the n-step
    transitions of the recorded episodes, numbered in order; a sample of k of them are k different ones. *)
Theorem C105_nstep : forall S A G draw n gamma extra h cap (g : G) (os : list (lop S A G)),
  1 <= n -> (0 <= gamma <= 1)%R -> draws_distinct draw -> steps_valid (recorded os) ->
  let w := p_world (fst (pipe_run draw (nstep_bool n) (@nstep_len S A) (@nstep_add S A) (nstep_pop n gamma extra) (mkPipe (nstep_reset S A) (simple_init h cap g)) os)) in
  exists outs,
    Forall2 (fun d y => nstep_spec n gamma extra (fst (fst d)) (snd (fst d)) (snd d) y) (nstep_due n (recorded os)) outs /\
    simple_iter w = map as_single (lastn cap (numbered outs)) /\ simple_len w = Nat.min cap (length outs) /\
    (forall k, 1 <= k <= Nat.min cap (length outs) ->
       exists js b, snd (simple_sample draw w k) = Ok b /\ length js = k /\ NoDup js /\
         Forall2 (fun j x => j < length outs /\ length outs <= j + cap /\ exists y, nth_error outs j = Some y /\ x = mkTB [y] [Z.of_nat j]) js b) /\
    (forall k, Nat.min cap (length outs) < k -> snd (simple_sample draw w k) = Err EValue).
Proof.
  intros S A G draw n gamma extra h cap g os Hn Hg Hd V w. pose proof (@ninv_run S A G draw n gamma extra h cap g os Hn Hg V) as (Gd & B & C & outs & Tr & I). fold w in C, I.
  destruct (inv_contents I C) as [E1 E2]. exists outs. split; [eapply ntraced_due; eauto|]. split; [exact E1|]. split; [exact E2|]. split.
  - intros k Hk. exact (@sample_log S A G draw w outs cap k Hd I C Hk).
  - intros k Hk. exact (proj1 (sample_spec draw w k Hd) ltac:(rewrite E2; exact Hk)).
Qed.
Print Assumptions C105_nstep.

(** C105: MonteCarlo tracer and SimpleReplayBuffer. *)
Theorem C105_montecarlo : forall S A G draw gamma h cap (g : G) (os : list (lop S A G)),
  (0 <= gamma <= 1)%R -> draws_distinct draw -> steps_valid (recorded os) ->
  let w := p_world (fst (pipe_run draw (@mc_bool S A) (@mc_len S A) (@mc_add S A) (mc_pop gamma) (mkPipe (mc_reset S A) (simple_init h cap g)) os)) in
  exists outs,
    Forall2 (fun d y => mc_spec gamma (fst d) (snd d) y) (mc_due (recorded os)) outs /\
    simple_iter w = map as_single (lastn cap (numbered outs)) /\ simple_len w = Nat.min cap (length outs) /\
    (forall k, 1 <= k <= Nat.min cap (length outs) ->
       exists js b, snd (simple_sample draw w k) = Ok b /\ length js = k /\ NoDup js /\
         Forall2 (fun j x => j < length outs /\ length outs <= j + cap /\ exists y, nth_error outs j = Some y /\ x = mkTB [y] [Z.of_nat j]) js b) /\
    (forall k, Nat.min cap (length outs) < k -> snd (simple_sample draw w k) = Err EValue).
Proof.
  intros S A G draw gamma h cap g os Hg Hd V w. pose proof (@minv_run S A G draw gamma h cap g os Hg V) as (Gd & B & C & outs & Tr & I). fold w in C, I.
  destruct (inv_contents I C) as [E1 E2]. exists outs. split; [eapply mtraced_due; eauto|]. split; [exact E1|]. split; [exact E2|]. split.
  - intros k Hk. exact (@sample_log S A G draw w outs cap k Hd I C Hk).
  - intros k Hk. exact (proj1 (sample_spec draw w k Hd) ltac:(rewrite E2; exact Hk)).
Qed.
Print Assumptions C105_montecarlo.

(** C105: in no program does recording a step raise: the tracer is always drained before the next add. *)
Theorem C105_nstep_never_raises : forall S A G draw n gamma extra h cap (g : G) (os1 : list (lop S A G)) x r d os2,
  1 <= n -> (0 <= gamma <= 1)%R -> steps_valid (recorded (os1 ++ LRecord x r d :: os2)) ->
  nth_error (snd (pipe_run draw (nstep_bool n) (@nstep_len S A) (@nstep_add S A) (nstep_pop n gamma extra) (mkPipe (nstep_reset S A) (simple_init h cap g))
    (os1 ++ LRecord x r d :: os2))) (length os1) = Some (Ok []).
Proof. intros. now apply nrun_no_error. Qed.
Print Assumptions C105_nstep_never_raises.

Theorem C105_montecarlo_never_raises : forall S A G draw gamma h cap (g : G) (os1 : list (lop S A G)) x r d os2,
  (0 <= gamma <= 1)%R -> steps_valid (recorded (os1 ++ LRecord x r d :: os2)) ->
  nth_error (snd (pipe_run draw (@mc_bool S A) (@mc_len S A) (@mc_add S A) (mc_pop gamma) (mkPipe (mc_reset S A) (simple_init h cap g))
    (os1 ++ LRecord x r d :: os2))) (length os1) = Some (Ok []).
Proof. intros. now apply mrun_no_error. Qed.
Print Assumptions C105_montecarlo_never_raises.

(** Two episodes of lengths 2 and 1, recorded around a sample; random.sample takes the first positions. *)
Definition ex_draw (g : nat) (n k : nat) : list nat * nat := (seq 0 k, g).
Definition ex_step (s : nat) : step nat nat := mkStep s 0 0%R 1%R true.
Definition ex_prog : list (lop nat nat nat) :=
  [LRecord (ex_step 1) 1%R false; LRecord (ex_step 2) 1%R true; LSample 1; LForeign 7; LRecord (ex_step 3) 1%R true; LSample 2].

Lemma ex_draw_distinct : draws_distinct ex_draw.
Proof. intros g n k H. cbn. rewrite seq_length. split; auto. split; [apply seq_NoDup|]. intros p Hp. apply in_seq in Hp. lia. Qed.

Example C105_example : draws_distinct ex_draw /\ steps_valid (recorded ex_prog) /\
  length (nstep_due 1 (recorded ex_prog)) = 3 /\ length (mc_due (recorded ex_prog)) = 3 /\
  snd (pipe_run ex_draw (nstep_bool 1) (@nstep_len nat nat) (@nstep_add nat nat) (nstep_pop 1 1 false) (mkPipe (nstep_reset nat nat) (simple_init [] 2 0)) ex_prog) <> [].
Proof.
  split; [apply ex_draw_distinct|]. split; [|split; [reflexivity|split; [reflexivity|]]].
  - intros x r d H. cbn in H. destruct H as [H|[H|[H|[]]]]; injection H as <- <- <-; unfold valid_step; cbn; repeat split; lra.
  - intros H. apply (f_equal (@length _)) in H. revert H. cbn [ex_prog pipe_run].
    repeat (match goal with |- context [let (_, _) := ?x in _] => destruct x end). cbn. discriminate.
Qed.

(** C105: a step that from_single rejects (positive log-probability, weight that is not positive or not a float) and ends the episode:
    the loop raises TypeError; with a MonteCarlo tracer the buffer is as before. *)
Theorem C105_invalid_raises : forall S A G draw n gamma extra h cap (g : G) (os : list (lop S A G)) x r,
  1 <= n -> (0 <= gamma <= 1)%R -> steps_valid (recorded os) -> (0 < st_logp x \/ st_w x <= 0 \/ st_wnative x = false)%R ->
  snd (pipe_step draw (nstep_bool n) (@nstep_len S A) (@nstep_add S A) (nstep_pop n gamma extra)
    (fst (pipe_run draw (nstep_bool n) (@nstep_len S A) (@nstep_add S A) (nstep_pop n gamma extra) (mkPipe (nstep_reset S A) (simple_init h cap g)) os)) (LRecord x r true)) = Err EType /\
  let p := fst (pipe_run draw (@mc_bool S A) (@mc_len S A) (@mc_add S A) (mc_pop gamma) (mkPipe (mc_reset S A) (simple_init h cap g)) os) in
  exists t', pipe_step draw (@mc_bool S A) (@mc_len S A) (@mc_add S A) (mc_pop gamma) p (LRecord x r true) = (mkPipe t' (p_world p), Err EType).
Proof.
  intros S A G draw n gamma extra h cap g os x r Hn Hg V Hx. assert (Vx : ~ valid_step x) by (intros (V1 & V2 & V3); destruct Hx as [X|[X|X]]; [lra|lra|congruence]). split.
  - pose proof (@ninv_run S A G draw n gamma extra h cap g os Hn Hg V) as (Gd & B & _). cbn [pipe_step]. unfold pipe_record. destruct (@nbad_add S A n _ x r Gd B Vx) as (t' & E & Hb). rewrite E.
    pose proof (@drain_bad S A G (nstate S A) (nstep_bool n) (@nstep_len S A) (nstep_pop n gamma extra) (@nbad S A) (@nbad_len S A) (@nbad_bool S A n) (@nbad_pop S A n gamma extra Hn) (nstep_len t')) as D.
    match goal with |- context [pipe_drain _ _ _ ?p] => specialize (D p Hb (le_n _)); destruct (pipe_drain (nstep_bool n) (nstep_pop n gamma extra) (nstep_len t') p) as [p1 e] end. cbn [snd] in *. now rewrite D.
  - intros p. pose proof (@minv_run S A G draw gamma h cap g os Hg V) as (Gd & B & _). fold p in Gd, B. cbn [pipe_step]. unfold pipe_record. destruct (@mbad_add S A gamma _ x r Gd B Vx) as (t' & E & Hb). rewrite E.
    pose proof (mbad_len Hb) as L. destruct (mc_len t') as [|k]; [lia|]. cbn [pipe_drain p_tracer]. rewrite (mbad_bool Hb). destruct (mbad_pop gamma Hb) as (t1 & P). rewrite P. exists t1. reflexivity.
Qed.
Print Assumptions C105_invalid_raises.
Example C105_invalid_example : steps_valid (recorded ex_prog) /\ (0 < st_logp (mkStep 4 0 1 1 true) \/ st_w (mkStep 4 0 1 1 true) <= 0 \/ st_wnative (mkStep 4 0 1 1 true) = false)%R.
Proof. split; [|left; cbn; lra]. intros x r d H. cbn in H. destruct H as [H|[H|[H|[]]]]; injection H as <- <- <-; unfold valid_step; cbn; repeat split; lra. Qed.

(** C105: the loop does not hide EpisodeDoneError: if a finished episode has not been popped, recording another step raises and changes
    neither the tracer nor the buffer. *)
Theorem C105_episode_done : forall S A G n gamma extra (t : nstate S A) (m : mstate S A) (w : sworld (single S A) G) x r d,
  n_s t <> [] -> n_done t = true -> m_list m <> [] -> m_done m = true ->
  pipe_record (nstep_bool n) (@nstep_len S A) (@nstep_add S A) (nstep_pop n gamma extra) (mkPipe t w) x r d = (mkPipe t w, Some EEpisodeDone) /\
  pipe_record (@mc_bool S A) (@mc_len S A) (@mc_add S A) (mc_pop gamma) (mkPipe m w) x r d = (mkPipe m w, Some EEpisodeDone).
Proof.
  intros S A G n gamma extra t m w x r d Ht Dt Hm Dm. unfold pipe_record, nstep_add, mc_add, nstep_len, mc_len. cbn [p_tracer p_world]. rewrite Dt, Dm. destruct (n_s t); [congruence|]. destruct (m_list m); [congruence|]. split; reflexivity.
Qed.
Print Assumptions C105_episode_done.
Example C105_episode_done_example : n_s (fst (nstep_add (nstep_reset nat nat) (ex_step 1) 1%R true)) <> [] /\ n_done (fst (nstep_add (nstep_reset nat nat) (ex_step 1) 1%R true)) = true /\
  m_list (fst (mc_add (mc_reset nat nat) (ex_step 1) 1%R true)) <> [] /\ m_done (fst (mc_add (mc_reset nat nat) (ex_step 1) 1%R true)) = true.
Proof. cbn. repeat split; discriminate. Qed.

(** ---- C106: the scripts ---- *)

(** C106: with [done or truncated] passed to the tracer and a warm-up of at least the batch size, the script never raises, and
    every row of every batch is an n-step transition of one of the episodes that were played. *)
Theorem C106_script : forall S A G draw n gamma m k cap h (g : G) (es : list (envstep S A)),
  1 <= n -> (0 <= gamma <= 1)%R -> draws_distinct draw -> 1 <= k <= m -> played_valid es ->
  exists p bs, script_run draw n gamma DoneOrTruncated (Some m) k (mkPipe (nstep_reset S A) (simple_init h cap g)) es = (p, Ok bs) /\
    forall b, In b bs -> length b = k /\ NoDup (map (@ids _) b) /\
      Forall (fun x => exists y j, x = mkTB [y] [Z.of_nat j] /\ of_one_episode n gamma es y) b.
Proof.
  intros S A G draw n gamma m k cap h g es Hn Hg Hd Hk V.
  destruct (@script_ok S A G draw n gamma Hn Hg Hd DoneOrTruncated m k cap h g es Hk V) as (p & bs & outs & E & F & _ & H).
  exists p, bs. split; auto. intros b Hb. destruct (H b Hb) as (H1 & H2 & H3). split; auto. split; auto.
  eapply Forall_impl; [|exact H3]. intros x (j & y & N & ->). exists y, j. split; auto. exact (@due_episode S A n gamma _ _ _ _ F N).
Qed.
Print Assumptions C106_script.

(** One time step that ends in truncation, and the first step of the next episode. *)
Definition ex_es : list (envstep nat nat) :=
  [mkES (ex_step 1) 1%R false true; mkES (ex_step 2) 1%R false false].

Ltac run_checks := cbn; unfold script_step, pipe_record; cbn; unfold from_single; repeat (match goal with
  | |- context [Rle_dec ?a ?b] => destruct (Rle_dec a b); [|exfalso; lra]
  | |- context [Rlt_dec ?a ?b] => destruct (Rlt_dec a b); [|exfalso; lra] end; cbn).

Lemma ex_played : played_valid ex_es.
Proof. intros e [<-|[<-|[]]]; unfold valid_step; cbn; repeat split; lra. Qed.

Example C106_example : played_valid ex_es /\ draws_distinct ex_draw /\
  exists p b bs, script_run ex_draw 1 1%R DoneOrTruncated (Some 1) 1 (mkPipe (nstep_reset nat nat) (simple_init [] 5 0)) ex_es = (p, Ok (b :: bs)).
Proof. split; [apply ex_played|]. split; [apply ex_draw_distinct|]. run_checks. do 3 eexists. reflexivity. Qed.

(** C106: passing only [done] (many scripts) is wrong when an episode is truncated: the batch contains a transition from the last
    state of the truncated episode to the first state of the next one, with bootstrap factor gamma. *)
Theorem C106_done_only_refuted : exists (es : list (envstep nat nat)) p b bs y,
  played_valid es /\
  script_run ex_draw 1 1%R DoneOnly (Some 1) 1 (mkPipe (nstep_reset nat nat) (simple_init [] 5 0)) es = (p, Ok (b :: bs)) /\
  In (mkTB [y] [0%Z]) b /\ x_s y = 1 /\ x_s_next y = 2 /\ x_in y = 1%R /\ ~ of_one_episode 1 1%R es y.
Proof.
  exists ex_es. eexists. eexists. eexists. eexists. split; [apply ex_played|]. split; [run_checks; reflexivity|]. split; [now left|].
  cbn [x_s x_s_next x_in]. split; [reflexivity|]. split; [reflexivity|].
  assert (E : forall y, x_in y = 1%R -> x_s y = 1 -> ~ of_one_episode 1 1%R ex_es y).
  { intros y E1 E0 (ep & fin & t & H & x & r & N & S1 & _ & _ & _ & _ & _ & H2 & _). unfold ex_es, played in H. cbn in H. destruct fin.
    - destruct H as [<-|[]]. cbn in H2. assert (t = 0). { assert (t < 1) by (change 1 with (length [(ex_step 1, 1%R)]); apply nth_error_Some; congruence). lia. } subst t.
      destruct (H2 ltac:(lia)) as [Hx _]. rewrite Hx in E1. lra.
    - destruct H as [-> H]. cbn in H. lia. }
  split; [|apply E; [|reflexivity]]; cbn; lra.
Qed.
Print Assumptions C106_done_only_refuted.

(** C106: what the scripts do in that case: they work on the sequence in which a truncated episode and the next one are one
    episode. *)
Theorem C106_done_only_exact : forall S A G draw n gamma m k cap h (g : G) (es : list (envstep S A)),
  1 <= n -> (0 <= gamma <= 1)%R -> draws_distinct draw -> 1 <= k <= m -> played_valid es ->
  exists p bs, script_run draw n gamma DoneOnly (Some m) k (mkPipe (nstep_reset S A) (simple_init h cap g)) es = (p, Ok bs) /\
    forall b, In b bs -> length b = k /\ NoDup (map (@ids _) b) /\
      Forall (fun x => exists y j, x = mkTB [y] [Z.of_nat j] /\
        of_one_episode n gamma (map (fun e => mkES (es_step e) (es_r e) (es_done e) false) es) y) b.
Proof.
  intros S A G draw n gamma m k cap h g es Hn Hg Hd Hk V.
  destruct (@script_ok S A G draw n gamma Hn Hg Hd DoneOnly m k cap h g es Hk V) as (p & bs & outs & E & F & _ & H).
  exists p, bs. split; auto. intros b Hb. destruct (H b Hb) as (H1 & H2 & H3). split; auto. split; auto.
  eapply Forall_impl; [|exact H3]. intros x (j & y & N & ->). exists y, j. split; auto. unfold of_one_episode, played. rewrite map_map.
  erewrite map_ext; [exact (@due_episode S A n gamma _ _ _ _ F N)|]. intros e. cbn. now rewrite orb_false_r.
Qed.
Print Assumptions C106_done_only_exact.

(** C106: without a warm-up (the stubs) the first time step already raises ValueError when the batch size is at least 2. *)
Theorem C106_stub_raises : forall S A G draw n gamma f k cap h (g : G) (e : envstep S A) es,
  1 <= n -> (0 <= gamma <= 1)%R -> 2 <= k -> valid_step (es_step e) ->
  snd (script_run draw n gamma f None k (mkPipe (nstep_reset S A) (simple_init h cap g)) (e :: es)) = Err EValue.
Proof.
  intros S A G draw n gamma f k cap h g e es Hn Hg Hk V. cbn [script_run]. pose proof (@stub_raises S A G draw n gamma Hn Hg f k cap h g e Hk V) as E.
  destruct (script_step draw n gamma f None k _ e) as [p1 o]. cbn [snd] in E. subst o. reflexivity.
Qed.
Print Assumptions C106_stub_raises.

Example C106_stub_example : valid_step (es_step (hd (mkES (ex_step 1) 1%R false true) ex_es)) /\ 2 <= 32.
Proof. split; [apply (ex_played _ (or_introl eq_refl))|lia]. Qed.

(** ---- C107: with a PrioritizedReplayBuffer ---- *)

(** C107: NStep tracer and PrioritizedReplayBuffer: the buffer holds the last [cap] n-step transitions of the recorded episodes,
    whatever priorities were assigned; a sample returns such transitions with their tracer weight times a factor in (0, 1],
    factor 1 for at least one of them, each drawn with probability proportional to its priority. *)
Theorem C107_nstep : forall S A n gamma extra h cap alpha beta eps w0 (os : list (plop S A)),
  1 <= n -> (0 <= gamma <= 1)%R -> prio_init h cap alpha beta eps = Ok w0 -> steps_valid (p_recorded os) ->
  let w := pp_world (ppipe_run (nstep_bool n) (@nstep_len S A) (@nstep_add S A) (nstep_pop n gamma extra) (mkPP (nstep_reset S A) w0) os) in
  exists outs,
    Forall2 (fun d y => nstep_spec n gamma extra (fst (fst d)) (snd (fst d)) (snd d) y) (nstep_due n (p_recorded os)) outs /\
    prio_len w = Nat.min cap (length outs) /\
    Permutation (prio_iter w) (map Some (map as_single (lastn cap (numbered (map (fun y => (y, x_w y)) outs))))) /\
    forall us, outs <> [] -> us <> [] -> (forall u, In u us -> (0 <= u < 1)%R) ->
    exists ks out, prio_sample w us = Ok out /\
      Forall2 (fun u k => in_window cap (length outs) k /\ (prefix_sum (prio_values w) (k mod cap) <= u * rsum (prio_values w) < prefix_sum (prio_values w) (Datatypes.S (k mod cap)))%R) us ks /\
      Forall2 (fun k o => exists y f, nth_error outs k = Some y /\ (0 < f <= 1)%R /\ o = (y, (x_w y * f)%R, [Z.of_nat k])) ks out /\
      exists k y, In k ks /\ nth_error outs k = Some y /\ In (y, x_w y, [Z.of_nat k]) out.
Proof.
  intros S A n gamma extra h cap alpha beta eps w0 os Hn Hg Hi V w.
  pose proof (@prun_inv S A (nstate S A) (nstep_bool n) (@nstep_len S A) (@nstep_add S A) (nstep_pop n gamma extra) (@ngood S A)
    (fun t x r d => @ngood_add S A n t x r d) (fun t => @ngood_pop S A n gamma extra t Hn Hg) (nempty n) (nstep_reset S A) cap h alpha beta eps w0 Hi os (mkPP (nstep_reset S A) w0) []) as H.
  destruct H as (Gd & B & outs & Tr & Rc); [apply ppinv_init; [apply ngood_reset|now apply nempty]|exact V|]. fold w in Rc. cbn [app] in Tr.
  exists outs. split; [eapply ntraced_due; eauto|]. exact (@reached_view S A cap h alpha beta eps w0 Hi w outs Rc).
Qed.
Print Assumptions C107_nstep.

(** C107: the same for the MonteCarlo tracer. *)
Theorem C107_montecarlo : forall S A gamma h cap alpha beta eps w0 (os : list (plop S A)),
  (0 <= gamma <= 1)%R -> prio_init h cap alpha beta eps = Ok w0 -> steps_valid (p_recorded os) ->
  let w := pp_world (ppipe_run (@mc_bool S A) (@mc_len S A) (@mc_add S A) (mc_pop gamma) (mkPP (mc_reset S A) w0) os) in
  exists outs,
    Forall2 (fun d y => mc_spec gamma (fst d) (snd d) y) (mc_due (p_recorded os)) outs /\
    prio_len w = Nat.min cap (length outs) /\
    Permutation (prio_iter w) (map Some (map as_single (lastn cap (numbered (map (fun y => (y, x_w y)) outs))))) /\
    forall us, outs <> [] -> us <> [] -> (forall u, In u us -> (0 <= u < 1)%R) ->
    exists ks out, prio_sample w us = Ok out /\
      Forall2 (fun u k => in_window cap (length outs) k /\ (prefix_sum (prio_values w) (k mod cap) <= u * rsum (prio_values w) < prefix_sum (prio_values w) (Datatypes.S (k mod cap)))%R) us ks /\
      Forall2 (fun k o => exists y f, nth_error outs k = Some y /\ (0 < f <= 1)%R /\ o = (y, (x_w y * f)%R, [Z.of_nat k])) ks out /\
      exists k y, In k ks /\ nth_error outs k = Some y /\ In (y, x_w y, [Z.of_nat k]) out.
Proof.
  intros S A gamma h cap alpha beta eps w0 os Hg Hi V w.
  pose proof (@prun_inv S A (mstate S A) (@mc_bool S A) (@mc_len S A) (@mc_add S A) (mc_pop gamma) (@mgood S A gamma)
    (@mgood_add S A gamma) (fun t => @mgood_pop S A gamma t Hg) (@mempty S A) (mc_reset S A) cap h alpha beta eps w0 Hi os (mkPP (mc_reset S A) w0) []) as H.
  destruct H as (Gd & B & outs & Tr & Rc); [apply ppinv_init; [apply mgood_reset|now apply mempty]|exact V|]. fold w in Rc. cbn [app] in Tr.
  exists outs. split; [eapply mtraced_due; eauto|]. exact (@reached_view S A cap h alpha beta eps w0 Hi w outs Rc).
Qed.
Print Assumptions C107_montecarlo.

(** C106: stubs/dqn_per.py, which samples after every step, raises in the first step unless that ends the episode. *)
Theorem C106_per_stub_raises : forall S A n gamma extra h cap alpha beta eps w0 td (x : step S A) r us,
  1 <= n -> (0 <= gamma <= 1)%R -> prio_init h cap alpha beta eps = Ok w0 -> valid_step x -> us <> [] ->
  prio_sample (pp_world (fst (ppipe_step (nstep_bool n) (@nstep_len S A) (@nstep_add S A) (nstep_pop n gamma extra) (mkPP (nstep_reset S A) w0) (PLRecord td x r false)))) us
    = Err ERuntime.
Proof.
  intros S A n gamma extra h cap alpha beta eps w0 td x r us Hn Hg Hi V Hu.
  pose proof (@prun_inv S A (nstate S A) (nstep_bool n) (@nstep_len S A) (@nstep_add S A) (nstep_pop n gamma extra) (@ngood S A)
    (fun t x r d => @ngood_add S A n t x r d) (fun t => @ngood_pop S A n gamma extra t Hn Hg) (nempty n) (nstep_reset S A) cap h alpha beta eps w0 Hi [PLRecord td x r false] (mkPP (nstep_reset S A) w0) []) as H.
  destruct H as (Gd & B & outs & Tr & Rc); [apply ppinv_init; [apply ngood_reset|now apply nempty]| |].
  - intros x' r' d' [E|[]]. injection E as <- _ _. exact V.
  - cbn [app p_recorded] in Tr. pose proof (ntraced_due Hn Hg B Tr) as F. apply f2_length in F.
    assert (L : outs = []). { apply length_zero_iff_nil. rewrite <- F. unfold nstep_due. cbn [cut app flat_map]. rewrite map_length, seq_length. cbn [length]. lia. }
    subst outs. cbn [ppipe_run fold_left] in Rc. exact (@reached_empty S A cap h alpha beta eps w0 Hi _ us Rc Hu).
Qed.
Print Assumptions C106_per_stub_raises.

(** C107: recording never raises. *)
Theorem C107_never_raises : forall S A n gamma extra h cap alpha beta eps w0 (os : list (plop S A)) td x r d,
  1 <= n -> (0 <= gamma <= 1)%R -> prio_init h cap alpha beta eps = Ok w0 -> steps_valid (p_recorded os) -> valid_step x ->
  snd (ppipe_step (nstep_bool n) (@nstep_len S A) (@nstep_add S A) (nstep_pop n gamma extra)
    (ppipe_run (nstep_bool n) (@nstep_len S A) (@nstep_add S A) (nstep_pop n gamma extra) (mkPP (nstep_reset S A) w0) os) (PLRecord td x r d)) = None /\
  snd (ppipe_step (@mc_bool S A) (@mc_len S A) (@mc_add S A) (mc_pop gamma)
    (ppipe_run (@mc_bool S A) (@mc_len S A) (@mc_add S A) (mc_pop gamma) (mkPP (mc_reset S A) w0) os) (PLRecord td x r d)) = None.
Proof.
  intros S A n gamma extra h cap alpha beta eps w0 os td x r d Hn Hg Hi V Vx. split.
  - pose proof (@prun_inv S A (nstate S A) (nstep_bool n) (@nstep_len S A) (@nstep_add S A) (nstep_pop n gamma extra) (@ngood S A)
      (fun t x r d => @ngood_add S A n t x r d) (fun t => @ngood_pop S A n gamma extra t Hn Hg) (nempty n) (nstep_reset S A) cap h alpha beta eps w0 Hi os (mkPP (nstep_reset S A) w0) []) as H.
    destruct (@precord_ok S A (nstate S A) (nstep_bool n) (@nstep_len S A) (@nstep_add S A) (nstep_pop n gamma extra) (@ngood S A)
      (fun t x r d => @ngood_add S A n t x r d) (fun t => @ngood_pop S A n gamma extra t Hn Hg) (nempty n) (nstep_reset S A) cap h alpha beta eps w0 Hi _ _ td x r d
      (H ltac:(apply ppinv_init; [apply ngood_reset|now apply nempty]) V) Vx) as (p' & E & _).
    cbn [ppipe_step]. now rewrite E.
  - pose proof (@prun_inv S A (mstate S A) (@mc_bool S A) (@mc_len S A) (@mc_add S A) (mc_pop gamma) (@mgood S A gamma)
      (@mgood_add S A gamma) (fun t => @mgood_pop S A gamma t Hg) (@mempty S A) (mc_reset S A) cap h alpha beta eps w0 Hi os (mkPP (mc_reset S A) w0) []) as H.
    destruct (@precord_ok S A (mstate S A) (@mc_bool S A) (@mc_len S A) (@mc_add S A) (mc_pop gamma) (@mgood S A gamma)
      (@mgood_add S A gamma) (fun t => @mgood_pop S A gamma t Hg) (@mempty S A) (mc_reset S A) cap h alpha beta eps w0 Hi _ _ td x r d
      (H ltac:(apply ppinv_init; [apply mgood_reset|now apply mempty]) V) Vx) as (p' & E & _).
    cbn [ppipe_step]. now rewrite E.
Qed.
Print Assumptions C107_never_raises.

(** C107: exceptions of tracer and transition constructor come out of the loop. *)
Theorem C107_invalid_raises : forall S A n gamma extra h cap alpha beta eps w0 (os : list (plop S A)) td x r,
  1 <= n -> (0 <= gamma <= 1)%R -> prio_init h cap alpha beta eps = Ok w0 -> steps_valid (p_recorded os) -> (0 < st_logp x \/ st_w x <= 0 \/ st_wnative x = false)%R ->
  snd (ppipe_step (nstep_bool n) (@nstep_len S A) (@nstep_add S A) (nstep_pop n gamma extra)
    (ppipe_run (nstep_bool n) (@nstep_len S A) (@nstep_add S A) (nstep_pop n gamma extra) (mkPP (nstep_reset S A) w0) os) (PLRecord td x r true)) = Some EType /\
  let p := ppipe_run (@mc_bool S A) (@mc_len S A) (@mc_add S A) (mc_pop gamma) (mkPP (mc_reset S A) w0) os in
  exists t', ppipe_step (@mc_bool S A) (@mc_len S A) (@mc_add S A) (mc_pop gamma) p (PLRecord td x r true) = (mkPP t' (pp_world p), Some EType).
Proof.
  intros S A n gamma extra h cap alpha beta eps w0 os td x r Hn Hg Hi V Hx. assert (Vx : ~ valid_step x) by (intros (V1 & V2 & V3); destruct Hx as [X|[X|X]]; [lra|lra|congruence]). split.
  - pose proof (@prun_inv S A (nstate S A) (nstep_bool n) (@nstep_len S A) (@nstep_add S A) (nstep_pop n gamma extra) (@ngood S A)
      (fun t x r d => @ngood_add S A n t x r d) (fun t => @ngood_pop S A n gamma extra t Hn Hg) (nempty n) (nstep_reset S A) cap h alpha beta eps w0 Hi os (mkPP (nstep_reset S A) w0) []
      ltac:(apply ppinv_init; [apply ngood_reset|now apply nempty]) V) as (Gd & B & outs & _ & Rc).
    cbn [ppipe_step]. unfold ppipe_record. destruct (@nbad_add S A n _ x r Gd B Vx) as (t' & E & Hb). rewrite E.
    apply (@pdrain_bad S A (nstate S A) (nstep_bool n) (@nstep_len S A) (nstep_pop n gamma extra) (@nbad S A) (@nbad_len S A) (@nbad_bool S A n) (@nbad_pop S A n gamma extra Hn) w0) with (outs := outs); auto.
    intros w o y adv R. exact (@reached_new S A (nstate S A) (nstep_bool n) (@nstep_len S A) (@nstep_add S A) (nstep_pop n gamma extra) (@ngood S A)
      (fun t x r d => @ngood_add S A n t x r d) (fun t => @ngood_pop S A n gamma extra t Hn Hg) (nempty n) (nstep_reset S A) cap h alpha beta eps w0 Hi w o y adv R).
  - intros p. pose proof (@prun_inv S A (mstate S A) (@mc_bool S A) (@mc_len S A) (@mc_add S A) (mc_pop gamma) (@mgood S A gamma)
      (@mgood_add S A gamma) (fun t => @mgood_pop S A gamma t Hg) (@mempty S A) (mc_reset S A) cap h alpha beta eps w0 Hi os (mkPP (mc_reset S A) w0) []
      ltac:(apply ppinv_init; [apply mgood_reset|now apply mempty]) V) as (Gd & B & _). fold p in Gd, B.
    cbn [ppipe_step]. unfold ppipe_record. destruct (@mbad_add S A gamma _ x r Gd B Vx) as (t' & E & Hb). rewrite E.
    pose proof (mbad_len Hb) as L. destruct (mc_len t') as [|k]; [lia|]. cbn [ppipe_drain pp_tracer]. rewrite (mbad_bool Hb). destruct (mbad_pop gamma Hb) as (t1 & P). rewrite P. exists t1. reflexivity.
Qed.
Print Assumptions C107_invalid_raises.
Theorem C107_episode_done : forall S A n gamma extra (t : nstate S A) (m : mstate S A) (w : pworld (single S A)) td x r d,
  n_s t <> [] -> n_done t = true -> m_list m <> [] -> m_done m = true ->
  ppipe_record (nstep_bool n) (@nstep_len S A) (@nstep_add S A) (nstep_pop n gamma extra) (mkPP t w) td x r d = (mkPP t w, Some EEpisodeDone) /\
  ppipe_record (@mc_bool S A) (@mc_len S A) (@mc_add S A) (mc_pop gamma) (mkPP m w) td x r d = (mkPP m w, Some EEpisodeDone).
Proof.
  intros S A n gamma extra t m w td x r d Ht Dt Hm Dm. unfold ppipe_record, nstep_add, mc_add, nstep_len, mc_len. cbn [pp_tracer pp_world]. rewrite Dt, Dm. destruct (n_s t); [congruence|]. destruct (m_list m); [congruence|]. split; reflexivity.
Qed.
Print Assumptions C107_episode_done.

(** C107: the feedback loop of dqn_per.py:68-70, on any reachable buffer with at most 2^31 transitions added: sampling and calling
    update with the ids of the sample sets the priority of each sampled transition from its last entry, and no other. *)
Theorem C107_feedback : forall Y cap (h : list (tbatch (Y * R))) alpha beta eps w0 os,
  prio_init h cap alpha beta eps = Ok w0 -> p_no_alias w0 os ->
  let w := prio_run w0 os in let log := p_added w0 os [] in
  forall us out advs, (Z.of_nat (length log) <= 2147483648)%Z -> us <> [] -> (forall u, In u us -> (0 <= u < 1)%R) ->
  prio_sample w us = Ok out -> length advs = length us ->
  let idx := flat_map (fun o : Y * R * list Z => snd o) out in
  let w' := fst (prio_update w idx advs) in
  snd (prio_update w idx advs) = None /\ prio_iter w' = prio_iter w /\
  forall k, in_window cap (length log) k ->
    (forall j, nth_error idx j = Some (Z.of_nat k) -> (forall j', j < j' -> nth_error idx j' <> Some (Z.of_nat k)) ->
       priority w' k = Rpower (Rabs (nth j advs 0%R) + peps (pb w))%R (palpha (pb w))) /\
    (~ In (Z.of_nat k) idx -> priority w' k = priority w k).
Proof. intros Y cap h alpha beta eps w0 os Hi Ha. exact (@feedback Y cap h alpha beta eps w0 os Hi Ha). Qed.
Print Assumptions C107_feedback.

(** A program of three steps with an update and a change of beta. *)
Definition ex_pprog : list (plop nat nat) :=
  [PLRecord (fun _ => 1%R) (ex_step 1) 1%R false; PLRecord (fun _ => 2%R) (ex_step 2) 1%R true; PLUpdate [0%Z] [3%R]; PLBeta 1%R; PLRecord (fun _ => 2%R) (ex_step 3) 1%R true].

Example C107_example : (exists w0, prio_init ([] : list (tbatch (single nat nat * R))) 2 1%R 1%R 1%R = Ok w0) /\ steps_valid (p_recorded ex_pprog) /\
  length (nstep_due 1 (p_recorded ex_pprog)) = 3.
Proof.
  split; [|split; [|reflexivity]].
  - unfold prio_init. cbn [Nat.eqb]. destruct (Rle_dec 1 0); [lra|]. eauto.
  - intros x r d H. cbn in H. destruct H as [H|[H|[H|[]]]]; injection H as <- <- <-; unfold valid_step; cbn; repeat split; lra.
Qed.

(** The step rejected has a positive log-probability; the programs before it are valid. *)
Example C107_invalid_example : (exists w0, prio_init ([] : list (tbatch (single nat nat * R))) 2 1%R 1%R 1%R = Ok w0) /\ steps_valid (p_recorded ex_pprog) /\
  (0 < st_logp (mkStep 4 0 1 1 true) \/ st_w (mkStep 4 0 1 1 true) <= 0 \/ st_wnative (mkStep 4 0 1 1 true) = false)%R.
Proof. destruct C107_example as (H & V & _). split; [exact H|split; [exact V|left; cbn; lra]]. Qed.

Example C107_feedback_example : prio_init (one_heap 3) 2 1%R 1%R 1%R = Ok (one_world 3 2 1 1) /\ p_no_alias (one_world 3 2 1 1) (one_prog 3 0) /\
  (Z.of_nat (length (p_added (one_world 3 2 1 1) (one_prog 3 0) [])) <= 2147483648)%Z /\
  exists out, prio_sample (prio_run (one_world 3 2 1 1) (one_prog 3 0)) [0%R] = Ok out.
Proof.
  assert (I : prio_init (one_heap 3) 2 1%R 1%R 1%R = Ok (one_world 3 2 1 1)) by (apply one_init; [lia|lra|lra]).
  split; [exact I|]. split; [apply one_no_alias|]. split; [rewrite one_added; cbn; lia|].
  destruct (@whole_sample unit 2 (one_heap 3) 1 1 1 _ (one_prog 3 0) I (one_no_alias 3 2 1 1 0) [0%R]) as (ks & m & out & E & _).
  - rewrite one_added. discriminate.
  - discriminate.
  - intros u [<-|[]]. lra.
  - eauto.
Qed.
