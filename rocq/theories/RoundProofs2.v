(** Proofs for RoundProps.v: all rounds together, small buffers, lost transitions. *)
From Coq Require Import List ZArith Lia Bool Reals Lra.
From Verif Require Import PyCommon CommonProofs ReplayModel ReplaySpec ReplayProofs PrioModel TracerModel TracerSpec TracerProofs TracerProofs2 PipeModel PipeSpec PipeProofs PipeProofs2 PipeProofs3 RoundModel RoundSpec RoundProofs.
Import ListNotations.
Set Implicit Arguments.

Lemma sched_lo : forall D cap t0 T ws, schedule D cap t0 T ws -> forall w, In w ws -> t0 <= fst w < snd w /\ snd w <= T.
Proof. intros D cap t0 T ws H. induction H as [|t0 t1 T ws H1 H2 H3 H4 IH]; intros w Hw; [contradiction|]. destruct Hw as [<-|Hw]; [cbn; lia|]. specialize (IH w Hw). lia. Qed.
Lemma sched_order : forall D cap t0 T ws, schedule D cap t0 T ws -> forall i j wi wj, i < j -> nth_error ws i = Some wi -> nth_error ws j = Some wj -> snd wi <= fst wj.
Proof.
  intros D cap t0 T ws H. induction H as [|t0 t1 T ws H1 H2 H3 H4 IH]; intros i j wi wj Hij Ei Ej; [destruct i; discriminate|]. destruct j as [|j]; [lia|]. destruct i as [|i].
  - injection Ei as <-. cbn [snd nth_error] in *. apply nth_error_In in Ej. pose proof (sched_lo H4 wj Ej). lia.
  - eapply IH; [|exact Ei|exact Ej]. lia.
Qed.

Section Rounds.
Variables S A G : Type.
Variable draw : G -> nat -> nat -> list nat * G.
Variables (n : nat) (gamma : R).
Hypothesis Hn : 1 <= n.
Hypothesis Hg : (0 <= gamma <= 1)%R.
Hypothesis Hd : draws_distinct draw.
Variable f : flagged.
Notation npipe := (pipe S A (nstate S A) G).
Lemma fed_rec : forall es : list (envstep S A), map (rec1 f) es = fed f es.
Proof. intros es. apply map_ext. intros e. unfold rec1. destruct f; reflexivity. Qed.
Lemma fed_length : forall es : list (envstep S A), length (fed f es) = length es. Proof. intros. apply map_length. Qed.
Lemma about_step : forall (es : list (envstep S A)) outs j y, Forall2 (fun d y => nstep_spec n gamma false (fst (fst d)) (snd (fst d)) (snd d) y) (nstep_due n (fed f es)) outs -> nth_error outs j = Some y -> exists e, nth_error es j = Some e /\ about e y.
Proof.
  intros es outs j y F E. destruct (Forall2_nth _ F E) as ([[ep fin] t] & E1 & x & r & N & Q). cbn [fst snd] in *.
  pose proof (f_equal (fun l => nth_error l j) (due_map n (fed f es))) as M. cbn beta in M. rewrite !nth_error_map in M. match type of M with option_map _ ?X = _ => replace X with (Some (ep, fin, t)) in M by (symmetry; exact E1) end. cbn [option_map fst snd] in M. rewrite N in M.
  assert (LJ : j < length (nstep_due n (fed f es))) by (apply nth_error_Some; congruence). rewrite (nth_error_take _ LJ) in M. unfold fed in M. rewrite map_map, nth_error_map in M. destruct (nth_error es j) as [e|]; [|discriminate]. cbn [option_map fst] in M. injection M as M1 M2. exists e. split; auto. unfold about. rewrite <- M1. intuition congruence.
Qed.
Lemma rounds_ok : forall k cap h g (es : list (envstep S A)), 1 <= k <= cap -> played_valid es ->
  exists p rounds outs ws, round_run draw n gamma f k (mkPipe (nstep_reset S A) (simple_init h cap g)) es = (p, Ok rounds) /\ Forall2 (fun d y => nstep_spec n gamma false (fst (fst d)) (snd (fst d)) (snd d) y) (nstep_due n (fed f es)) outs /\
    schedule (avail n (fed f es)) cap 0 (length es) ws /\ Forall2 (round_of (avail n (fed f es)) k cap (4 * cap / k) outs) ws rounds.
Proof.
  intros k cap h g es Hk V. destruct (@rrun S A G draw n gamma Hn Hg Hd f k cap Hk es _ [] [] [] 0 (rinit n gamma h cap g) V) as (p & rounds & ys & ws & E & F & SC & RO); auto; try (cbn; lia).
  - cbn [app] in *. rewrite fed_rec in *. exists p, rounds, ys, ws. rewrite fed_length in SC. auto.
Qed.
(** Small buffers. *)
Lemma silent : forall k cap, 4 * cap < k -> forall (es : list (envstep S A)) (p : npipe) ins old cur, rinv n gamma cap p ins old cur -> played_valid es ->
  exists p' rounds, round_run draw n gamma f k p es = (p', Ok rounds) /\ forall r, In r rounds -> r = [].
Proof.
  intros k cap Hk. induction es as [|e es IH]; intros p ins old cur H V. { exists p, []. split; auto. intros r []. }
  assert (Ve : valid_step (es_step e)) by (apply V; now left). assert (V' : played_valid es) by (intros x Hx; apply V; now right). cbn [round_run]. unfold round_step.
  destruct (@rrecord S A G n gamma Hn Hg cap p ins old cur (es_step e) (es_r e) (flag_of f e) H Ve) as (p1 & ys & E & H1). rewrite E. assert (C1 : scap (sb (p_world p1)) = cap) by apply H1. rewrite C1. destruct (Nat.eqb (simple_len (p_world p1)) cap).
  - rewrite Nat.div_small by lia. cbn [round_samples]. destruct (IH (mkPipe (p_tracer p1) (simple_clear (p_world p1))) (ins ++ [(es_step e, es_r e, flag_of f e)]) (old ++ cur ++ ys) []) as (p' & rounds & E2 & Q); auto.
    + destruct H1 as (Gd & B & _ & Tr & I). split; auto. split; auto. destruct (clear_inv (p_world p1)) as [I3 C3]. cbn [p_world p_tracer]. split; [congruence|]. rewrite app_nil_r. auto.
    + rewrite E2. exists p', ([] :: rounds). split; auto. intros r [<-|Hr]; auto.
  - destruct (IH p1 _ _ _ H1 V') as (p' & rounds & E2 & Q). rewrite E2. exists p', rounds. auto.
Qed.
Lemma raises : forall k cap, cap < k <= 4 * cap -> forall (es : list (envstep S A)) (p : npipe) ins old cur t, rinv n gamma cap p ins old cur -> played_valid es -> length cur < cap -> t <= length es ->
  length old + cap <= length (nstep_due n (ins ++ map (rec1 f) (firstn t es))) -> snd (round_run draw n gamma f k p es) = Err EValue.
Proof.
  intros k cap Hk. induction es as [|e es IH]; intros p ins old cur t H V LC Ht HT; destruct (rlen Hn Hg H) as [L1 _].
  { destruct t; cbn [firstn map] in HT; rewrite app_nil_r in HT; lia. }
  destruct t as [|t]. { cbn [firstn map] in HT; rewrite app_nil_r in HT; lia. } cbn [firstn map length] in *.
  assert (Ve : valid_step (es_step e)) by (apply V; now left). assert (V' : played_valid es) by (intros x Hx; apply V; now right). cbn [round_run]. unfold round_step.
  destruct (@rrecord S A G n gamma Hn Hg cap p ins old cur (es_step e) (es_r e) (flag_of f e) H Ve) as (p1 & ys & E & H1). rewrite E. assert (C1 : scap (sb (p_world p1)) = cap) by apply H1. destruct (rlen Hn Hg H1) as [L2 L3]. rewrite C1, L3. destruct (Nat.eqb_spec (Nat.min cap (length (cur ++ ys))) cap) as [F|F].
  - assert (M : 1 <= 4 * cap / k) by (apply Nat.div_le_lower_bound; lia). destruct (4 * cap / k) as [|m] eqn:EM; [lia|]. cbn [round_samples].
    pose proof (proj1 (sample_spec draw (p_world p1) k Hd) ltac:(rewrite L3; lia)) as ES. destruct (simple_sample draw (p_world p1) k) as [w1 x]. cbn [snd] in ES. subst x. reflexivity.
  - specialize (IH p1 (ins ++ [(es_step e, es_r e, flag_of f e)]) old (cur ++ ys) t H1 V' ltac:(lia) ltac:(lia)). rewrite <- app_assoc in IH. specialize (IH HT). destruct (round_run draw n gamma f k p1 es) as [p2 [bs|x]]; cbn [snd] in *; congruence.
Qed.
End Rounds.
Lemma cut_open : forall S A (ins : list (step S A * R * bool)) cur, (forall x, In x ins -> snd x = false) -> snd (cut cur ins) = cur ++ map fst ins.
Proof. induction ins as [|[[x r] d] ins IH]; intros cur H; cbn [cut map]; [now rewrite app_nil_r|]. pose proof (H (x, r, d) (or_introl eq_refl)) as E. cbn in E. subst d. rewrite IH by (intros; apply H; now right). rewrite <- app_assoc. reflexivity. Qed.
(** One episode that ends with step L. *)
Lemma avail_episode : forall S A n (ins : list (step S A * R * bool)), (forall j x, nth_error ins j = Some x -> snd x = Nat.eqb (Datatypes.S j) (length ins)) -> ins <> [] ->
  (forall t, t < length ins -> avail n ins t = t - n) /\ avail n ins (length ins) = length ins.
Proof.
  intros S A n ins H NE. split.
  - intros t Ht. unfold avail. rewrite due_length, cut_open. + cbn [app]. rewrite map_length, firstn_length. lia.
    + intros x Hx. apply In_nth_error in Hx. destruct Hx as [j Hj]. assert (j < t). { assert (j < length (firstn t ins)) by (apply nth_error_Some; congruence). rewrite firstn_length in *. lia. } rewrite nth_error_take in Hj by auto. rewrite (H j x Hj). apply Nat.eqb_neq. lia.
  - unfold avail. rewrite firstn_all. destruct (exists_last NE) as (l & [[x r] d] & ->). rewrite due_length, cut_snoc. assert (E : d = true). { specialize (H (length l) (x, r, d)). rewrite nth_error_app2, Nat.sub_diag in H by lia. specialize (H eq_refl). cbn [snd] in H. rewrite app_length in H. cbn [length] in H. rewrite H. apply Nat.eqb_eq. lia. } subst d. cbn [length]. lia.
Qed.
