(** Monte-Carlo tracing, and its relation to n-step tracing. *)
From Coq Require Import List ZArith Lia Bool Reals Lra.
From Verif Require Import PyCommon CommonProofs SegTreeSpec TracerModel TracerSpec TracerProofs.
Import ListNotations.
Set Implicit Arguments.

Lemma disc_sum_head : forall gamma rs t m, disc_sum gamma rs t (S m) = (nth t rs 0 + gamma * disc_sum gamma rs (S t) m)%R.
Proof.
  induction m as [|m IH].
  - cbn [disc_sum pow]. rewrite Nat.add_0_r. ring.
  - change (disc_sum gamma rs t (S (S m))) with (disc_sum gamma rs t (S m) + gamma ^ (S m) * nth (t + S m) rs 0)%R.
    rewrite IH. cbn [disc_sum pow]. replace (t + S m) with (S t + m) by lia. ring.
Qed.

Lemma disc_sum_split : forall gamma rs t a b, disc_sum gamma rs t (a + b) = (disc_sum gamma rs t a + gamma ^ a * disc_sum gamma rs (t + a) b)%R.
Proof.
  induction b as [|b IH]; [rewrite Nat.add_0_r; cbn; ring|]. rewrite Nat.add_succ_r. cbn [disc_sum]. rewrite IH.
  rewrite pow_add. rewrite Nat.add_assoc. ring.
Qed.

Lemma disc_sum_past : forall gamma rs t b, length rs <= t -> disc_sum gamma rs t b = 0%R.
Proof. induction b as [|b IH]; intros H; cbn [disc_sum]; auto. rewrite IH by auto. rewrite nth_overflow by lia. ring. Qed.

Lemma firstn_snoc : forall A (l : list A) q v, nth_error l q = Some v -> firstn (S q) l = firstn q l ++ [v].
Proof.
  induction l as [|x l IH]; intros [|q] v H; try discriminate; cbn in *; [now injection H as ->|]. f_equal. now apply IH.
Qed.

Section M.
Variables S A : Type.
Notation step := (step S A).
Notation episode := (episode S A).
Notation single := (single S A).
Variable gamma : R.
Hypothesis Hg : (0 <= gamma <= 1)%R.

(** The first [q] steps of a finished episode remain. *)
Definition mview (cur : episode) (q : nat) : mstate S A :=
  mkM (firstn q cur) true (disc_sum gamma (rewards cur) q (length cur - q)).

Lemma mview_bool : forall cur q, q <= length cur -> mc_bool (mview cur q) = Nat.ltb 0 q.
Proof.
  intros cur q H. unfold mc_bool, mc_len, mview. cbn [m_list m_done]. rewrite firstn_length, Nat.min_l by auto. destruct q; reflexivity.
Qed.

Lemma mview_pop : forall cur q, valid_episode cur -> q < length cur ->
  exists y, mc_pop gamma (mview cur (Datatypes.S q)) = (mview cur q, Ok y) /\ mc_spec gamma cur q y.
Proof.
  intros cur q Hval Hq. unfold mc_pop. rewrite mview_bool by lia. cbn [Nat.ltb Nat.leb negb].
  destruct (nth_error cur q) as [[x r]|] eqn:Eq. 2:{ apply nth_error_None in Eq. lia. }
  cbn [mview m_list m_done m_g]. rewrite (firstn_snoc _ _ Eq), rev_app_distr. cbn [rev app].
  destruct (Hval x r (nth_error_In _ _ Eq)) as [V1 [V2 V3]]. rewrite V3, from_single_ok by auto.
  assert (Er : nth q (rewards cur) 0%R = r). { unfold rewards. apply nth_error_nth. now rewrite (map_nth_error _ _ _ Eq). }
  assert (Eg : (r + gamma * disc_sum gamma (rewards cur) (Datatypes.S q) (length cur - Datatypes.S q))%R = disc_sum gamma (rewards cur) q (length cur - q)).
  { replace (length cur - q) with (Datatypes.S (length cur - Datatypes.S q)) by lia. now rewrite disc_sum_head, Er. }
  rewrite Eg, rev_involutive. eexists. split; [reflexivity|]. exists x, r. cbn. repeat split; auto. ring.
Qed.

Definition mdue' (cur : episode) (ins : list (step * R * bool)) : list (episode * nat) :=
  flat_map (fun ep => map (fun t => (ep, t)) (rev (seq 0 (length ep)))) (fst (cut cur ins)).

Lemma mdue'_done : forall cur x r ins, mdue' cur ((x, r, true) :: ins) =
  map (fun t => (cur ++ [(x, r)], t)) (rev (seq 0 (length (cur ++ [(x, r)])))) ++ mdue' [] ins.
Proof. intros. unfold mdue'. cbn [cut]. destruct (cut [] ins) as [eps rest]. reflexivity. Qed.

Notation mrun := (trun (@mc_add S A) (mc_pop gamma)).
Definition mdue_ok (d : episode * nat) (y : single) : Prop := mc_spec gamma (fst d) (snd d) y.

(** Two kinds of reachable states. *)
Definition mstate_of (fin : bool) (cur : episode) (q : nat) (g : R) : mstate S A :=
  if fin then mview cur q else mkM cur false g.
Definition mdue_from (fin : bool) (cur : episode) (q : nat) (ins : list (step * R * bool)) : list (episode * nat) :=
  if fin then map (fun t => (cur, t)) (rev (seq 0 q)) ++ mdue' [] ins else mdue' cur ins.

Lemma mview_fresh : forall cur, mview cur (length cur) = mkM cur true 0%R.
Proof. intros cur. unfold mview. rewrite firstn_all, Nat.sub_diag. reflexivity. Qed.

Lemma mc_add_unfinished : forall cur g x r d, 
  mc_add (mkM cur false g) x r d = (mstate_of d (cur ++ [(x, r)]) (length (cur ++ [(x, r)])) g, None).
Proof.
  intros. unfold mc_add. cbn [m_done andb m_list m_g]. destruct d; cbn [mstate_of]; [now rewrite mview_fresh|reflexivity].
Qed.

Lemma mrun_due : forall os fin cur q g, valid_episode cur -> q <= length cur -> prog_valid os ->
  let '(t, (ins, (outs, errs))) := mrun (mstate_of fin cur q g) os in
  exists pre post, mdue_from fin cur q ins = pre ++ post /\ Forall2 mdue_ok pre outs /\ (mc_bool t = false -> post = []).
Proof.
  induction os as [|o os IH]; intros fin cur q g Hval Hq Hos.
  - cbn [trun]. exists [], (mdue_from fin cur q []). split; [auto|]. split; [constructor|]. intros Hb.
    destruct fin; cbn [mstate_of mdue_from] in *; [|reflexivity]. rewrite mview_bool in Hb by auto. destruct q; [reflexivity|discriminate].
  - assert (Hos' : prog_valid os) by (intros x r d H; apply (Hos x r d); now right).
    destruct o as [x r d|]; cbn [trun].
    + assert (Hx : valid_step x) by (apply (Hos x r d); now left).
      destruct fin; cbn [mstate_of mdue_from].
      * unfold mc_add at 1. unfold mc_len; cbn [mview m_done m_list m_g andb]. rewrite firstn_length, Nat.min_l by auto.
        destruct q as [|q]; cbn [Nat.eqb negb].
        -- cbn [firstn app].
           assert (Hv1 : valid_episode [(x, r)]) by (intros x0 r0 [E|[]]; injection E as <- <-; auto).
           specialize (IH d [(x, r)] 1 (disc_sum gamma (rewards cur) 0 (length cur - 0)) Hv1 ltac:(cbn; lia) Hos').
           assert (Es : mkM [(x, r)] d (if d then 0%R else disc_sum gamma (rewards cur) 0 (length cur - 0))
                        = mstate_of d [(x, r)] 1 (disc_sum gamma (rewards cur) 0 (length cur - 0))).
           { destruct d; cbn [mstate_of]; [|reflexivity]. now rewrite <- (mview_fresh [(x, r)]). }
           rewrite Es. destruct (mrun (mstate_of d [(x, r)] 1 _) os) as [t2 [ins [outs errs]]].
           destruct IH as [pre [post [I1 [I2 I3]]]]. exists pre, post. split; [|auto]. rewrite <- I1. cbn [seq rev map app].
           destruct d; cbn [mdue_from]; [rewrite mdue'_done|]; reflexivity.
        -- specialize (IH true cur (Datatypes.S q) g Hval Hq Hos'). cbn [mstate_of] in IH.
           change (mkM (firstn (Datatypes.S q) cur) true (disc_sum gamma (rewards cur) (Datatypes.S q) (length cur - Datatypes.S q)))
             with (mview cur (Datatypes.S q)).
           destruct (mrun (mview cur (Datatypes.S q)) os) as [t2 [ins [outs errs]]]. exact IH.
      * rewrite mc_add_unfinished.
        assert (Hv1 : valid_episode (cur ++ [(x, r)])).
        { intros x0 r0 H0. apply in_app_or in H0. destruct H0 as [H0|[E|[]]]; [eauto|injection E as <- <-; auto]. }
        specialize (IH d (cur ++ [(x, r)]) (length (cur ++ [(x, r)])) g Hv1 ltac:(lia) Hos').
        destruct (mrun (mstate_of d (cur ++ [(x, r)]) _ g) os) as [t2 [ins [outs errs]]].
        destruct IH as [pre [post [I1 [I2 I3]]]]. exists pre, post. split; [|auto]. rewrite <- I1.
        destruct d; cbn [mdue_from]; [rewrite mdue'_done|]; reflexivity.
    + destruct fin; cbn [mstate_of mdue_from].
      * destruct q as [|q].
        -- unfold mc_pop at 1. rewrite mview_bool by auto. cbn [Nat.ltb Nat.leb negb].
           specialize (IH true cur 0 g Hval Hq Hos'). cbn [mstate_of] in IH.
           destruct (mrun (mview cur 0) os) as [t2 [ins [outs errs]]]. exact IH.
        -- destruct (@mview_pop cur q Hval ltac:(lia)) as [y [P1 P2]]. rewrite P1.
           specialize (IH true cur q g Hval ltac:(lia) Hos'). cbn [mstate_of] in IH.
           destruct (mrun (mview cur q) os) as [t2 [ins [outs errs]]]. destruct IH as [pre [post [I1 [I2 I3]]]].
           exists ((cur, q) :: pre), post. rewrite seq_S, rev_app_distr. cbn [rev app map]. cbn [mdue_from] in I1. rewrite I1.
           split; [reflexivity|]. split; [now constructor|auto].
      * unfold mc_pop at 1. unfold mc_bool. cbn [m_done]. rewrite andb_false_r. cbn [negb].
        specialize (IH false cur q g Hval Hq Hos'). cbn [mstate_of] in IH.
        destruct (mrun (mkM cur false g) os) as [t2 [ins [outs errs]]]. exact IH.
Qed.

Lemma mrun_fresh : forall os, prog_valid os ->
  let '(t, (ins, (outs, errs))) := mrun (mc_reset S A) os in
  exists pre post, mc_due ins = pre ++ post /\ Forall2 mdue_ok pre outs /\ (mc_bool t = false -> post = []).
Proof.
  intros os Hos. pose proof (@mrun_due os false [] 0 0%R) as H. change (mstate_of false [] 0 0%R) with (mc_reset S A) in H.
  cbn [mdue_from] in H. apply H; auto. intros x r [].
Qed.

Lemma mc_flush_episode : forall cur q, valid_episode cur -> q <= length cur -> forall fuel, q <= fuel ->
  exists ys, flush_loop (@mc_bool S A) (mc_pop gamma) fuel (mview cur q) = (mview cur 0, Ok ys) /\
    Forall2 mdue_ok (map (fun t => (cur, t)) (rev (seq 0 q))) ys.
Proof.
  intros cur q Hval. induction q as [|q IH]; intros Hq fuel Hf.
  - exists []. split; [|constructor]. destruct fuel; reflexivity.
  - destruct fuel as [|fuel]; [lia|]. cbn [flush_loop]. rewrite mview_bool by auto. cbn [Nat.ltb Nat.leb].
    destruct (@mview_pop cur q Hval ltac:(lia)) as [y [P1 P2]]. rewrite P1.
    destruct (IH ltac:(lia) fuel ltac:(lia)) as [ys [Y1 Y2]]. rewrite Y1. exists (y :: ys). split; [reflexivity|].
    rewrite seq_S, rev_app_distr. cbn [rev app map Nat.add]. constructor; [exact P2|exact Y2].
Qed.

End M.

Section Both.
Variables S A : Type.
Notation episode := (episode S A).

Lemma nstep_add_all : forall (ep cur : episode), ep <> [] ->
  add_all (@nstep_add S A) (nview cur false 0) (add_calls ep) = (nview (cur ++ ep) true 0, []).
Proof.
  induction ep as [|[x r] ep IH]; intros cur H; [congruence|]. destruct ep as [|y ep].
  - cbn [add_calls add_all]. unfold nstep_add. cbn [nview n_done andb n_s n_r skipn]. unfold nview. cbn [skipn]. now rewrite !map_app.
  - change (add_calls ((x, r) :: y :: ep)) with ((x, r, false) :: add_calls (y :: ep)). cbn [add_all].
    unfold nstep_add at 1. cbn [nview n_done andb n_s n_r skipn].
    assert (E : mkN (map fst cur ++ [x]) (map snd cur ++ [r]) false = nview (cur ++ [(x, r)]) false 0).
    { unfold nview. cbn [skipn]. now rewrite !map_app. }
    rewrite E, IH by discriminate. now rewrite <- app_assoc.
Qed.

Lemma mc_add_all : forall gamma (ep cur : episode) g, ep <> [] ->
  add_all (@mc_add S A) (mkM cur false g) (add_calls ep) = (mview gamma (cur ++ ep) (length (cur ++ ep)), []).
Proof.
  intros gamma. induction ep as [|[x r] ep IH]; intros cur g H; [congruence|]. destruct ep as [|y ep].
  - cbn [add_calls add_all]. rewrite (mc_add_unfinished gamma). reflexivity.
  - change (add_calls ((x, r) :: y :: ep)) with ((x, r, false) :: add_calls (y :: ep)). cbn [add_all].
    rewrite (mc_add_unfinished gamma). cbn [mstate_of]. rewrite IH by discriminate. now rewrite <- app_assoc.
Qed.

(** flush of a whole episode. *)
Lemma nstep_flush_episode : forall n gamma extra (ep : episode), 1 <= n -> (0 <= gamma <= 1)%R -> ep <> [] -> valid_episode ep ->
  let t := fst (add_all (@nstep_add S A) (nstep_reset S A) (add_calls ep)) in
  exists ys, flush (nstep_bool n) (@nstep_len S A) (nstep_pop n gamma extra) t = (mkN [] [] true, Ok ys) /\
    Forall2 (fun i y => nstep_spec n gamma extra ep true i y) (seq 0 (length ep)) ys.
Proof.
  intros n gamma extra ep Hn Hg Hne Hval t. unfold t. change (nstep_reset S A) with (@nview S A [] false 0).
  rewrite nstep_add_all by auto. cbn [fst app]. unfold flush. rewrite nview_bool by lia.
  assert (Hl : 0 < length ep) by (destruct ep; [congruence|cbn; lia]).
  destruct (Nat.ltb_spec 0 (length ep)); [|lia]. cbn [andb orb negb].
  destruct (@flush_episode S A n gamma extra Hn Hg ep 0 Hval Hl (nstep_len (nview ep true 0))) as [ys [Y1 Y2]].
  { rewrite nview_len. lia. }
  exists ys. rewrite Y1. split.
  - f_equal. unfold nview. now rewrite skipn_all.
  - rewrite Nat.sub_0_r in Y2. clear - Y2. remember (seq 0 (length ep)) as l eqn:El. clear El. revert ys Y2.
    induction l as [|i l IH]; intros ys Y2; inversion Y2; subst; constructor; auto.
Qed.

Lemma mc_flush_whole : forall gamma (ep : episode), (0 <= gamma <= 1)%R -> ep <> [] -> valid_episode ep ->
  let t := fst (add_all (@mc_add S A) (mc_reset S A) (add_calls ep)) in
  exists ys, snd (flush (@mc_bool S A) (@mc_len S A) (mc_pop gamma) t) = Ok ys /\
    m_list (fst (flush (@mc_bool S A) (@mc_len S A) (mc_pop gamma) t)) = [] /\
    Forall2 (fun i y => mc_spec gamma ep i y) (rev (seq 0 (length ep))) ys.
Proof.
  intros gamma ep Hg Hne Hval t. unfold t. unfold mc_reset. rewrite (mc_add_all gamma) by auto. cbn [fst app]. unfold flush.
  rewrite mview_bool by lia.
  assert (Hl : 0 < length ep) by (destruct ep; [congruence|cbn; lia]).
  destruct (Nat.ltb_spec 0 (length ep)); [|lia]. cbn [negb].
  destruct (@mc_flush_episode S A gamma Hg ep (length ep) Hval (le_n _) (mc_len (mview gamma ep (length ep)))) as [ys [Y1 Y2]].
  { unfold mc_len, mview. cbn [m_list]. rewrite firstn_all. auto. }
  exists ys. rewrite Y1. split; [reflexivity|]. split; [reflexivity|].
  clear - Y2. remember (rev (seq 0 (length ep))) as l eqn:El. clear El. revert ys Y2.
  induction l as [|i l IH]; intros ys Y2; inversion Y2; subst; constructor; auto.
Qed.

(** Consistency. *)
Lemma nstep_mc_consistent : forall n gamma extra fin (ep : episode) t x y z,
  nstep_spec n gamma extra ep fin t x -> mc_spec gamma ep t y ->
  (t + n < length ep -> mc_spec gamma ep (t + n) z -> x_s_next x = x_s z /\ x_a_next x = x_a z /\ (x_rn x + x_in x * x_rn z)%R = x_rn y) /\
  (length ep <= t + n -> x_rn x = x_rn y /\ x_in x = 0%R).
Proof.
  intros n gamma extra fin ep t x y z (sx & rx & X1 & _ & _ & _ & _ & XR & XB & XE & _) (sy & ry & Y1 & _ & _ & _ & _ & YR & _).
  assert (Ht : t < length ep) by (apply nth_error_Some; congruence).
  assert (Lr : length (rewards ep) = length ep) by apply map_length.
  split.
  - intros Hlt (sz & rz & Z1 & ZS & ZA & _ & _ & ZR & _). destruct (XB Hlt) as [XI (s' & r' & N1 & NS & NA & _)].
    rewrite Z1 in N1. injection N1 as <- <-. split; [congruence|]. split; [congruence|].
    rewrite XR, XI, ZR, YR. rewrite <- disc_sum_split. f_equal. lia.
  - intros Hge. split; [|now apply XE]. rewrite XR, YR. replace n with ((length ep - t) + (n - (length ep - t))) by lia.
    rewrite disc_sum_split. rewrite (@disc_sum_past gamma (rewards ep) (t + (length ep - t))); [ring|]. lia.
Qed.

(** C18: what pop does in general. *)
Lemma nstep_pop_err : forall n gamma extra (t : nstate S A) e, 1 <= n -> length (n_r t) = length (n_s t) ->
  snd (nstep_pop n gamma extra t) = Err e ->
  (e = EInsufficientCache /\ nstep_bool n t = false /\ fst (nstep_pop n gamma extra t) = t) \/
  (e = EType /\ nstep_bool n t = true /\ exists x r, n_s t = x :: n_s (fst (nstep_pop n gamma extra t)) /\
     n_r t = r :: n_r (fst (nstep_pop n gamma extra t))).
Proof.
  intros n gamma extra t e Hn Hl H. unfold nstep_pop in *. destruct (nstep_bool n t) eqn:Eb; cbn [negb] in *.
  2:{ left. cbn in H. injection H as <-. auto. }
  right. destruct (n_s t) as [|x ds] eqn:Es.
  { unfold nstep_bool, nstep_len in Eb. rewrite Es in Eb. discriminate. }
  destruct (n_r t) as [|r dr] eqn:Er; [discriminate|].
  assert (Hfs : forall a b c d e' f g h i j k l, @from_single S A a b c d e' f g h i j k l = Err e -> e = EType).
  { clear. intros a b c d e' f g h i j k l H. unfold from_single in H.
    repeat (match type of H with context [if ?c then _ else _] => destruct c end; try congruence). }
  destruct (Nat.leb_spec n (length ds)).
  - assert (Em : match n with O => nth_error ds (length ds - 1) | Datatypes.S m => nth_error ds m end = nth_error ds (n - 1)).
    { clear - Hn. destruct n; [lia|]. cbn. now rewrite Nat.sub_0_r. }
    rewrite Em in *. destruct (nth_error ds (n - 1)) as [y|] eqn:En. 2:{ apply nth_error_None in En. lia. }
    cbn [snd fst] in *. split; [eapply Hfs; exact H|]. split; auto. exists x, r. auto.
  - cbn [snd fst] in *. split; [eapply Hfs; exact H|]. split; auto. exists x, r. auto.
Qed.

Lemma mc_pop_err : forall gamma (t : mstate S A) e, snd (mc_pop gamma t) = Err e ->
  (e = EInsufficientCache /\ mc_bool t = false /\ fst (mc_pop gamma t) = t) \/
  (e = EType /\ mc_bool t = true /\ exists x, m_list t = m_list (fst (mc_pop gamma t)) ++ [x]).
Proof.
  intros gamma t e H. unfold mc_pop in *. destruct (mc_bool t) eqn:Eb; cbn [negb] in *.
  2:{ left. cbn in H. injection H as <-. auto. }
  right. destruct (rev (m_list t)) as [|[x r] rest] eqn:Er.
  { apply (f_equal (@rev _)) in Er. rewrite rev_involutive in Er. unfold mc_bool, mc_len in Eb. rewrite Er in Eb. discriminate. }
  cbn [fst snd m_list] in *. split.
  - unfold from_single in H. repeat (match type of H with context [if ?c then _ else _] => destruct c end; try congruence).
  - split; auto. exists (x, r). apply (f_equal (@rev _)) in Er. rewrite rev_involutive in Er. rewrite Er. reflexivity.
Qed.

(** A rejected add changes nothing. *)
Lemma nstep_add_rejected : forall (t : nstate S A) x r d, 
  snd (nstep_add t x r d) <> None <-> (n_done t = true /\ n_s t <> []).
Proof.
  intros t x r d. unfold nstep_add, nstep_len. destruct (n_done t), (n_s t); cbn; intuition congruence.
Qed.

End Both.

Section More.
Variables S A : Type.

Lemma nstep_add_rejected_eq : forall (t : nstate S A) x r d, n_done t = true -> n_s t <> [] -> nstep_add t x r d = (t, Some EEpisodeDone).
Proof. intros t x r d H1 H2. unfold nstep_add, nstep_len. rewrite H1. destruct (n_s t); [congruence|reflexivity]. Qed.

Lemma mc_add_rejected : forall (t : mstate S A) x r d,
  (snd (mc_add t x r d) <> None <-> (m_done t = true /\ m_list t <> [])) /\
  (m_done t = true -> m_list t <> [] -> mc_add t x r d = (t, Some EEpisodeDone)).
Proof. intros t x r d. unfold mc_add, mc_len. destruct (m_done t), (m_list t); cbn; intuition congruence. Qed.

Lemma Forall2_nth : forall X Z (P : X -> Z -> Prop) l m k z, Forall2 P l m -> nth_error m k = Some z -> exists x, nth_error l k = Some x /\ P x z.
Proof.
  intros X Z P l m k z F. revert k. induction F as [|x y l m H F IH]; intros [|k] E; try discriminate; cbn in *.
  - injection E as ->. eauto.
  - auto.
Qed.

Lemma Forall2_rev : forall X Z (P : X -> Z -> Prop) l m, Forall2 P l m -> Forall2 P (rev l) (rev m).
Proof. intros X Z P l m F. induction F; cbn; auto. apply Forall2_app; auto. Qed.

Lemma flushed_consistent : forall n gamma extra (ep : episode S A) xs ys,
  1 <= n -> (0 <= gamma <= 1)%R -> ep <> [] -> valid_episode ep ->
  snd (flush (nstep_bool n) (@nstep_len S A) (nstep_pop n gamma extra) (fst (add_all (@nstep_add S A) (nstep_reset S A) (add_calls ep)))) = Ok xs ->
  snd (flush (@mc_bool S A) (@mc_len S A) (mc_pop gamma) (fst (add_all (@mc_add S A) (mc_reset S A) (add_calls ep)))) = Ok ys ->
  length xs = length ep /\ length ys = length ep /\
  forall t x y, nth_error xs t = Some x -> nth_error (rev ys) t = Some y ->
    match nth_error (rev ys) (t + n) with
    | Some z => x_s_next x = x_s z /\ x_a_next x = x_a z /\ (x_rn x + x_in x * x_rn z)%R = x_rn y
    | None => x_rn x = x_rn y /\ x_in x = 0%R
    end.
Proof.
  intros n gamma extra ep xs ys Hn Hg Hne Hv HX HY.
  destruct (nstep_flush_episode extra Hn Hg Hne Hv) as [xs' [X1 X2]]. rewrite X1 in HX. injection HX as ->.
  destruct (mc_flush_whole Hg Hne Hv) as [ys' [Y1 [_ Y2]]]. rewrite Y1 in HY. injection HY as ->.
  assert (FL : forall X Z (P : X -> Z -> Prop) l m, Forall2 P l m -> length l = length m) by (intros X Z P l m F; induction F; cbn; auto).
  pose proof (FL _ _ _ _ _ X2) as LX. pose proof (FL _ _ _ _ _ Y2) as LY. rewrite seq_length in LX. rewrite rev_length, seq_length in LY.
  split; [auto|]. split; [auto|]. apply Forall2_rev in Y2. rewrite rev_involutive in Y2.
  assert (Hseq : forall i v, nth_error (seq 0 (length ep)) i = Some v -> v = i).
  { intros i v E. assert (Hi : i < length ep) by (rewrite <- (seq_length (length ep) 0); apply nth_error_Some; congruence).
    rewrite (nth_error_nth' _ 0) in E by (now rewrite seq_length). rewrite seq_nth in E by auto. cbn in E. congruence. }
  intros t x y Hx Hy. destruct (Forall2_nth _ X2 Hx) as [i [I1 I2]]. apply Hseq in I1. subst i.
  destruct (Forall2_nth _ Y2 Hy) as [i [I1 I3]]. apply Hseq in I1. subst i.
  destruct (nth_error (rev ys) (t + n)) as [z|] eqn:Ez.
  - destruct (Forall2_nth _ Y2 Ez) as [i [I1 I4]]. apply Hseq in I1. subst i.
    destruct (@nstep_mc_consistent S A n gamma extra true ep t x y z I2 I3) as [C1 _]. apply C1; auto.
    rewrite LY, <- rev_length. apply nth_error_Some. congruence.
  - destruct (@nstep_mc_consistent S A n gamma extra true ep t x y y I2 I3) as [_ C2]. apply C2.
    apply nth_error_None in Ez. rewrite rev_length in Ez. lia.
Qed.

Lemma extra_info_padded : forall n gamma (ep : episode S A) t y, nstep_spec n gamma true ep true t y ->
  exists es, x_extra y = Some es /\ length es = n + 1 /\
    forall k, k <= n -> exists x r, nth_error ep (Nat.min (t + k) (length ep - 1)) = Some (x, r) /\
      nth_error es k = Some (mkEntry x r (Nat.leb (length ep - 1) (t + k))).
Proof.
  intros n gamma ep t y (x & r & Y1 & _ & _ & _ & _ & _ & _ & _ & es & E1 & E2 & E3). exists es. split; [auto|]. split; [auto|].
  intros k Hk. assert (Ht : t < length ep) by (apply nth_error_Some; congruence). specialize (E3 k Hk). unfold extra_entry in E3.
  destruct (nth_error ep (Nat.min (t + k) (length ep - 1))) as [[u q]|] eqn:E.
  - exists u, q. auto.
  - apply nth_error_None in E. lia.
Qed.

End More.
