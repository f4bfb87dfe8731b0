(** Proofs for PipeProps.v: a tracer before a PrioritizedReplayBuffer. *)
From Coq Require Import List ZArith Lia Bool Reals Lra Permutation.
From Verif Require Import PyCommon CommonProofs SegTreeModel SegTreeSpec ReplayModel ReplaySpec ReplayProofs PrioModel PrioSpec PrioProofs PrioProofs2 PrioProofs3 PrioProofs4 TracerModel TracerSpec TracerProofs TracerProofs2 PipeModel PipeSpec PipeProofs PipeProofs2.
Import ListNotations.
Set Implicit Arguments.

Section Prog.
Variable Y : Type.
Lemma prio_run_app : forall (os1 os2 : list (pop Y)) w, prio_run w (os1 ++ os2) = prio_run (prio_run w os1) os2.
Proof. intros. unfold prio_run. apply fold_left_app. Qed.
Lemma no_alias_app : forall (os1 os2 : list (pop Y)) w, p_no_alias w os1 -> p_no_alias (prio_run w os1) os2 -> p_no_alias w (os1 ++ os2).
Proof.
  induction os1 as [|o os1 IH]; intros os2 w H1 H2; auto. cbn [app p_no_alias] in *. destruct H1 as [H0 H1]. split; auto.
Qed.
Lemma added_app : forall (os1 os2 : list (pop Y)) w log, p_added w (os1 ++ os2) log = p_added (prio_run w os1) os2 (p_added w os1 log).
Proof. induction os1 as [|o os1 IH]; intros os2 w log; auto. cbn [app p_added]. rewrite IH. reflexivity. Qed.
End Prog.

Section Generic.
Variables S A T : Type.
Variable tbool : T -> bool.
Variable tlen : T -> nat.
Variable tadd : T -> step S A -> R -> bool -> T * option exn.
Variable tpop : T -> T * outcome (single S A).
Variable good : T -> Prop.
Hypothesis good_add : forall t x r d, good t -> valid_step x -> tbool t = false -> exists t', tadd t x r d = (t', None) /\ good t'.
Hypothesis good_pop : forall t, good t -> tbool t = true -> exists y t', tpop t = (t', Ok y) /\ good t' /\ tlen t' < tlen t.
Hypothesis empty_false : forall t, tlen t = 0 -> tbool t = false.
Variable t0 : T.
Variables (cap : nat) (h : list (tbatch (single S A * R))) (alpha beta eps : R) (w0 : pworld (single S A)).
Hypothesis Hinit : prio_init h cap alpha beta eps = Ok w0.

Definition rowof (y : single S A) : single S A * R := (y, x_w y).

(** The buffer is in a state that a program on it can reach; [outs] were added. *)
Definition reached (w : pworld (single S A)) (outs : list (single S A)) : Prop :=
  exists os, p_no_alias w0 os /\ w = prio_run w0 os /\ p_added w0 os [] = map rowof outs.

Lemma reached_new : forall w outs y adv, reached w outs -> exists w', prio_new w y adv = (w', None) /\ reached w' (outs ++ [y]).
Proof.
  intros w outs y adv (os & Al & -> & Ad). set (w := prio_run w0 os) in *.
  set (o1 := PNew (mkTB [rowof y] [0%Z])). set (o2 := PAdd (length (pheap w)) [adv] : pop (single S A)).
  assert (N1 : p_no_alias w [o1]) by (cbn; auto).
  pose proof (@reach _ cap h alpha beta eps w0 os Hinit Al) as I. fold w in I.
  assert (F : ~ In (Some (length (pheap w))) (pstore (pb w))).
  { intros H. pose proof (pinv_store_valid (cap_pos _ _ _ _ _ Hinit) _ I H). lia. }
  assert (N2 : p_no_alias (prio_run w [o1]) [o2]) by (cbn; auto).
  pose proof (step_pinv (cap_pos _ _ _ _ _ Hinit) o1 I Logic.I) as I1. cbn [o1 prio_step fst ghost_step] in I1.
  assert (F1 : ~ In (Some (length (pheap w))) (pstore (pb (mkPW (pheap w ++ [mkTB [rowof y] [0%Z]]) (pb w))))) by (cbn; auto).
  destruct (add_pinv (cap_pos _ _ _ _ _ Hinit) (length (pheap w)) [adv] I1 F1) as [_ E2].
  specialize (E2 (mkTB [rowof y] [0%Z])). cbn [pheap] in E2. rewrite nth_error_app2, Nat.sub_diag in E2 by lia. specialize (E2 eq_refl eq_refl).
  unfold prio_new. fold (rowof y). destruct (prio_add (mkPW (pheap w ++ [mkTB [rowof y] [0%Z]]) (pb w)) (length (pheap w)) [adv]) as [w' e] eqn:E. cbn [snd] in E2. subst e.
  exists w'. split; auto. exists (os ++ [o1; o2]). split; [|split].
  - change [o1; o2] with ([o1] ++ [o2]). apply no_alias_app; auto. apply no_alias_app; auto.
  - rewrite prio_run_app. fold w. unfold prio_run. cbn [fold_left o1 o2 prio_step fst]. now rewrite E.
  - rewrite added_app. fold w. rewrite Ad. cbn [p_added o1 o2 prio_step fst pheap]. rewrite nth_error_app2, Nat.sub_diag by lia. cbn. now rewrite map_app.
Qed.

Lemma reached_keep : forall w outs o, reached w outs -> match o with PUpdate _ _ | PAlpha _ | PBeta _ | PEps _ => True | _ => False end -> reached (fst (prio_step w o)) outs.
Proof.
  intros w outs o (os & Al & -> & Ad) Ho. exists (os ++ [o]). split; [|split].
  - apply no_alias_app; auto. cbn. destruct o; try destruct Ho; auto.
  - now rewrite prio_run_app.
  - rewrite added_app, Ad. cbn [p_added]. destruct o; try destruct Ho; reflexivity.
Qed.

Notation ppipe := (ppipe S A T).
Notation tr := (traced tadd tpop t0).

Lemma pdrain_ok : forall td fuel (p : ppipe) ins outs, good (pp_tracer p) -> tlen (pp_tracer p) <= fuel ->
  tr (pp_tracer p) ins outs -> reached (pp_world p) outs ->
  exists p' ys, ppipe_drain tbool tpop td fuel p = (p', None) /\ good (pp_tracer p') /\ tbool (pp_tracer p') = false /\
    tr (pp_tracer p') ins (outs ++ ys) /\ reached (pp_world p') (outs ++ ys).
Proof.
  intros td. induction fuel as [|fuel IH]; intros p ins outs Gd Lf Tr I.
  - exists p, []. rewrite app_nil_r. cbn [ppipe_drain]. split; auto. split; auto. split; [apply empty_false; lia|auto].
  - cbn [ppipe_drain]. destruct (tbool (pp_tracer p)) eqn:B.
    2:{ exists p, []. rewrite app_nil_r. auto 10. }
    destruct (good_pop Gd B) as (y & t' & P & Gd' & L). rewrite P.
    destruct (reached_new y (td y) I) as (w' & E & I'). rewrite E.
    destruct (IH (mkPP t' w') ins (outs ++ [y])) as (p' & ys & D & G1 & B1 & T1 & I1); cbn [pp_tracer pp_world]; auto.
    + lia.
    + eapply traced_pop; eauto.
    + exists p', (y :: ys). rewrite <- app_assoc in T1, I1. cbn [app] in T1, I1. auto 10.
Qed.

Definition ppinv (p : ppipe) (ins : list (step S A * R * bool)) : Prop :=
  good (pp_tracer p) /\ tbool (pp_tracer p) = false /\ exists outs, tr (pp_tracer p) ins outs /\ reached (pp_world p) outs.

Lemma precord_ok : forall p ins td x r d, ppinv p ins -> valid_step x ->
  exists p', ppipe_record tbool tlen tadd tpop p td x r d = (p', None) /\ ppinv p' (ins ++ [(x, r, d)]).
Proof.
  intros p ins td x r d (Gd & B & outs & Tr & I) V. destruct (good_add r d Gd V B) as (t' & E & Gd'). unfold ppipe_record. rewrite E.
  destruct (@pdrain_ok td (tlen t') (mkPP t' (pp_world p)) (ins ++ [(x, r, d)]) outs) as (p' & ys & D & G1 & B1 & T1 & I1); cbn [pp_tracer pp_world]; auto.
  - eapply traced_add; eauto.
  - exists p'. split; auto. split; auto. split; auto. exists (outs ++ ys). auto.
Qed.

Lemma pstep_inv : forall p ins o, ppinv p ins -> (forall td x r d, o = PLRecord td x r d -> valid_step x) ->
  ppinv (fst (ppipe_step tbool tlen tadd tpop p o)) (ins ++ match o with PLRecord _ x r d => [(x, r, d)] | _ => [] end).
Proof.
  intros p ins o Hp V. destruct o as [td x r d|idx advs|a|b|e]; cbn [ppipe_step].
  - destruct (precord_ok td r d Hp (V td x r d eq_refl)) as (p' & E & H). rewrite E. exact H.
  - rewrite app_nil_r. destruct Hp as (Gd & B & outs & Tr & I). split; auto. split; auto. exists outs. split; auto. exact (@reached_keep _ _ (PUpdate idx advs) I Logic.I).
  - rewrite app_nil_r. destruct Hp as (Gd & B & outs & Tr & I). split; auto. split; auto. exists outs. split; auto. exact (@reached_keep _ _ (PAlpha a) I Logic.I).
  - rewrite app_nil_r. destruct Hp as (Gd & B & outs & Tr & I). split; auto. split; auto. exists outs. split; auto. exact (@reached_keep _ _ (PBeta b) I Logic.I).
  - rewrite app_nil_r. destruct Hp as (Gd & B & outs & Tr & I). split; auto. split; auto. exists outs. split; auto. exact (@reached_keep _ _ (PEps e) I Logic.I).
Qed.

Lemma prun_inv : forall os p ins, ppinv p ins -> steps_valid (p_recorded os) ->
  ppinv (ppipe_run tbool tlen tadd tpop p os) (ins ++ p_recorded os).
Proof.
  induction os as [|o os IH]; intros p ins Hp V.
  - cbn [ppipe_run p_recorded fold_left]. now rewrite app_nil_r.
  - assert (V' : forall td x r d, o = PLRecord td x r d -> valid_step x). { intros td x r d ->. eapply V. now left. }
    assert (V2 : steps_valid (p_recorded os)). { intros x r d H. eapply (V x r d). destruct o; cbn [p_recorded]; auto. now right. }
    pose proof (IH _ _ (@pstep_inv p ins o Hp V') V2) as H. rewrite <- app_assoc in H. unfold ppipe_run in *. cbn [fold_left]. destruct o; exact H.
Qed.

Lemma ppinv_init : good t0 -> tbool t0 = false -> ppinv (mkPP t0 w0) [].
Proof.
  intros Gd B. split; auto. split; auto. exists []. split; [exists []; split; [intros x r d []|reflexivity]|]. exists []. split; [exact Logic.I|]. auto.
Qed.

Lemma reached_empty : forall w us, reached w [] -> us <> [] -> prio_sample w us = Err ERuntime.
Proof. intros w us (os & Al & -> & Ad) Hu. exact (@whole_empty _ cap h alpha beta eps w0 os Hinit Al us Ad Hu). Qed.

(** What a reached buffer shows. *)
Lemma reached_view : forall w outs, reached w outs ->
  prio_len w = Nat.min cap (length outs) /\
  Permutation (prio_iter w) (map Some (map as_single (lastn cap (numbered (map rowof outs))))) /\
  forall us, outs <> [] -> us <> [] -> (forall u, In u us -> (0 <= u < 1)%R) ->
  exists ks out, prio_sample w us = Ok out /\
    Forall2 (fun u k => in_window cap (length outs) k /\ (prefix_sum (prio_values w) (k mod cap) <= u * rsum (prio_values w) < prefix_sum (prio_values w) (Datatypes.S (k mod cap)))%R) us ks /\
    Forall2 (fun k o => exists y f, nth_error outs k = Some y /\ (0 < f <= 1)%R /\ o = (y, (x_w y * f)%R, [Z.of_nat k])) ks out /\
    exists k y, In k ks /\ nth_error outs k = Some y /\ In (y, x_w y, [Z.of_nat k]) out.
Proof.
  intros w outs (os & Al & -> & Ad). destruct (@whole_window _ cap h alpha beta eps w0 os Hinit Al) as [H1 H2]. rewrite Ad in *. rewrite map_length in H1. split; auto. split; auto.
  intros us Ho Hu Hr. assert (Ne : p_added w0 os [] <> []) by (rewrite Ad; destruct outs; [congruence|discriminate]).
  destruct (@whole_sample _ cap h alpha beta eps w0 os Hinit Al us Ne Hu Hr) as (ks & m & out & E & F1 & M & F2). rewrite Ad in *. rewrite map_length in F1.
  exists ks, out. split; auto. split; auto.
  assert (Fw : Forall2 (fun (_ : R) k => in_window cap (length (p_added w0 os [])) k) us ks). { rewrite Ad, map_length. eapply Forall2_weaken; [|exact F1]. intros x y [Hw _]. exact Hw. }
  destruct (@whole_weights _ cap h alpha beta eps w0 os Hinit Al us ks m Fw M) as (W1 & (k1 & K1 & K2) & _).
  split.
  - assert (X : forall l, (forall k, In k l -> In k ks) -> forall o2, Forall2 (fun k o => exists y W, nth_error (map rowof outs) k = Some (y, W) /\ o = (y, (W * (Rpower (priority (prio_run w0 os) k / rsum (prio_values (prio_run w0 os)) * INR (prio_len (prio_run w0 os))) (- pbeta (pb (prio_run w0 os))) / m))%R, [Z.of_nat k])) l o2 ->
        Forall2 (fun k o => exists y f, nth_error outs k = Some y /\ (0 < f <= 1)%R /\ o = (y, (x_w y * f)%R, [Z.of_nat k])) l o2).
    { intros l Hl o2 F. induction F as [|k o l o2 (y & W & N & ->) F IH]; constructor; [|apply IH; intros; apply Hl; now right].
      rewrite nth_error_map in N. destruct (nth_error outs k) as [z|] eqn:Ez; [|discriminate]. injection N as <- <-. exists z. eexists. split; auto. split; [apply W1, Hl; now left|reflexivity]. }
    apply X; auto.
  - assert (X : exists o, In o out /\ exists y W, nth_error (map rowof outs) k1 = Some (y, W) /\ o = (y, (W * (Rpower (priority (prio_run w0 os) k1 / rsum (prio_values (prio_run w0 os)) * INR (prio_len (prio_run w0 os))) (- pbeta (pb (prio_run w0 os))) / m))%R, [Z.of_nat k1])).
    { clear - F2 K1. induction F2 as [|k o l o2 H F IH]; [destruct K1|]. destruct K1 as [->|K1]; [exists o; split; [now left|exact H]|]. destruct (IH K1) as (o' & Q1 & Q2). exists o'. split; [now right|exact Q2]. }
    destruct X as (o & Io & y & W & N & ->). rewrite nth_error_map in N. destruct (nth_error outs k1) as [z|] eqn:Ez; [|discriminate]. injection N as <- <-.
    exists k1, z. split; auto. split; auto. rewrite K2, Rmult_1_r in Io. exact Io.
Qed.
End Generic.

(** Sampling and then updating with the ids of the sample. *)
Section Feedback.
Variable Y : Type.
Variables (cap : nat) (h : list (tbatch (Y * R))) (alpha beta eps : R) (w0 : pworld Y) (os : list (pop Y)).
Hypothesis Hinit : prio_init h cap alpha beta eps = Ok w0.
Hypothesis Hal : p_no_alias w0 os.

Lemma window_mod_inj : forall n j k, in_window cap n j -> in_window cap n k -> j mod cap = k mod cap -> j = k.
Proof.
  pose proof (cap_pos _ _ _ _ _ Hinit) as Hc. intros n j k [J1 J2] [K1 K2] E. destruct (Nat.lt_trichotomy j k) as [L|[L|L]]; auto.
  - exfalso. apply (@mod_window cap j k Hc); auto. lia.
  - exfalso. apply (@mod_window cap k j Hc); auto. lia.
Qed.

Lemma feedback : let w := prio_run w0 os in let log := p_added w0 os [] in
  forall us out advs, (Z.of_nat (length log) <= 2147483648)%Z -> us <> [] -> (forall u, In u us -> (0 <= u < 1)%R) -> prio_sample w us = Ok out -> length advs = length us ->
  let idx := flat_map (fun o : Y * R * list Z => snd o) out in
  let w' := fst (prio_update w idx advs) in
  snd (prio_update w idx advs) = None /\ prio_iter w' = prio_iter w /\
  forall k, in_window cap (length log) k ->
    (forall j, nth_error idx j = Some (Z.of_nat k) -> (forall j', j < j' -> nth_error idx j' <> Some (Z.of_nat k)) -> priority w' k = Rpower (Rabs (nth j advs 0%R) + peps (pb w))%R (palpha (pb w))) /\
    (~ In (Z.of_nat k) idx -> priority w' k = priority w k).
Proof.
  intros w log us out advs Hsmall Hu Hr Es La idx w'.
  assert (Ne : log <> []). { intros Z. pose proof (@whole_empty _ cap h alpha beta eps w0 os Hinit Hal us Z Hu) as E0. fold w in E0. congruence. }
  destruct (@whole_sample _ cap h alpha beta eps w0 os Hinit Hal us Ne Hu Hr) as (ks & m & out' & E & F1 & M & F2). fold w in E. rewrite Es in E. injection E as <-.
  fold w log in F1, F2.
  assert (Ei : idx = map Z.of_nat ks).
  { unfold idx. clear - F2. induction F2 as [|k o l o2 (y & W & _ & ->) F IH]; cbn [flat_map map snd app]; auto. now rewrite IH. }
  assert (Lk : length ks = length us). { clear - F1. induction F1; cbn; auto. }
  assert (Wk : forall k, In k ks -> in_window cap (length log) k). { clear - F1. induction F1 as [|u k us ks [H _] F IH]; intros j Hj; [destruct Hj|]. destruct Hj as [<-|Hj]; auto. }
  assert (Acc : update_accepted cap (length log) idx advs = true).
  { unfold update_accepted. rewrite Ei, map_length, Lk, La, Nat.eqb_refl. destruct us; [congruence|]. cbn [length Nat.eqb negb andb].
    apply forallb_forall. intros z Hz. apply in_map_iff in Hz. destruct Hz as (k & <- & Hk). destruct (Wk k Hk). apply Z.ltb_lt. pose proof (cap_pos _ _ _ _ _ Hinit).
    rewrite <- Nat2Z.inj_mod. apply Nat2Z.inj_lt. pose proof (Nat.mod_le k cap ltac:(lia)). lia. }
  destruct (@whole_update_named _ cap h alpha beta eps w0 os Hinit Hal idx advs Acc) as (U1 & U2 & _ & U4).
  - intros i Hi. rewrite Ei in Hi. apply in_map_iff in Hi. destruct Hi as (k & <- & Hk). destruct (Wk k Hk). lia.
  - intros i j Hi Hj Em. rewrite Ei in Hi, Hj. apply in_map_iff in Hi. apply in_map_iff in Hj. destruct Hi as (k & <- & Hk). destruct Hj as (l & <- & Hl). f_equal.
    apply (@window_mod_inj (length log)); auto. rewrite <- !Nat2Z.inj_mod in Em. now apply Nat2Z.inj.
  - split; [exact U1|]. split; [exact U2|]. intros k Hk. fold w log in U4. fold w' in U4. rewrite (U4 k Hk).
    assert (Fnd : forall (idx : list Z) (advs : list R), length idx = length advs ->
       (forall j, nth_error idx j = Some (Z.of_nat k) -> (forall j', j < j' -> nth_error idx j' <> Some (Z.of_nat k)) ->
          find (fun ia : Z * R => Z.eqb (fst ia) (Z.of_nat k)) (rev (combine idx advs)) = Some (Z.of_nat k, nth j advs 0%R)) /\
       (~ In (Z.of_nat k) idx -> find (fun ia : Z * R => Z.eqb (fst ia) (Z.of_nat k)) (rev (combine idx advs)) = None)).
    { clear. intros idx advs. revert advs. induction idx as [|z idx IH] using rev_ind; intros advs L.
      - split; [intros [|j] H; discriminate|reflexivity].
      - destruct advs as [|a0 advs0]; [rewrite app_length in L; cbn in L; lia|]. destruct (@exists_last _ (a0 :: advs0)) as (advs & a & Eq); [discriminate|]. rewrite Eq in *. clear Eq.
        rewrite !app_length in L. cbn [length] in L. assert (L' : length idx = length advs) by lia. rewrite (ReplayProofs.combine_app idx [z] advs [a] L'). cbn [combine]. rewrite rev_app_distr. cbn [rev app find fst].
        destruct (IH advs L') as [I1 I2]. destruct (Z.eqb_spec z (Z.of_nat k)) as [->|Nz].
        + split; [|intros H; exfalso; apply H, in_or_app; right; now left]. intros j Hj Hlast.
          assert (Ej : j = length idx). { destruct (Nat.lt_trichotomy j (length idx)) as [Q|[Q|Q]]; auto.
            - exfalso. apply (Hlast (length idx) Q). rewrite nth_error_app2, Nat.sub_diag by lia. reflexivity.
            - exfalso. assert (nth_error (idx ++ [Z.of_nat k]) j = None) by (apply nth_error_None; rewrite app_length; cbn; lia). congruence. }
          subst j. do 2 f_equal. rewrite app_nth2, L', Nat.sub_diag by lia. reflexivity.
        + split.
          * intros j Hj Hlast. assert (Q : j < length idx). { destruct (Nat.lt_ge_cases j (length idx)) as [Q|Q]; auto. rewrite nth_error_app2 in Hj by auto. destruct (j - length idx) as [|[|]]; cbn in Hj; congruence. }
            rewrite nth_error_app1 in Hj by auto. rewrite app_nth1 by lia. apply I1; auto. intros j' Hj' Ec. apply (Hlast j' Hj'). rewrite nth_error_app1; auto. apply nth_error_Some. congruence.
          * intros Hn. apply I2. intros H. apply Hn, in_or_app. now left. }
    destruct (Fnd idx advs) as [Q1 Q2]. { rewrite Ei, map_length. congruence. }
    split.
    + intros j Hj Hl. now rewrite (Q1 j Hj Hl).
    + intros Hn. now rewrite (Q2 Hn).
Qed.
End Feedback.
