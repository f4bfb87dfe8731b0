(** Composite distributions: preprocessing, log-probabilities, modes; the spaces behind the structures. *)
From Coq Require Import List ZArith Lia Bool Reals Lra.
From Verif Require Import PyCommon CommonProofs UtilsModel UtilsSpec UtilsProofs2 UtilsProofs3 TDSpec TDProofs DistModel DistSpec DistProofs DistProofs2 PolicySpec PolicyProofs3 PolicyProofs4 MeanSpec MeanProofs CompModel CompSpec CompProofs.
Import ListNotations.
Set Implicit Arguments.
Local Open Scope R_scope.

Lemma onehot_z_nat : forall n a, onehot_z n (Z.of_nat a) = one_hot n a.
Proof. intros n a. unfold onehot_z, one_hot. apply map_ext. intros k. destruct (Z.eqb_spec (Z.of_nat k) (Z.of_nat a)), (Nat.eqb_spec k a); auto; lia. Qed.
Lemma boltzmann_softmax : forall n z a, length z = n -> (a < n)%nat -> boltzmann n z a = nth a (softmax z) 0.
Proof.
  intros n z a Hz Ha. rewrite nth_softmax by lia. unfold boltzmann. f_equal. unfold sumexp. rewrite <- Hz. clear. induction z as [|x l IH]; [reflexivity|]. cbn [length seq map rsum total fold_right]. unfold total in *. cbn [map fold_right nth]. rewrite <- seq_shift, map_map. cbn [nth]. now rewrite IH.
Qed.
Lemma boltzmann_pos : forall n z a, length z = n -> (a < n)%nat -> 0 < boltzmann n z a.
Proof. intros n z a Hz Ha. rewrite boltzmann_softmax by auto. assert (NE : z <> []) by (intros ->; cbn in Hz; lia). destruct (softmax_dist NE) as [SP _]. apply SP, nth_In. rewrite softmax_length. lia. Qed.

Definition pres (d : pdist) (p : pv) (x : clean) (r : R) (m : nat) : Prop := 0 < r /\ exists X, c_pre d x = Ok X /\ c_log_proba d p X = Ok (ln r) /\
  forall gs gr, length gs = m -> quiet gs -> c_post d X (gs ++ gr) = Ok (x, gr).
Definition pres_list (l : list (nat * pdist)) (ps : list pv) (cs : list clean) (r : R) (m : nat) : Prop := 0 < r /\ exists Xs, length Xs = length l /\
  (forall kd c, Forall2 (fun kd' x => cpart kd (fst kd') c = Ok x) l cs -> pre_list kd c l = Ok (combine (map fst l) Xs)) /\
  (forall kd P Y, Forall2 (fun kd' p => part kd (fst kd') P = Ok p) l ps -> Forall2 (fun kd' X => part kd (fst kd') Y = Ok X) l Xs -> logp_list kd P Y l = Ok (ln r)) /\
  (forall kd Y gs gr, length gs = m -> quiet gs -> Forall2 (fun kd' X => part kd (fst kd') Y = Ok X) l Xs -> post_list kd Y l (gs ++ gr) = Ok (combine (map fst l) cs, gr)).

Lemma rel_pres : (forall d p x r m, rel d p x r m -> pres d p x r m) /\ (forall l ps cs r m, rels l ps cs r m -> pres_list l ps cs r m).
Proof.
  apply rel_ind2.
  - intros n z a Hz Ha. split; [now apply boltzmann_pos|]. exists (VArr (one_hot n a)). cbn [c_pre]. rewrite onehot_z_nat. split; auto. split.
    + cbn [c_log_proba as_array bind array_at item lookup logits_key Nat.eqb]. apply logp_boltzmann; auto; lia.
    + intros gs gr Lg Hg. cbn [c_post]. assert (F3 : firstn n (gs ++ gr) = gs) by (rewrite <- Lg; apply firstn_app_exact). assert (F4 : skipn n (gs ++ gr) = gr) by (rewrite <- Lg; apply skipn_app_exact). rewrite F3, F4, cat_roundtrip by auto. reflexivity.
  - intros kd l ps cs c r m HR [Hr (Xs & LX & H1 & H2 & H3)] HK HA HM. split; auto. destruct (rels_len HR) as [L1 L2]. assert (LX' : length (map fst l) = length Xs) by (rewrite map_length; auto).
    assert (F : Forall2 (fun kd' p => part kd (fst kd') (build kd (combine (map fst l) ps)) = Ok p) l ps) by (apply (@Forall2_fst _ _ (fun k p => part kd k (build kd (combine (map fst l) ps)) = Ok p)), build_parts; auto).
    assert (FX : Forall2 (fun kd' X => part kd (fst kd') (build kd (combine (map fst l) Xs)) = Ok X) l Xs) by (apply (@Forall2_fst _ _ (fun k p => part kd k (build kd (combine (map fst l) Xs)) = Ok p)), build_parts; auto).
    assert (FC : Forall2 (fun kd' x => cpart kd (fst kd') c = Ok x) l cs) by (apply (@Forall2_fst _ _ (fun k x => cpart kd k c = Ok x)), assembled_parts with (cs := cs); auto).
    exists (build kd (combine (map fst l) Xs)). split; [rewrite pre_node, (H1 kd c FC); reflexivity|]. split; [rewrite logp_node; now apply H2|]. intros gs gr Lg Hg. rewrite post_node, (H3 kd _ gs gr Lg Hg FX). cbn [bind fst snd]. destruct HA.
    + rewrite map_snd_combine by auto. rewrite stack_ints_ok by auto. reflexivity.
    + now rewrite map_snd_combine.
    + reflexivity.
  - split; [lra|]. exists []. repeat split; auto; intros; cbn; [now rewrite ln_1|]. destruct gs; [reflexivity|discriminate].
  - intros k d l p ps c cs r r' m m' HR [Hr (X & E1 & E2 & E3)] HRs [Hr' (Xs & LX & H1 & H2 & H3)]. split; [nra|]. exists (X :: Xs). split; [cbn; auto|]. split; [|split].
    + intros kd c0 F. apply F2cons in F. destruct F as [F1 F]. cbn [fst] in F1. cbn [pre_list map combine fst]. rewrite F1. cbn [bind]. rewrite E1. cbn [bind]. rewrite (H1 kd c0 F). reflexivity.
    + intros kd P Y F G. apply F2cons in F. apply F2cons in G. destruct F as [F1 F], G as [G1 G]. cbn [fst] in *. cbn [logp_list]. rewrite F1, G1. cbn [bind]. rewrite E2. cbn [bind]. rewrite (H2 kd P Y F G). cbn [bind]. now rewrite ln_mult.
    + intros kd Y gs gr Lg Hg G. apply F2cons in G. destruct G as [G1 G]. cbn [fst] in *. cbn [post_list]. rewrite G1. cbn [bind]. assert (Lg1 : length (firstn m gs) = m) by (rewrite firstn_length; lia). assert (Lg2 : length (skipn m gs) = m') by (rewrite skipn_length; lia). rewrite <- (firstn_skipn m gs), <- app_assoc. rewrite (E3 _ _ Lg1 (quiet_firstn m Hg)). cbn [bind fst snd]. rewrite (H3 kd Y _ gr Lg2 (quiet_skipn m Hg) G). reflexivity.
Qed.

(** * Modes *)
Definition modal (d : pdist) (p : pv) (x : clean) (r : R) (m : nat) : Prop := exists X, c_mode d p = Ok X /\
  forall gs gr, length gs = m -> quiet gs -> exists y r', c_post d X (gs ++ gr) = Ok (y, gr) /\ rel d p y r' m /\ r <= r' /\ (is_cat d -> exists z, y = CInt z).
Definition modal_list (l : list (nat * pdist)) (ps : list pv) (cs : list clean) (r : R) (m : nat) : Prop := exists Xs, length Xs = length l /\
  (forall kd P, Forall2 (fun kd' p => part kd (fst kd') P = Ok p) l ps -> each_list (fun n z => cat_mode n tau_default z) norm_mean kd P l = Ok (combine (map fst l) Xs)) /\
  forall gs gr, length gs = m -> quiet gs -> exists ys r', rels l ps ys r' m /\ r <= r' /\ ((forall k d, In (k, d) l -> is_cat d) -> exists zs, ys = map CInt zs) /\
    forall kd Y, Forall2 (fun kd' X => part kd (fst kd') Y = Ok X) l Xs -> post_list kd Y l (gs ++ gr) = Ok (combine (map fst l) ys, gr).

Lemma rel_modal : (forall d p x r m, rel d p x r m -> modal d p x r m) /\ (forall l ps cs r m, rels l ps cs r m -> modal_list l ps cs r m).
Proof.
  apply rel_ind2.
  - intros n z a Hz Ha. destruct (@mode_spec n tau_default z) as (x & Ex & Lx & _ & HM); auto; [lia|unfold tau_default; lra|]. exists (VArr x). split; [unfold c_mode; cbn [c_each array_at item lookup logits_key Nat.eqb bind]; now rewrite Ex|].
    intros gs gr Lg Hg. assert (NE : x <> []) by (intros C; rewrite C in Lx; cbn in Lx; lia). destruct (@argmax_spec x gs) as (b & Eb & Hb); auto; [lia|]. apply HM in Hb. destruct Hb as [Hb1 Hb2].
    exists (CInt (Z.of_nat b)), (boltzmann n z b). cbn [c_post]. assert (F3 : firstn n (gs ++ gr) = gs) by (rewrite <- Lg; apply firstn_app_exact). assert (F4 : skipn n (gs ++ gr) = gr) by (rewrite <- Lg; apply skipn_app_exact). rewrite F3, F4. unfold cat_post. rewrite Lx, Nat.eqb_refl, Eb. cbn [bind]. split; auto. split; [apply rel_leaf; auto; lia|]. split; [|eauto].
    rewrite !boltzmann_softmax by lia. apply softmax_order; try lia; [intros C; rewrite C in Hz; cbn in Hz; lia|]. apply Hb2. lia.
  - intros kd l ps cs c r m HR (Xs & LX & H1 & H2) HK HA HM. destruct (rels_len HR) as [L1 L2]. assert (LX' : length (map fst l) = length Xs) by (rewrite map_length; auto).
    assert (F : Forall2 (fun kd' p => part kd (fst kd') (build kd (combine (map fst l) ps)) = Ok p) l ps) by (apply (@Forall2_fst _ _ (fun k p => part kd k (build kd (combine (map fst l) ps)) = Ok p)), build_parts; auto).
    assert (FX : Forall2 (fun kd' X => part kd (fst kd') (build kd (combine (map fst l) Xs)) = Ok X) l Xs) by (apply (@Forall2_fst _ _ (fun k p => part kd k (build kd (combine (map fst l) Xs)) = Ok p)), build_parts; auto).
    exists (build kd (combine (map fst l) Xs)). split; [unfold c_mode; rewrite each_node, (H1 kd _ F); reflexivity|]. intros gs gr Lg Hg. destruct (H2 gs gr Lg Hg) as (ys & r' & HR' & Hle & HZ & HP). destruct (rels_len HR') as [_ L3].
    assert (exists y, assembled kd (map fst l) ys y /\ c_post (PNode kd l) (build kd (combine (map fst l) Xs)) (gs ++ gr) = Ok (y, gr)) as (y & HA' & E3).
    { rewrite post_node, (HP kd _ FX). cbn [bind fst snd]. destruct kd.
      - destruct HM as [NE HM]; auto. destruct (HZ HM) as [zs ->]. assert (NZ : zs <> []) by (intros ->; destruct l; [congruence|cbn in L3; lia]). exists (CInts zs). split; [now constructor|]. rewrite map_snd_combine by auto. rewrite stack_ints_ok by auto. reflexivity.
      - exists (CTuple ys). split; [constructor|]. now rewrite map_snd_combine.
      - exists (CDict (combine (map fst l) ys)). split; [constructor|]. reflexivity. }
    exists y, r'. split; auto. split; [econstructor; eauto|]. split; auto. intros [].
  - exists []. split; auto. split; [reflexivity|]. intros gs gr Lg Hg. exists [], 1. split; [constructor|]. split; [lra|]. split; [exists []; reflexivity|]. intros kd Y _. destruct gs; [reflexivity|discriminate].
  - intros k d l p ps c cs r r' m m' HR (X & E1 & E2) HRs (Xs & LX & H1 & H2). exists (X :: Xs). split; [cbn; auto|]. split.
    + intros kd P F. apply F2cons in F. destruct F as [F1 F]. cbn [fst] in *. cbn [each_list map combine fst]. rewrite F1. cbn [bind]. unfold c_mode in E1. rewrite E1. cbn [bind]. rewrite (H1 kd P F). reflexivity.
    + intros gs gr Lg Hg. assert (Lg1 : length (firstn m gs) = m) by (rewrite firstn_length; lia). assert (Lg2 : length (skipn m gs) = m') by (rewrite skipn_length; lia).
      destruct (E2 _ (skipn m gs ++ gr) Lg1 (quiet_firstn m Hg)) as (y & r1 & P1 & R1 & Le1 & Z1). destruct (H2 _ gr Lg2 (quiet_skipn m Hg)) as (ys & r2 & R2 & Le2 & Z2 & P2). rewrite app_assoc, firstn_skipn in P1.
      exists (y :: ys), (r1 * r2). split; [now constructor|]. split; [|split].
      * destruct rel_pres as [Q1 Q2]. destruct (Q1 _ _ _ _ _ HR) as [? _]. destruct (Q2 _ _ _ _ _ HRs) as [? _]. apply Rmult_le_compat; lra.
      * intros HC. destruct Z1 as [z ->]; [apply (HC k); now left|]. destruct Z2 as [zs ->]; [intros; apply (HC k0); now right|]. exists (z :: zs). reflexivity.
      * intros kd Y G. apply F2cons in G. destruct G as [G1 G]. cbn [fst] in *. cbn [post_list map combine fst]. rewrite G1. cbn [bind]. rewrite P1. cbn [bind fst snd]. rewrite (P2 kd Y G). reflexivity.
Qed.
