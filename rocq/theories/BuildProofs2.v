(** Constructors: observations of a space as trees, and calls after construction. *)
From Coq Require Import List ZArith Lia Bool Reals Lra.
From Verif Require Import PyCommon CommonProofs DistModel PolicySpec CompModel CompSpec CompProofs CompProofs3 CompProofs5 CompProofs7 BuildModel BuildSpec BuildProofs.
Import ListNotations.
Set Implicit Arguments.
Local Open Scope R_scope.

(** * Trees of states *)
Lemma asks_row : forall ax x, asks (widen ax (of_pv (VArr x))) (arr ax (length x)).
Proof. intros ax x. cbn [of_pv]. apply asks_arr. Qed.
Lemma states_seq : forall ax l, widen ax (of_pv (VList l)) = OLst (map (fun v => widen ax (of_pv v)) l).
Proof. intros ax l. cbn. now rewrite map_map. Qed.
Lemma states_dict : forall ax l, widen ax (of_pv (VDict l)) = ODict (combine (map fst l) (map (fun v => widen ax (of_pv v)) (map snd l))).
Proof. intros ax l. cbn. rewrite map_map. cbn. now rewrite <- map_snd_pair with (f := fun v => widen ax (of_pv v)). Qed.
Lemma asks_states : forall ax sp v, variate sp v -> asks (widen ax (of_pv v)) (state_tree ax sp).
Proof.
  intros ax. induction sp as [n s|bs|nv|n|l IH|l IH|] using pspace_ind2; intros v E.
  - destruct E as (x & -> & <-). apply asks_row.
  - destruct E as (x & -> & L). unfold state_tree. cbn [laid]. rewrite <- L. apply asks_row.
  - destruct E as (Xs & -> & F). rewrite states_seq. eapply asks_ext; [apply asks_list with (Ps := map (arr ax) nv); apply Forall2_map_l, Forall2_map_r|].
    + clear -F. induction F as [|n X nv Xs (x & -> & <-) F IH]; constructor; auto. apply asks_row.
    + intros o. unfold state_tree. cbn [laid]. split; intros (l & -> & H); exists l; (split; [reflexivity|]); first [exact (proj1 (Forall2_map_l _ _ _ _) H)|exact (proj2 (Forall2_map_l _ (fun (P : otree -> Prop) o => P o) _ _) H)].
  - destruct E as (Xs & -> & <- & F). rewrite states_seq. eapply asks_ext; [apply asks_list with (Ps := repeat (arr ax 2) (length Xs))|].
    + clear -F. induction Xs as [|X Xs IH]; cbn [map length repeat]; constructor; [|apply IH; intros; apply F; now right]. destruct (F X (or_introl eq_refl)) as (x & -> & <-). apply asks_row.
    + intros o. unfold state_tree. cbn [laid]. split; intros (l & -> & H); exists l; (split; [reflexivity|]); first [exact (proj1 (Forall2_repeat _ _ _ _) H)|exact (proj2 (Forall2_repeat (fun (P : otree -> Prop) o => P o) _ _ _) H)].
  - apply variate_tuple in E. destruct E as (Xs & -> & F). rewrite states_seq. eapply asks_ext; [apply asks_list with (Ps := map (state_tree ax) l); apply Forall2_map_l, Forall2_map_r|].
    + clear -IH F. induction F; constructor; inversion IH; subst; auto.
    + intros o. unfold state_tree at 2. rewrite laid_tuple. split; intros (m & -> & H); exists m; (split; [reflexivity|]); first [exact (proj1 (Forall2_map_l _ _ _ _) H)|exact (proj2 (Forall2_map_l _ (fun (P : otree -> Prop) o => P o) _ _) H)].
  - apply variate_dict in E. destruct E as (Xs & -> & EK & F). rewrite states_dict. pose proof (Forall2_len F) as L. rewrite !map_length in L. eapply asks_ext; [apply asks_dict with (Ps := map (state_tree ax) (map snd l)); [apply Forall2_map_l, Forall2_map_r|now rewrite !map_length]|].
    + assert (IH' : Forall (fun sp => forall d, variate sp d -> asks (widen ax (of_pv d)) (state_tree ax sp)) (map snd l)) by (clear -IH; induction IH; cbn; constructor; auto). clear -IH' F. induction F; constructor; inversion IH'; subst; auto.
    + intros o. unfold state_tree at 2. rewrite laid_dict, EK. split; intros (m & -> & H1 & H); exists m; (split; [reflexivity|]); (split; [exact H1|]); first [exact (proj1 (Forall2_map_l _ _ _ _) H)|exact (proj2 (Forall2_map_l _ (fun (P : otree -> Prop) o => P o) _ _) H)].
  - contradiction.
Qed.

(** * From trees to parameters and variates *)
Lemma sound_tuple : forall l, sound (OTuple l) <-> Forall sound l.
Proof. intros l. cbn [sound]. induction l as [|x l IH]; split; intros H; auto; [constructor; [apply H|apply IH, H]|]. inversion H; subst. split; auto. now apply IH. Qed.
Lemma sound_list : forall l, sound (OLst l) <-> Forall sound l.
Proof. intros l. exact (sound_tuple l). Qed.
Lemma sound_dict : forall l, sound (ODict l) <-> Forall sound (map snd l).
Proof. intros l. cbn [sound]. induction l as [|[k x] l IH]; cbn; split; intros H; auto; [constructor; [apply H|apply IH, H]|]. inversion H; subst. split; auto. now apply IH. Qed.
Lemma arr_row : forall n o, arr [] n o -> sound o -> exists x, to_pv o = VArr x /\ length x = n.
Proof. intros n o (fl & x & ->) H. cbn in H. exists x. split; auto. cbn in *. lia. Qed.
Lemma to_pv_dict : forall l, to_pv (ODict l) = VDict (combine (map fst l) (map to_pv (map snd l))).
Proof. intros l. cbn. now rewrite map_snd_pair. Qed.

Lemma logits_row : forall n o, (exists z, o = ODict [(0%nat, z)] /\ arr [] n z) -> sound o -> exists z, logits_of n (to_pv o) z.
Proof. intros n o (z & -> & HA) [HS _]. destruct (arr_row HA HS) as (x & E & L). exists x. split; auto. cbn. now rewrite E. Qed.
Lemma seq_rows : forall {A} (P : A -> otree -> Prop) (Q : A -> pv -> Prop) l m, (forall a o, In a l -> P a o -> sound o -> Q a (to_pv o)) -> Forall2 P l m -> Forall sound m -> Forall2 Q l (map to_pv m).
Proof. intros A P Q l m H F S. induction F; cbn; constructor; inversion S; subst; auto; [apply H; auto; now left|]. apply IHF; auto. intros; apply H; auto. now right. Qed.
Lemma params_fit : forall sp o, param_tree [] sp o -> sound o -> fits sp (to_pv o).
Proof.
  induction sp as [n s|bs|nv|n|l IH|l IH|] using pspace_ind2; intros o H S.
  - now apply logits_row.
  - destruct H as (mu & lv & -> & H1 & H2). destruct S as (S1 & S2 & _). destruct (arr_row H1 S1) as (x & E1 & L1). destruct (arr_row H2 S2) as (y & E2 & L2). exists x, y. cbn. rewrite E1, E2. auto.
  - destruct H as (l & -> & H). apply sound_tuple in S. exists (map to_pv l). split; auto. eapply seq_rows; eauto. intros a o _ Ha So. now apply logits_row.
  - destruct H as (l & -> & L & H). apply sound_tuple in S. exists (map to_pv l). split; auto. split; [now rewrite map_length|]. intros q Hq. apply in_map_iff in Hq. destruct Hq as (x & <- & Hx). apply logits_row; auto. rewrite Forall_forall in S. auto.
  - unfold param_tree in H. rewrite laid_tuple in H. destruct H as (m & -> & F). apply sound_tuple in S. apply fits_tuple. exists (map to_pv m). split; auto. eapply seq_rows; eauto. intros a o Ha Hp So. rewrite Forall_forall in IH. now apply IH.
  - unfold param_tree in H. rewrite laid_dict in H. destruct H as (m & -> & EK & F). apply sound_dict in S. apply fits_dict. rewrite to_pv_dict. pose proof (Forall2_len F) as L. rewrite !map_length in L. eexists. split; [reflexivity|]. rewrite fst_combine, map_snd_combine by (now rewrite !map_length). split; auto.
    eapply seq_rows; eauto. intros a o Ha Hp So. apply in_map_iff in Ha. destruct Ha as ([k t] & <- & Ht). rewrite Forall_forall in IH. now apply (IH (k, t)).
  - contradiction.
Qed.
Lemma states_vary : forall sp o, state_tree [] sp o -> sound o -> variate sp (to_pv o).
Proof.
  induction sp as [n s|bs|nv|n|l IH|l IH|] using pspace_ind2; intros o H S.
  - destruct (arr_row H S) as (x & E & L). exists x. auto.
  - destruct (arr_row H S) as (x & E & L). exists x. auto.
  - destruct H as (l & -> & H). apply sound_list in S. exists (map to_pv l). split; auto. eapply seq_rows; eauto. intros a o _ Ha So. now apply arr_row.
  - destruct H as (l & -> & L & H). apply sound_list in S. exists (map to_pv l). split; auto. split; [now rewrite map_length|]. intros q Hq. apply in_map_iff in Hq. destruct Hq as (x & <- & Hx). apply arr_row; auto. rewrite Forall_forall in S. auto.
  - unfold state_tree in H. rewrite laid_tuple in H. destruct H as (m & -> & F). apply sound_list in S. apply variate_tuple. exists (map to_pv m). split; auto. eapply seq_rows; eauto. intros a o Ha Hp So. rewrite Forall_forall in IH. now apply IH.
  - unfold state_tree in H. rewrite laid_dict in H. destruct H as (m & -> & EK & F). apply sound_dict in S. apply variate_dict. rewrite to_pv_dict. pose proof (Forall2_len F) as L. rewrite !map_length in L. eexists. split; [reflexivity|]. rewrite fst_combine, map_snd_combine by (now rewrite !map_length). split; auto.
    eapply seq_rows; eauto. intros a o Ha Hp So. apply in_map_iff in Ha. destruct Ha as ([k t] & <- & Ht). rewrite Forall_forall in IH. now apply (IH (k, t)).
  - contradiction.
Qed.

(** * Evaluations after construction *)
Lemma settled : forall f made args args' o, traceable f -> steady f -> hk_run f made args true = Ok o -> Forall2 same_form args args' -> exists o1 o2, same_form o o1 /\ same_form o1 o2 /\ hk_run f made args' false = Ok o2 /\ sound o2.
Proof.
  intros f made args args' o [HT HS] HB E F. pose proof (HT made args args' true F) as H1. rewrite E in H1. destruct (hk_run f made args' true) as [o1|] eqn:E1; [|contradiction]. pose proof (HB made args') as H2. rewrite E1 in H2. destruct (hk_run f made args' false) as [o2|] eqn:E2; [|contradiction]. exists o1, o2. repeat split; auto. eapply HS; eauto.
Qed.
Lemma try_out_eq : forall f args, try_out f args = hk_run f (map erase args) args true.
Proof. intros f args. unfold try_out. destruct (hk_run _ _ _ _) eqn:E; cbn; auto. Qed.
Lemma check_tree_iff : forall e (P : otree -> Prop) o, asks e P -> (check_tree e o = Ok tt /\ P o) \/ (check_tree e o = Err EType /\ ~ P o).
Proof. intros e P o H. unfold check_tree. destruct (same_tree e o) eqn:E; [left|right]; split; auto; [now apply H|]. intros HP. apply H in HP. congruence. Qed.
Lemma laid_form : forall e (P : otree -> Prop) o o1 o2, asks e P -> P o -> same_form o o1 -> same_form o1 o2 -> P o2.
Proof. intros e P o o1 o2 H HP F1 F2. apply H. apply H in HP. eapply same_form_tree; eauto. eapply same_form_tree; eauto. Qed.
Lemma array_form : forall sh x o1 o2, same_form (OArr true sh x) o1 -> same_form o1 o2 -> exists y, o2 = OArr true sh y.
Proof. intros sh x o1 o2 F1 F2. inversion F1; subst. inversion F2; subst. eauto. Qed.
Lemma same_form_refl : forall o, same_form o o.
Proof.
  induction o as [f s x|l IH|l IH|l IH] using otree_ind2; try constructor; try (induction IH; constructor; auto).
  assert (H : Forall2 same_form (map snd l) (map snd l)) by (induction IH; cbn; constructor; auto). rewrite <- (combine_fst_snd l). apply same_dict; auto. now rewrite !map_length.
Qed.
Lemma of_pv_sound : forall v, sound (of_pv v).
Proof.
  fix IH 1. intros [x|l|l].
  - cbn. lia.
  - cbn [of_pv]. apply sound_list. induction l as [|v l IHl]; cbn [map]; constructor; [apply IH|apply IHl].
  - cbn [of_pv]. apply sound_dict. induction l as [|[k v] l IHl]; cbn [map snd fst]; constructor; [apply IH|apply IHl].
Qed.
Lemma of_pv_form : forall sp v w, variate sp v -> variate sp w -> same_form (of_pv v) (of_pv w).
Proof.
  induction sp as [n s|bs|nv|n|l IH|l IH|] using pspace_ind2; intros v w H H'.
  - destruct H as (x & -> & Lx). destruct H' as (y & -> & Ly). cbn. rewrite Lx, Ly. constructor.
  - destruct H as (x & -> & Lx). destruct H' as (y & -> & Ly). cbn. rewrite Lx, Ly. constructor.
  - destruct H as (xs & -> & F). destruct H' as (ys & -> & F'). cbn [of_pv]. constructor. apply Forall2_map_l, Forall2_map_r. revert ys F'. induction F as [|n X nv Xs (x & -> & Lx) F IHF]; intros ys F'; inversion F' as [|? Y ? ? (y & -> & Ly) F'']; subst; constructor; auto. cbn. rewrite Ly. constructor.
  - destruct H as (xs & -> & L & F). destruct H' as (ys & -> & L' & F'). cbn [of_pv]. constructor. apply Forall2_map_l, Forall2_map_r. rewrite <- L' in L. clear n L'. revert ys L F'. induction xs as [|X xs IH]; intros [|Y ys] L F'; try discriminate; constructor.
    + destruct (F X (or_introl eq_refl)) as (x & -> & Lx). destruct (F' Y (or_introl eq_refl)) as (y & -> & Ly). cbn. rewrite Lx, Ly. constructor.
    + apply IH; [intros; apply F; now right|now injection L|intros; apply F'; now right].
  - apply variate_tuple in H. destruct H as (xs & -> & F). apply variate_tuple in H'. destruct H' as (ys & -> & F'). cbn [of_pv]. constructor. apply Forall2_map_l, Forall2_map_r. revert ys F'. induction F as [|s X ss Xs HX F IHF]; intros ys F'; inversion F' as [|? Y ? ? HY F'']; subst; constructor; inversion IH; subst; auto.
  - apply variate_dict in H. destruct H as (xs & -> & K & F). apply variate_dict in H'. destruct H' as (ys & -> & K' & F'). cbn [of_pv]. rewrite !map_snd_pair. rewrite K, K'. pose proof (Forall2_len F) as L. rewrite !map_length in L. constructor; [|now rewrite !map_length].
    apply Forall2_map_l, Forall2_map_r. assert (IH' : Forall (fun sp => forall v w, variate sp v -> variate sp w -> same_form (of_pv v) (of_pv w)) (map snd l)) by (clear -IH; induction IH; cbn; constructor; auto). clear -IH' F F'. revert F'. generalize (map snd ys). induction F as [|s X ss Xs HX F IHF]; intros zs F'; inversion F' as [|? Y ? ? HY F'']; subst; constructor; inversion IH'; subst; auto.
  - contradiction.
Qed.
Lemma same_form_sym : forall o o', same_form o o' -> same_form o' o.
Proof.
  induction o as [f s x|l IH|l IH|l IH] using otree_ind2; intros o' H; inversion H as [fl s' x' y'|m m' HM|m m' HM|ks m m' HM HK]; subst; constructor.
  - clear H. revert m' HM. induction IH; intros m' HM; inversion HM; subst; constructor; auto.
  - clear H. revert m' HM. induction IH; intros m' HM; inversion HM; subst; constructor; auto.
  - assert (IH' : Forall (fun o => forall o', same_form o o' -> same_form o' o) m). { rewrite <- (map_snd_combine ks m) by auto. clear -IH. induction IH; cbn; constructor; auto. } clear H HK IH. revert m' HM. induction IH'; intros m' HM; inversion HM; subst; constructor; auto.
  - pose proof (Forall2_len HM). lia.
Qed.
Lemma dot_pairing : forall a q, dot a q = pairing a q.
Proof. unfold dot, pairing. induction a as [|x a IH]; intros [|y q]; cbn; auto. cbn in IH. now rewrite IH. Qed.
