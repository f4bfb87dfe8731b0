(** Composite distributions with boxes: what is drawn. *)
From Coq Require Import List ZArith Lia Bool Reals Lra.
From Verif Require Import PyCommon CommonProofs UtilsModel UtilsSpec UtilsProofs2 UtilsProofs3 WrappersModel WrappersProofs TDSpec TDProofs DistModel DistSpec DistProofs DistProofs2 PolicySpec PolicyProofs3 PolicyProofs4 MeanSpec MeanProofs CompModel CompSpec CompSpec2 CompProofs CompProofs2 CompProofs3 CompProofs4 CompProofs5 CompProofs7.
Import ListNotations.
Set Implicit Arguments.
Local Open Scope R_scope.

Lemma perturbed_zip : forall z us, length z = length us -> perturbed z us = zipw (fun u x => - ln (- ln u) + x) us z.
Proof. induction z as [|x z IH]; intros [|u us] L; cbn in *; try lia; auto. unfold perturbed in *. cbn [combine map fst snd]. f_equal; [lra|]. apply IH. lia. Qed.
Lemma perturbed_length : forall z us, length z = length us -> length (perturbed z us) = length z.
Proof. intros z us L. unfold perturbed. rewrite map_length, combine_length. lia. Qed.
Lemma total_rsum : forall l, rsum l = total l.
Proof. induction l; cbn; auto; try (unfold total in *; cbn; now rewrite IHl). Qed.
Lemma soft_sample : forall n z us, length z = n -> length us = n ->
  cat_sample n tau_default z us = Ok (map (fun y => exp (5 * y) / total (map (fun y => exp (5 * y)) (perturbed z us))) (perturbed z us)).
Proof.
  intros n z us Lz Lu. unfold cat_sample. rewrite (check_ok _ Lz). cbn [bind]. f_equal. unfold log_softmax. set (c := ln (sumexp z)). unfold softmax, sumexp.
  assert (E : map (fun x => x / tau_default) (zipw Rplus (map gumbel us) (map (fun x => x - c) z)) = map (fun y => 5 * y - 5 * c) (perturbed z us)).
  { clearbody c. assert (L : length z = length us) by lia. clear Lz Lu n. revert us L. induction z as [|x z IH]; intros [|u us] L; cbn in L; try lia; [reflexivity|]. unfold perturbed in *. cbn [map zipw combine fst snd]. rewrite IH by lia. f_equal. unfold gumbel, tau_default. lra. }
  rewrite E. rewrite !map_map. rewrite total_rsum. set (w := perturbed z us). clearbody w. clear E.
  assert (T : total (map (fun x => exp (5 * x - 5 * c)) w) = exp (- (5 * c)) * total (map (fun y => exp (5 * y)) w)). { clear. unfold total. induction w as [|y w IH]; cbn [map fold_right]; [lra|]. rewrite IH. unfold Rminus. rewrite exp_plus. ring. }
  rewrite T. apply map_ext_in. intros y Hy. unfold Rminus. rewrite exp_plus. pose proof (exp_pos (- (5 * c))).
  assert (0 < total (map (fun y => exp (5 * y)) w)). { clear - Hy. unfold total. assert (P : forall l, 0 <= fold_right Rplus 0 (map (fun y => exp (5 * y)) l)) by (induction l as [|x l IH]; cbn; [lra|]; pose proof (exp_pos (5 * x)); lra). destruct w as [|x w]; [destruct Hy|]. cbn. pose proof (exp_pos (5 * x)). specialize (P w). lra. }
  field. split; lra.
Qed.

(** What holds for a space and its distribution. *)
Definition drawable (sp : pspace) (d : pdist) : Prop := forall p us gs ur gr, fits sp p -> drawn sp us -> length gs = ties sp -> quiet gs ->
  exists X Y x r, c_sample d p (us ++ ur) = Ok (X, ur) /\ drawing sp p us X Y /\ c_post d X (gs ++ gr) = Ok (x, gr) /\ valued sp p Y x r /\ (is_cat d -> exists z, x = CInt z).

Lemma draw_cat : forall n, (1 <= n)%nat -> drawable (SpDiscrete n 0) (PCat n).
Proof.
  intros n Hn p us gs ur gr (z & -> & Lz) [Lu HU] Lg Hg. cbn [size ties] in *. assert (T : 0 < tau_default) by (unfold tau_default; lra).
  destruct (@sample_spec n tau_default z us) as (x & Ex & Lx & _ & HM); auto. assert (NE : x <> []) by (intros C; rewrite C in Lx; cbn in Lx; lia). destruct (@argmax_spec x gs) as (b & Eb & Hb); auto; [lia|]. pose proof Hb as [Hb1 _]. apply HM in Hb.
  rewrite <- perturbed_zip in Hb by lia. destruct Hb as [Hb2 Hb3]. rewrite perturbed_length in Hb2, Hb3 by lia.
  pose proof (@soft_sample n z us Lz Lu) as ES. assert (EX : x = map (fun y => exp (5 * y) / total (map (fun y => exp (5 * y)) (perturbed z us))) (perturbed z us)) by congruence.
  exists (VArr x), (VArr (unit_vector n b)), (CInt (Z.of_nat b)), (ln (boltzmann n z b)). cbn [c_sample array_at item lookup logits_key Nat.eqb bind c_post].
  assert (F1 : firstn n (us ++ ur) = us) by (rewrite <- Lu; apply firstn_app_exact). assert (F2 : skipn n (us ++ ur) = ur) by (rewrite <- Lu; apply skipn_app_exact). assert (F3 : firstn n (gs ++ gr) = gs) by (rewrite <- Lg; apply firstn_app_exact). assert (F4 : skipn n (gs ++ gr) = gr) by (rewrite <- Lg; apply skipn_app_exact).
  rewrite F1, F2, F3, F4, Ex. split; [reflexivity|]. split; [rewrite EX; apply dr_cat; auto; [lia|]; intros k Hk; apply Hb3; lia|]. split; [unfold cat_post; rewrite Lx, Nat.eqb_refl, Eb; reflexivity|]. split; [apply val_cat; auto; lia|]. eauto.
Qed.
Lemma draw_box : forall bs d, mk (SpBox bs) = Ok d -> drawable (SpBox bs) d.
Proof.
  intros bs d E p us gs ur gr (mu & lv & -> & Lm & Lv) Lu Lg Hg. cbn [drawn] in Lu. cbn [ties] in Lg. destruct gs; [|discriminate]. cbn [mk] in E. destruct (map_outcome _ bs) as [bd|] eqn:E1; [|discriminate]. injection E as <-. apply map_outcome_ok in E1. pose proof (Forall2_len E1) as L.
  set (xs := map (fun t => fst (fst t) + exp (lv_used (snd (fst t)) / 2) * snd t) (combine (combine mu lv) us)).
  assert (LX : length xs = length bd) by (unfold xs; rewrite map_length, !combine_length; lia).
  assert (HV : exists cs r, map (fun bx => n_post (fst (fst bx)) (snd (fst bx)) (-30) 30 (snd bx)) (combine bd xs) = cs /\ coords bs mu lv (map (fun x => Rmin (Rmax x (-30)) 30) xs) cs r).
  { clear Lu. clearbody xs. revert mu lv xs Lm Lv LX. clear L ur gr Hg us. induction E1 as [|b [l h] bs bd H F IH]; intros [|m mu] [|v lv] [|x xs] Lm Lv LX; cbn [length] in *; try lia; [exists [], 0; split; [reflexivity|constructor]|].
    destruct (IH mu lv xs) as (cs & r & E & C); try lia. cbn [combine map fst snd]. rewrite E. exists (n_post l h (-30) 30 x :: cs). destruct (n_bounds_val b H) as (-> & -> & B). eexists. split; [reflexivity|]. unfold n_post, clip. rewrite sigmoid_exp.
    replace (lower b + (upper b - lower b) * (1 / (1 + exp (- Rmin (Rmax x (-30)) 30)))) with (lower b + (upper b - lower b) / (1 + exp (- Rmin (Rmax x (-30)) 30))) by (unfold Rdiv; ring). constructor; [exact B| |exact C]. unfold Rmin, Rmax. repeat destruct (Rle_dec _ _); lra. }
  destruct HV as (cs & r & EC & HC). exists (VArr xs), (VArr (map (fun x => Rmin (Rmax x (-30)) 30) xs)), (CVec cs), r. split; [|split; [now apply dr_box|split; [|split; [now apply val_box|intros []]]]].
  - cbn [c_sample np_at array_at item lookup mu_key logvar_key Nat.eqb bind nd_of].
    assert (F1 : firstn (length bd) (us ++ ur) = us) by (rewrite <- L, <- Lu; apply firstn_app_exact). assert (F2 : skipn (length bd) (us ++ ur) = ur) by (rewrite <- L, <- Lu; apply skipn_app_exact). rewrite F1, F2. unfold n_sample, check_logvar. cbn [n_mu n_logvar]. change (nd_dim (nd_of bd)) with (length bd). change (nd_clo (nd_of bd)) with (-20). change (nd_chi (nd_of bd)) with 20.
    assert (Lm' : length mu = length bd) by lia. assert (Lv' : length lv = length bd) by lia. rewrite (check_ok _ Lm'), (check_ok _ Lv'). cbn [bind]. do 3 f_equal. unfold xs. rewrite map_map.
    assert (LL : length mu = length us /\ length lv = length us) by lia. clear - LL. destruct LL as [L1 L2]. revert mu lv L1 L2. induction us as [|e us IH]; intros [|m mu] [|v lv] L1 L2; cbn in L1, L2; try lia; [reflexivity|]. cbn [map combine zipw fst snd]. f_equal. apply IH; lia.
  - cbn [c_post app]. replace (length xs =? length bd)%nat with true by (symmetry; apply Nat.eqb_eq; lia). now rewrite EC.
Qed.

Definition drawable_list (ss : list pspace) (l : list (nat * pdist)) : Prop := forall ps uss gs ur gr kd P, Forall2 fits ss ps -> Forall2 drawn ss uss -> length gs = nsum (map ties ss) -> quiet gs -> Forall2 (fun kd' p => part kd (fst kd') P = Ok p) l ps ->
  exists Xs Ys xs r, sample_list kd P l (concat uss ++ ur) = Ok (combine (map fst l) Xs, ur) /\ drawings ss ps (concat uss) Xs Ys /\ valueds ss ps Ys xs r /\
    (forall Q, Forall2 (fun kd' X => part kd (fst kd') Q = Ok X) l Xs -> post_list kd Q l (gs ++ gr) = Ok (combine (map fst l) xs, gr)) /\ ((forall k d, In (k, d) l -> is_cat d) -> exists zs, xs = map CInt zs).
Lemma drawings_len : forall ss ps us Xs Ys, drawings ss ps us Xs Ys -> length Xs = length ss.
Proof. induction 1; cbn; auto. Qed.

Lemma draw_lists : forall ss ds, Forall2 drawable ss ds -> forall ks, length ks = length ds -> drawable_list ss (combine ks ds).
Proof.
  intros ss ds F. induction F as [|s d ss ds H F IH]; intros ks L ps uss gs ur gr kd P F1 F2 Lg Hg G.
  - inversion F1; subst. inversion F2; subst. destruct ks; [|discriminate]. destruct gs; [|discriminate]. exists [], [], [], 0. cbn. split; auto. split; [constructor|]. split; [constructor|]. split; [reflexivity|]. exists []. reflexivity.
  - destruct ks as [|k ks]; [discriminate|]. injection L as L. destruct ps as [|p ps]; [inversion F1|]. destruct uss as [|u uss]; [inversion F2|]. cbn [combine] in *. apply F2cons in F1. apply F2cons in F2. apply F2cons in G. destruct F1 as [A1 F1], F2 as [A2 F2], G as [A3 G]. cbn [fst] in A3.
    cbn [map nsum fold_right] in Lg. fold (nsum (map ties ss)) in Lg. set (m := ties s) in *. assert (Lg1 : length (firstn m gs) = m) by (rewrite firstn_length; lia). assert (Lg2 : length (skipn m gs) = nsum (map ties ss)) by (rewrite skipn_length; lia).
    destruct (H p u (firstn m gs) (concat uss ++ ur) (skipn m gs ++ gr) A1 A2 Lg1 (quiet_firstn m Hg)) as (X & Y & x & r & E1 & D1 & E2 & V1 & Z1).
    destruct (IH ks L ps uss (skipn m gs) ur gr kd P F1 F2 Lg2 (quiet_skipn m Hg) G) as (Xs & Ys & xs & r' & E3 & D2 & V2 & E4 & Z2). rewrite app_assoc, firstn_skipn in E2.
    exists (X :: Xs), (Y :: Ys), (x :: xs), (r + r'). cbn [sample_list map combine concat fst]. rewrite A3. cbn [bind]. rewrite <- app_assoc, E1. cbn [bind fst snd]. rewrite E3. cbn [bind fst snd]. split; [reflexivity|]. split; [now constructor|]. split; [now constructor|]. split.
    + intros Q GQ. apply F2cons in GQ. destruct GQ as [Q1 GQ]. cbn [fst] in Q1. cbn [post_list]. rewrite Q1. cbn [bind]. rewrite E2. cbn [bind fst snd]. rewrite (E4 Q GQ). reflexivity.
    + intros HC. destruct Z1 as [z ->]; [apply (HC k); now left|]. destruct Z2 as [zs ->]; [intros; apply (HC k0); now right|]. exists (z :: zs). reflexivity.
Qed.

Lemma draw_node : forall kd ss ds ks ps uss gs ur gr, Forall2 drawable ss ds -> length ks = length ds -> keys_ok kd ks -> (kd = KMulti -> ds <> [] /\ forall d, In d ds -> is_cat d) ->
  Forall2 fits ss ps -> Forall2 drawn ss uss -> length gs = nsum (map ties ss) -> quiet gs ->
  exists Xs Ys xs x r, c_sample (PNode kd (combine ks ds)) (build kd (combine ks ps)) (concat uss ++ ur) = Ok (build kd (combine ks Xs), ur) /\ drawings ss ps (concat uss) Xs Ys /\ valueds ss ps Ys xs r /\
    c_post (PNode kd (combine ks ds)) (build kd (combine ks Xs)) (gs ++ gr) = Ok (x, gr) /\ assembled kd ks xs x.
Proof.
  intros kd ss ds ks ps uss gs ur gr F L HK HM F1 F2 Lg Hg. pose proof (Forall2_len F) as LD. pose proof (Forall2_len F1) as LP. assert (K : map fst (combine ks ds) = ks) by (now apply fst_combine).
  assert (FP : Forall2 (fun kd' p => part kd (fst kd') (build kd (combine ks ps)) = Ok p) (combine ks ds) ps) by (apply (@Forall2_fst _ _ (fun k p => part kd k (build kd (combine ks ps)) = Ok p)); rewrite K; apply build_parts; auto; lia).
  destruct (@draw_lists ss ds F ks L ps uss gs ur gr kd _ F1 F2 Lg Hg FP) as (Xs & Ys & xs & r & E1 & D & V & E2 & Z). rewrite K in E1, E2. pose proof (drawings_len D) as LX. destruct (valueds_len V) as (_ & _ & Lx).
  assert (FX : Forall2 (fun kd' p => part kd (fst kd') (build kd (combine ks Xs)) = Ok p) (combine ks ds) Xs) by (apply (@Forall2_fst _ _ (fun k p => part kd k (build kd (combine ks Xs)) = Ok p)); rewrite K; apply build_parts; auto; lia).
  specialize (E2 _ FX). exists Xs, Ys, xs. rewrite sample_node, E1, post_node, E2. cbn [bind fst snd].
  assert (exists x, assembled kd ks xs x /\ match kd with KMulti => bind (stack_ints (map snd (combine ks xs))) (fun c => Ok (c, gr)) | KTuple => Ok (CTuple (map snd (combine ks xs)), gr) | KDict => Ok (CDict (combine ks xs), gr) end = Ok (x, gr)) as (x & HA & EA).
  { destruct kd.
    - destruct HM as [NE HM]; auto. destruct Z as [zs ->]. { intros k d Hin. apply in_combine_r in Hin. auto. } rewrite map_length in Lx. assert (NZ : zs <> []) by (intros ->; destruct ds; [congruence|cbn in *; lia]). exists (CInts zs). split; [now constructor|]. rewrite map_snd_combine by (rewrite map_length; lia). rewrite stack_ints_ok by auto. reflexivity.
    - exists (CTuple xs). split; [constructor|]. now rewrite map_snd_combine by lia.
    - exists (CDict (combine ks xs)). split; [constructor|]. reflexivity. }
  exists x, r. split; [reflexivity|]. split; auto.
Qed.

Lemma draw_multi : forall nvec, nvec <> [] -> (forall n, In n nvec -> (1 <= n)%nat) -> Forall2 drawable (map (fun n => SpDiscrete n 0) nvec) (map PCat nvec).
Proof. intros nvec _ H. induction nvec; cbn; constructor; [apply draw_cat; apply H; now left|]. apply IHnvec. intros; apply H; now right. Qed.
Lemma multi_drawn : forall nvec us, length us = nsum nvec -> (forall u, In u us -> 0 < u < 1) -> exists uss, us = concat uss /\ Forall2 drawn (map (fun n => SpDiscrete n 0) nvec) uss.
Proof.
  intros nvec us L HU. destruct (concat_split nvec us L) as (uss & -> & G). exists uss. split; auto. apply Forall2_map_l. clear -G HU. induction G as [|n u nvec uss H G IH]; constructor; [split; auto; intros x Hx; apply HU; cbn; apply in_or_app; now left|]. apply IH. intros x Hx. apply HU. cbn. apply in_or_app. now right.
Qed.
Lemma multi_fits : forall nvec ps, Forall2 (fun n q => exists z, logits_of n q z) nvec ps -> Forall2 fits (map (fun n => SpDiscrete n 0) nvec) ps.
Proof. intros nvec ps F. apply Forall2_map_l. exact F. Qed.

Lemma draw_ints : forall nvec ps us gs ur gr, nvec <> [] -> (forall n, In n nvec -> (1 <= n)%nat) -> Forall2 (fun n q => exists z, logits_of n q z) nvec ps -> length us = nsum nvec -> (forall u, In u us -> 0 < u < 1) -> length gs = nsum nvec -> quiet gs ->
  exists Xs Ys zs r, c_sample (PNode KMulti (enum (map PCat nvec))) (VList ps) (us ++ ur) = Ok (VList Xs, ur) /\ drawings (map (fun n => SpDiscrete n 0) nvec) ps us Xs Ys /\ valueds (map (fun n => SpDiscrete n 0) nvec) ps Ys (map CInt zs) r /\
    c_post (PNode KMulti (enum (map PCat nvec))) (VList Xs) (gs ++ gr) = Ok (CInts zs, gr).
Proof.
  intros nvec ps us gs ur gr NE HN FP Lu HU Lg Hg. destruct (multi_drawn nvec us Lu HU) as (uss & -> & FU). pose proof (Forall2_len FP) as LP.
  destruct (@draw_node KMulti _ _ (seq 0 (length nvec)) ps uss gs ur gr (@draw_multi nvec NE HN)) as (Xs & Ys & xs & x & r & E1 & D & V & E2 & HA); auto.
  - now rewrite seq_length, map_length.
  - cbn. now rewrite seq_length.
  - intros _. split; [destruct nvec; [congruence|discriminate]|]. intros d Hd. apply in_map_iff in Hd. destruct Hd as (n & <- & _). exact I.
  - now apply multi_fits.
  - now rewrite ties_multi.
  - inversion HA as [ks zs NZ| |]; subst. pose proof (drawings_len D) as LX. rewrite map_length in LX. cbn [build] in *. rewrite !map_snd_combine in * by (rewrite seq_length; lia). exists Xs, Ys, zs, r. unfold enum. rewrite map_length. auto.
Qed.

Lemma draw_all : forall sp, supported sp -> zero_based sp -> exists d, mk sp = Ok d /\ drawable sp d.
Proof.
  induction sp as [n s|bs|nv|n|l IH|l IH|] using pspace_ind2; intros HS HZ.
  - exists (PCat n). split; [reflexivity|]. cbn in HZ. subst s. now apply draw_cat.
  - destruct (proj2 (mk_box bs)) as (d & E); [intros [lo hi] Hb; apply (HS lo hi Hb)|]. exists d. split; auto. now apply draw_box.
  - destruct HS as [NE HN]. eexists. split; [reflexivity|]. intros p us gs ur gr (ps & -> & FP) [Lu HU] Lg Hg. destruct (@draw_ints nv ps us gs ur gr) as (Xs & Ys & zs & r & E1 & D & V & E2); auto. exists (VList Xs), (VList Ys), (CInts zs), r. split; [auto|]. split; [now constructor|]. split; auto. split; [now constructor|]. intros [].
  - cbn in HS. cbn [mk]. rewrite binary_dists. eexists. split; [reflexivity|]. intros p us gs ur gr (ps & -> & LP & FP) [Lu HU] Lg Hg. cbn [size ties] in *. rewrite <- nsum_twos in Lu, Lg.
    destruct (@draw_ints (repeat 2%nat n) ps us gs ur gr) as (Xs & Ys & zs & r & E1 & D & V & E2); auto.
    + destruct n; [lia|discriminate].
    + intros m Hm. apply repeat_spec in Hm. lia.
    + now apply (@repeat_F2 nat pv (fun n q => exists z, logits_of n q z)).
    + exists (VList Xs), (VList Ys), (CInts zs), r. split; [auto|]. split; [now constructor|]. split; auto. split; [now constructor|]. intros [].
  - apply supported_tuple in HS. apply zero_tuple in HZ. assert (exists ds, mk_list l = Ok ds /\ Forall2 drawable l ds) as (ds & E & F).
    { clear - IH HS HZ. induction l as [|s l IHl]; [exists []; split; [reflexivity|constructor]|]. inversion IH; subst. inversion HS; subst. inversion HZ; subst. destruct H1 as (d & E1 & M1); auto. destruct IHl as (ds & E2 & M2); auto. exists (d :: ds). cbn [mk_list]. rewrite E1. cbn [bind]. rewrite E2. split; [reflexivity|]. now constructor. }
    rewrite mk_tuple_eq, E. cbn [bind]. eexists. split; [reflexivity|]. intros p us gs ur gr HF HD Lg Hg. apply fits_tuple in HF. destruct HF as (ps & -> & FP). apply drawn_tuple in HD. destruct HD as (uss & -> & FU). pose proof (Forall2_len FP) as LP. pose proof (Forall2_len F) as LD.
    destruct (@draw_node KTuple _ _ (seq 0 (length ds)) ps uss gs ur gr F) as (Xs & Ys & xs & x & r & E1 & D & V & E2 & HA); auto.
    + apply seq_length.
    + cbn. now rewrite seq_length.
    + discriminate.
    + inversion HA; subst. pose proof (drawings_len D) as LX. cbn [build] in *. rewrite !map_snd_combine in * by (rewrite seq_length; lia). exists (VList Xs), (VList Ys), (CTuple xs), r. unfold enum. split; auto. split; [now constructor|]. split; auto. split; [now constructor|]. intros [].
  - apply supported_dict in HS. destruct HS as [ND HS]. apply zero_dict in HZ. assert (exists ds, mk_dict l = Ok ds /\ map fst ds = map fst l /\ Forall2 drawable (map snd l) (map snd ds)) as (ds & E & EK & F).
    { clear - IH HS HZ. induction l as [|[k s] l IHl]; [exists []; split; [reflexivity|split; [reflexivity|constructor]]|]. inversion IH; subst. cbn in HS, HZ. inversion HS; subst. inversion HZ; subst. destruct H1 as (d & E1 & M1); auto. destruct IHl as (ds & E2 & K2 & M2); auto. exists ((k, d) :: ds). cbn [mk_dict]. cbn [snd] in E1. rewrite E1. cbn [bind]. rewrite E2. split; [reflexivity|]. cbn. split; [now rewrite K2|]. now constructor. }
    rewrite mk_dict_eq, E. cbn [bind]. eexists. split; [reflexivity|]. intros p us gs ur gr HF HD Lg Hg. apply fits_dict in HF. destruct HF as (ps & -> & KP & FP). apply drawn_dict in HD. destruct HD as (uss & -> & FU). pose proof (Forall2_len FP) as LP. pose proof (Forall2_len F) as LD. rewrite !map_length in *.
    assert (EL : l = combine (map fst l) (map snd l)) by (now rewrite combine_fst_snd). assert (ED : ds = combine (map fst l) (map snd ds)) by (now rewrite <- EK, combine_fst_snd). assert (EP : ps = combine (map fst l) (map snd ps)) by (now rewrite <- KP, combine_fst_snd).
    destruct (@draw_node KDict _ _ (map fst l) (map snd ps) uss gs ur gr F) as (Xs & Ys & xs & x & r & E1 & D & V & E2 & HA); auto.
    + now rewrite !map_length.
    + discriminate.
    + cbn [ties] in Lg. rewrite Lg. now rewrite map_map.
    + inversion HA; subst. cbn [build] in *. rewrite <- ED in E1, E2. rewrite <- EP in E1. exists (VDict (combine (map fst l) Xs)), (VDict (combine (map fst l) Ys)), (CDict (combine (map fst l) xs)), r. split; auto.
      assert (LL : length (map fst l) = length (map snd l)) by now rewrite !map_length. split; [|split; auto; split; [|intros []]].
      * pose proof (@dr_dict (map fst l) (map snd l) (map snd ps) (concat uss) Xs Ys LL D) as Q. now rewrite <- EL, <- EP in Q.
      * pose proof (@val_dict (map fst l) (map snd l) (map snd ps) Ys xs r ND LL V) as Q. now rewrite <- EL, <- EP in Q.
  - destruct HS.
Qed.
