(** Composite distributions: all supported spaces, boxes included. *)
From Coq Require Import List ZArith Lia Bool Reals Lra.
From Verif Require Import PyCommon CommonProofs UtilsModel UtilsSpec UtilsProofs2 UtilsProofs3 WrappersModel WrappersProofs TDSpec TDProofs DistModel DistSpec DistProofs DistProofs2 PolicySpec PolicyProofs3 MeanSpec MeanProofs CompModel CompSpec CompProofs CompProofs2 CompProofs3 CompProofs4.
Import ListNotations.
Set Implicit Arguments.
Local Open Scope R_scope.

Lemma zero_tuple : forall l, zero_based (SpTuple l) <-> Forall zero_based l. Proof. intros l. apply (all_list zero_based). Qed.
Lemma zero_dict : forall l, zero_based (SpDict l) <-> Forall zero_based (map snd l). Proof. intros l. apply (all_dict zero_based). Qed.
Lemma variate_tuple : forall l p, variate (SpTuple l) p <-> exists ps, p = VList ps /\ Forall2 variate l ps.
Proof. intros l p. split; intros (ps & -> & H); exists ps; (split; [reflexivity|]); now apply (both_list variate). Qed.
Lemma variate_dict : forall l p, variate (SpDict l) p <-> exists ps, p = VDict ps /\ map fst ps = map fst l /\ Forall2 variate (map snd l) (map snd ps).
Proof. intros l p. split; intros (ps & -> & H); exists ps; (split; [reflexivity|]); now apply (both_dict variate). Qed.
Lemma drawn_tuple : forall l us, drawn (SpTuple l) us <-> exists uss, us = concat uss /\ Forall2 drawn l uss.
Proof. intros l p. split; intros (ps & -> & H); exists ps; (split; [reflexivity|]); now apply (both_list drawn). Qed.
Lemma drawn_dict : forall l us, drawn (SpDict l) us -> exists uss, us = concat uss /\ Forall2 drawn (map snd l) uss.
Proof. intros l p (ps & -> & H). exists (map snd ps). split; auto. apply (both_dict drawn) in H. apply H. Qed.

(** What holds for a space and the distribution made for it. *)
Record good (zb : bool) (sp : pspace) (d : pdist) : Prop := mkGood {
  g_sample : forall p us ur, fits sp p -> drawn sp us -> exists X, c_sample d p (us ++ ur) = Ok (X, ur) /\ variate sp X;
  g_mode : forall p, fits sp p -> exists X, c_mode d p = Ok X /\ variate sp X;
  g_mean : forall p, fits sp p -> exists X, c_mean d p = Ok X /\ variate sp X;
  g_post : forall X gs gr, variate sp X -> length gs = ties sp -> quiet gs -> exists x, c_post d X (gs ++ gr) = Ok (x, gr) /\ (zb = true -> inside sp x) /\ (is_cat d -> exists z, x = CInt z);
  g_logp : forall p X, fits sp p -> variate sp X -> exists r, c_log_proba d p X = Ok r;
  g_pre : forall x, inside sp x -> exists X, c_pre d x = Ok X /\ variate sp X;
  g_prior : fits sp (c_priors d) }.

Lemma zipw_len : forall (f : R -> R -> R) l m, length l = length m -> length (zipw f l m) = length l.
Proof. intros f l. induction l as [|x l IH]; intros [|y m] H; cbn in *; try lia. rewrite IH; lia. Qed.

Lemma good_cat : forall zb n s, (1 <= n)%nat -> (zb = true -> s = 0%Z) -> good zb (SpDiscrete n s) (PCat n).
Proof.
  intros zb n s Hn Hs. assert (T : 0 < tau_default) by (unfold tau_default; lra). split.
  - intros p us ur (z & -> & Lz) [Lu HU]. cbn [size] in Lu. destruct (@sample_spec n tau_default z us) as (x & Ex & Lx & _); auto. exists (VArr x). cbn [c_sample array_at item lookup logits_key Nat.eqb bind].
    assert (F1 : firstn n (us ++ ur) = us) by (rewrite <- Lu; apply firstn_app_exact). assert (F2 : skipn n (us ++ ur) = ur) by (rewrite <- Lu; apply skipn_app_exact). rewrite F1, F2, Ex. split; [reflexivity|]. exists x; auto.
  - intros p (z & -> & Lz). destruct (@mode_spec n tau_default z) as (x & Ex & Lx & _); auto. exists (VArr x). unfold c_mode. cbn [c_each array_at item lookup logits_key Nat.eqb bind]. rewrite Ex. split; [reflexivity|]. exists x; auto.
  - intros p (z & -> & Lz). exists (VArr (softmax z)). unfold c_mean. cbn [c_each array_at item lookup logits_key Nat.eqb bind]. unfold cat_mean. rewrite (check_ok _ Lz). split; [reflexivity|]. exists (softmax z). split; auto. now rewrite softmax_length.
  - intros X gs gr (x & -> & Lx) Lg Hg. cbn [ties size] in Lg. assert (NE : x <> []) by (intros C; rewrite C in Lx; cbn in Lx; lia). destruct (@argmax_spec x gs) as (b & Eb & Hb & _); auto; [lia|].
    exists (CInt (Z.of_nat b)). cbn [c_post]. assert (F3 : firstn n (gs ++ gr) = gs) by (rewrite <- Lg; apply firstn_app_exact). assert (F4 : skipn n (gs ++ gr) = gr) by (rewrite <- Lg; apply skipn_app_exact). rewrite F3, F4. unfold cat_post. rewrite Lx, Nat.eqb_refl, Eb. split; [reflexivity|]. split; [|eauto]. intros Z. rewrite (Hs Z). cbn [inside]. lia.
  - intros p X (z & -> & Lz) (x & -> & Lx). cbn [c_log_proba as_array bind array_at item lookup logits_key Nat.eqb]. unfold cat_log_proba. rewrite (check_ok _ Lx), (check_ok _ Lz). cbn [bind]. eauto.
  - intros x HI. destruct x as [z| | | |]; try contradiction. exists (VArr (onehot_z n z)). split; [reflexivity|]. exists (onehot_z n z). split; auto. unfold onehot_z. now rewrite map_length, seq_length.
  - exists (repeat 0 n). split; [reflexivity|apply repeat_length].
Qed.

Lemma good_box : forall zb bs d, mk (SpBox bs) = Ok d -> good zb (SpBox bs) d.
Proof.
  intros zb bs d E. cbn [mk] in E. destruct (map_outcome _ bs) as [ys|] eqn:E1; [|discriminate]. injection E as <-. apply map_outcome_ok in E1. pose proof (Forall2_len E1) as L. split.
  - intros p us ur (mu & lv & -> & Lm & Lv) Lu. cbn [drawn] in Lu. cbn [c_sample np_at array_at item lookup mu_key logvar_key Nat.eqb bind nd_of].
    assert (F1 : firstn (length ys) (us ++ ur) = us) by (rewrite <- L, <- Lu; apply firstn_app_exact). assert (F2 : skipn (length ys) (us ++ ur) = ur) by (rewrite <- L, <- Lu; apply skipn_app_exact). rewrite F1, F2. unfold n_sample, check_logvar. cbn [n_mu n_logvar nd_dim nd_clo nd_chi].
    assert (Lm' : length mu = length ys) by lia. assert (Lv' : length lv = length ys) by lia. change (nd_dim (nd_of ys)) with (length ys). rewrite (check_ok _ Lm'), (check_ok _ Lv'). cbn [bind]. eexists. split; [reflexivity|]. eexists. split; [reflexivity|]. rewrite !zipw_len; rewrite ?map_length, ?zipw_len; rewrite ?map_length; lia.
  - intros p (mu & lv & -> & Lm & Lv). unfold c_mode. cbn [c_each]. unfold norm_mean. cbn [array_at item lookup mu_key logvar_key Nat.eqb bind]. assert (Lm' : length mu = length ys) by lia. rewrite (check_ok _ Lm'). exists (VArr mu). split; [reflexivity|]. exists mu. auto.
  - intros p (mu & lv & -> & Lm & Lv). unfold c_mean. cbn [c_each]. unfold norm_mean. cbn [array_at item lookup mu_key logvar_key Nat.eqb bind]. assert (Lm' : length mu = length ys) by lia. rewrite (check_ok _ Lm'). exists (VArr mu). split; [reflexivity|]. exists mu. auto.
  - intros X gs gr (x & -> & Lx) Lg Hg. cbn [ties] in Lg. destruct gs; [|discriminate]. cbn [app c_post]. assert (Lx' : length x = length ys) by lia. rewrite Lx', Nat.eqb_refl. eexists. split; [reflexivity|]. split; [|intros []]. intros _. cbn [inside].
    set (f := fun bx : R * R * R => n_post (fst (fst bx)) (snd (fst bx)) (-30) 30 (snd bx)). clear Lx Lg Hg gr L. revert x Lx'. induction E1 as [|[lo hi] [l h] bs ys H F IH]; intros [|x0 x] Lx; cbn [length] in Lx; try lia; [split; [reflexivity|]; intros i Hi; cbn in Hi; lia|].
    destruct (IH x) as [I1 I2]; [lia|]. cbn [combine map length]. split; [now rewrite I1|]. intros [|i] Hi.
    + cbn [nth fst snd] in *. unfold f at 1 2. cbn [fst snd]. unfold n_bounds in H. destruct (Rlt_dec _ _) as [B|]; [|discriminate]. injection H as El Eh. rewrite El, Eh in B. unfold n_post. pose proof (sigmoid_bounds (clip x0 (-30) 30)) as S. split.
      * destruct lo as [b|]; auto. pose proof (Rmax_l b (-256)). nra.
      * destruct hi as [b|]; auto. pose proof (Rmin_l b 256). nra.
    + cbn [nth]. apply I2. cbn in Hi. lia.
  - intros p X (mu & lv & -> & Lm & Lv) (x & -> & Lx). cbn [c_log_proba as_array np_at array_at item lookup mu_key logvar_key Nat.eqb bind nd_of]. unfold n_log_proba, check_logvar. cbn [n_mu n_logvar nd_dim nd_clo nd_chi]. assert (Lm' : length mu = length ys) by lia. assert (Lv' : length lv = length ys) by lia. assert (Lx' : length x = length ys) by lia. change (nd_dim (nd_of ys)) with (length ys). rewrite (check_ok _ Lm'), (check_ok _ Lv'), (check_ok _ Lx'). cbn [bind]. eauto.
  - intros x HI. destruct x as [|v| | |]; try contradiction. destruct HI as [Lv _]. cbn [c_pre]. replace (length v =? length ys)%nat with true by (symmetry; apply Nat.eqb_eq; lia). eexists. split; [reflexivity|]. eexists. split; [reflexivity|]. rewrite map_length, combine_length. lia.
  - exists (repeat 0 (length ys)), (repeat 0 (length ys)). rewrite !repeat_length. cbn [c_priors]. auto.
Qed.

(** Lists of components. *)
Record good_list (zb : bool) (ss : list pspace) (l : list (nat * pdist)) : Prop := mkGoodList {
  gl_sample : forall ps us ur kd P, Forall2 fits ss ps -> (exists uss, us = concat uss /\ Forall2 drawn ss uss) -> Forall2 (fun kd' p => part kd (fst kd') P = Ok p) l ps -> exists Xs, sample_list kd P l (us ++ ur) = Ok (combine (map fst l) Xs, ur) /\ Forall2 variate ss Xs;
  gl_mode : forall ps kd P, Forall2 fits ss ps -> Forall2 (fun kd' p => part kd (fst kd') P = Ok p) l ps -> exists Xs, each_list (fun n z => cat_mode n tau_default z) norm_mean kd P l = Ok (combine (map fst l) Xs) /\ Forall2 variate ss Xs;
  gl_mean : forall ps kd P, Forall2 fits ss ps -> Forall2 (fun kd' p => part kd (fst kd') P = Ok p) l ps -> exists Xs, each_list cat_mean norm_mean kd P l = Ok (combine (map fst l) Xs) /\ Forall2 variate ss Xs;
  gl_post : forall Xs gs gr kd Y, Forall2 variate ss Xs -> length gs = nsum (map ties ss) -> quiet gs -> Forall2 (fun kd' X => part kd (fst kd') Y = Ok X) l Xs -> exists xs, post_list kd Y l (gs ++ gr) = Ok (combine (map fst l) xs, gr) /\ length xs = length l /\ (zb = true -> Forall2 inside ss xs) /\ ((forall k d, In (k, d) l -> is_cat d) -> exists zs, xs = map CInt zs);
  gl_logp : forall ps Xs kd P Y, Forall2 fits ss ps -> Forall2 variate ss Xs -> Forall2 (fun kd' p => part kd (fst kd') P = Ok p) l ps -> Forall2 (fun kd' X => part kd (fst kd') Y = Ok X) l Xs -> exists r, logp_list kd P Y l = Ok r;
  gl_pre : forall xs kd c, Forall2 inside ss xs -> Forall2 (fun kd' x => cpart kd (fst kd') c = Ok x) l xs -> exists Xs, pre_list kd c l = Ok (combine (map fst l) Xs) /\ Forall2 variate ss Xs;
  gl_prior : Forall2 fits ss (map (fun kd' => c_priors (snd kd')) l) }.

Lemma good_lists : forall zb ss ds, Forall2 (good zb) ss ds -> forall ks, length ks = length ds -> good_list zb ss (combine ks ds).
Proof.
  intros zb ss ds F. induction F as [|s d ss ds H F IH]; intros ks L.
  - destruct ks; [|discriminate]. cbn [combine]. split.
    + intros ps us ur kd P F1 (uss & -> & F2) _. inversion F2; subst. exists []. split; [reflexivity|constructor].
    + intros. exists []. split; [reflexivity|constructor].
    + intros. exists []. split; [reflexivity|constructor].
    + intros Xs gs gr kd Y F1 Lg _ _. destruct gs; [|discriminate]. exists []. split; [reflexivity|]. split; [reflexivity|]. split; [constructor|]. exists []. reflexivity.
    + intros. exists 0. reflexivity.
    + intros. exists []. split; [reflexivity|constructor].
    + constructor.
  - destruct ks as [|k ks]; [discriminate|]. injection L as L. specialize (IH ks L). cbn [combine]. split.
    + intros ps us ur kd P F1 (uss & -> & F2) G. destruct ps as [|p ps]; [inversion F1|]. destruct uss as [|u uss]; [inversion F2|]. apply F2cons in F1. apply F2cons in F2. apply F2cons in G. destruct F1 as [A1 F1], F2 as [A2 F2], G as [A3 G]. cbn [fst] in A3.
      destruct (@g_sample _ _ _ H p u (concat uss ++ ur) A1 A2) as (X & EX & VX). destruct (@gl_sample _ _ _ IH ps (concat uss) ur kd P F1 (ex_intro _ uss (conj eq_refl F2)) G) as (Xs & EXs & VXs). exists (X :: Xs). split; [|constructor; auto]. cbn [sample_list map combine fst concat]. rewrite A3. cbn [bind]. rewrite <- app_assoc, EX. cbn [bind fst snd]. rewrite EXs. reflexivity.
    + intros ps kd P F1 G. destruct ps as [|p ps]; [inversion F1|]. apply F2cons in F1. apply F2cons in G. destruct F1 as [A1 F1], G as [A3 G]. cbn [fst] in A3. destruct (@g_mode _ _ _ H p A1) as (X & EX & VX). destruct (@gl_mode _ _ _ IH ps kd P F1 G) as (Xs & EXs & VXs). exists (X :: Xs). split; [|constructor; auto]. cbn [each_list map combine fst]. rewrite A3. cbn [bind]. unfold c_mode in EX. rewrite EX. cbn [bind]. rewrite EXs. reflexivity.
    + intros ps kd P F1 G. destruct ps as [|p ps]; [inversion F1|]. apply F2cons in F1. apply F2cons in G. destruct F1 as [A1 F1], G as [A3 G]. cbn [fst] in A3. destruct (@g_mean _ _ _ H p A1) as (X & EX & VX). destruct (@gl_mean _ _ _ IH ps kd P F1 G) as (Xs & EXs & VXs). exists (X :: Xs). split; [|constructor; auto]. cbn [each_list map combine fst]. rewrite A3. cbn [bind]. unfold c_mean in EX. rewrite EX. cbn [bind]. rewrite EXs. reflexivity.
    + intros Xs gs gr kd Y F1 Lg Hg G. destruct Xs as [|X Xs]; [inversion F1|]. apply F2cons in F1. apply F2cons in G. destruct F1 as [A1 F1], G as [A3 G]. cbn [fst] in A3. cbn [map nsum fold_right] in Lg. fold (nsum (map ties ss)) in Lg. set (m := ties s) in *.
      assert (Lg1 : length (firstn m gs) = m) by (rewrite firstn_length; lia). assert (Lg2 : length (skipn m gs) = nsum (map ties ss)) by (rewrite skipn_length; lia).
      destruct (@g_post _ _ _ H X (firstn m gs) (skipn m gs ++ gr) A1 Lg1 (quiet_firstn m Hg)) as (x & Ex & Ix & Cx). destruct (@gl_post _ _ _ IH Xs (skipn m gs) gr kd Y F1 Lg2 (quiet_skipn m Hg) G) as (xs & Exs & Lxs & Ixs & Cxs). rewrite app_assoc, firstn_skipn in Ex.
      exists (x :: xs). cbn [post_list map combine fst length]. rewrite A3. cbn [bind]. rewrite Ex. cbn [bind fst snd]. rewrite Exs. split; [reflexivity|]. split; [now rewrite Lxs|]. split; [intros Z; constructor; auto|]. intros C. destruct Cx as [z ->]; [apply (C k); now left|]. destruct Cxs as [zs ->]; [intros; apply (C k0); now right|]. exists (z :: zs). reflexivity.
    + intros ps Xs kd P Y F1 F2 G1 G2. destruct ps as [|p ps]; [inversion F1|]. destruct Xs as [|X Xs]; [inversion F2|]. apply F2cons in F1. apply F2cons in F2. apply F2cons in G1. apply F2cons in G2. destruct F1 as [A1 F1], F2 as [A2 F2], G1 as [A3 G1], G2 as [A4 G2]. cbn [fst] in *. destruct (@g_logp _ _ _ H p X A1 A2) as (r & Er). destruct (@gl_logp _ _ _ IH ps Xs kd P Y F1 F2 G1 G2) as (r' & Er'). exists (r + r'). cbn [logp_list]. rewrite A3. cbn [bind]. rewrite A4. cbn [bind]. rewrite Er. cbn [bind]. rewrite Er'. reflexivity.
    + intros xs kd c F1 G. destruct xs as [|x xs]; [inversion F1|]. apply F2cons in F1. apply F2cons in G. destruct F1 as [A1 F1], G as [A3 G]. cbn [fst] in A3. destruct (@g_pre _ _ _ H x A1) as (X & EX & VX). destruct (@gl_pre _ _ _ IH xs kd c F1 G) as (Xs & EXs & VXs). exists (X :: Xs). split; [|constructor; auto]. cbn [pre_list map combine fst]. rewrite A3. cbn [bind]. rewrite EX. cbn [bind]. rewrite EXs. reflexivity.
    + cbn [map snd]. constructor; [apply (g_prior H)|apply (gl_prior IH)].
Qed.

(** How a node is put together. *)
Lemma good_node : forall zb sp ss kd l, good_list zb ss l -> length l = length ss -> keys_ok kd (map fst l) -> (kd = KMulti -> l <> [] /\ forall k d, In (k, d) l -> is_cat d) ->
  (forall p, fits sp p <-> exists ps, p = build kd (combine (map fst l) ps) /\ Forall2 fits ss ps) -> (forall X, variate sp X <-> exists Xs, X = build kd (combine (map fst l) Xs) /\ Forall2 variate ss Xs) ->
  (forall us, drawn sp us -> exists uss, us = concat uss /\ Forall2 drawn ss uss) -> ties sp = nsum (map ties ss) ->
  (forall x xs, assembled kd (map fst l) xs x -> Forall2 inside ss xs -> inside sp x) -> (forall x, inside sp x -> exists xs, assembled kd (map fst l) xs x /\ Forall2 inside ss xs) ->
  good zb sp (PNode kd l).
Proof.
  intros zb sp ss kd l GL LL HK HM Hf Hv Hd Ht Ha Hi.
  assert (PT : forall ps, length ps = length ss -> Forall2 (fun kd' p => part kd (fst kd') (build kd (combine (map fst l) ps)) = Ok p) l ps). { intros ps L. apply (@Forall2_fst _ _ (fun k p => part kd k (build kd (combine (map fst l) ps)) = Ok p)), build_parts; auto. rewrite map_length. lia. }
  split.
  - intros p us ur HF HD. apply Hf in HF. destruct HF as (ps & -> & F). apply Hd in HD. assert (LP : length ps = length ss) by (symmetry; eapply Forall2_len; eauto). destruct (@gl_sample _ _ _ GL ps us ur kd _ F HD (PT ps LP)) as (Xs & E & V). exists (build kd (combine (map fst l) Xs)). rewrite sample_node, E. split; [reflexivity|]. apply Hv. eauto.
  - intros p HF. apply Hf in HF. destruct HF as (ps & -> & F). assert (LP : length ps = length ss) by (symmetry; eapply Forall2_len; eauto). destruct (@gl_mode _ _ _ GL ps kd _ F (PT ps LP)) as (Xs & E & V). exists (build kd (combine (map fst l) Xs)). unfold c_mode. rewrite each_node, E. split; [reflexivity|]. apply Hv. eauto.
  - intros p HF. apply Hf in HF. destruct HF as (ps & -> & F). assert (LP : length ps = length ss) by (symmetry; eapply Forall2_len; eauto). destruct (@gl_mean _ _ _ GL ps kd _ F (PT ps LP)) as (Xs & E & V). exists (build kd (combine (map fst l) Xs)). unfold c_mean. rewrite each_node, E. split; [reflexivity|]. apply Hv. eauto.
  - intros X gs gr HV Lg Hg. apply Hv in HV. destruct HV as (Xs & -> & F). rewrite Ht in Lg. assert (LP : length Xs = length ss) by (symmetry; eapply Forall2_len; eauto). destruct (@gl_post _ _ _ GL Xs gs gr kd _ F Lg Hg (PT Xs LP)) as (xs & E & L & HI & HC). assert (LX : length (map fst l) = length xs) by (rewrite map_length; auto). rewrite post_node, E. cbn [bind fst snd]. destruct kd.
    + destruct HM as [NE HM]; auto. destruct (HC HM) as [zs ->]. assert (NZ : zs <> []) by (intros ->; destruct l; [congruence|cbn in L; lia]). rewrite map_snd_combine by auto. rewrite stack_ints_ok by auto. eexists. split; [reflexivity|]. split; [|intros []]. intros Z. eapply Ha; [constructor; auto|auto].
    + rewrite map_snd_combine by auto. eexists. split; [reflexivity|]. split; [|intros []]. intros Z. eapply Ha; [constructor; auto|auto].
    + eexists. split; [reflexivity|]. split; [|intros []]. intros Z. eapply Ha; [constructor; auto|auto].
  - intros p X HF HV. apply Hf in HF. destruct HF as (ps & -> & F). apply Hv in HV. destruct HV as (Xs & -> & G). assert (LP : length ps = length ss) by (symmetry; eapply Forall2_len; eauto). assert (LX : length Xs = length ss) by (symmetry; eapply Forall2_len; eauto). rewrite logp_node. apply (@gl_logp _ _ _ GL ps Xs kd _ _ F G (PT ps LP) (PT Xs LX)).
  - intros x HI. apply Hi in HI. destruct HI as (xs & HA & F). assert (LX : length (map fst l) = length xs) by (rewrite map_length; apply Forall2_len in F; lia). assert (FC : Forall2 (fun kd' y => cpart kd (fst kd') x = Ok y) l xs) by (apply (@Forall2_fst _ _ (fun k y => cpart kd k x = Ok y)), assembled_parts with (cs := xs); auto).
    destruct (@gl_pre _ _ _ GL xs kd x F FC) as (Xs & E & V). exists (build kd (combine (map fst l) Xs)). rewrite pre_node, E. split; [reflexivity|]. apply Hv. eauto.
  - apply Hf. exists (map (fun kd' => c_priors (snd kd')) l). split; [|apply (gl_prior GL)]. cbn [c_priors]. f_equal. clear. induction l as [|[k d] l IH]; cbn; [reflexivity|]. now rewrite IH.
Qed.

Lemma concat_split : forall (ns : list nat) (us : list R), length us = nsum ns -> exists uss, us = concat uss /\ Forall2 (fun n u => length u = n) ns uss.
Proof.
  induction ns as [|n ns IH]; intros us L; cbn in L; [exists []; destruct us; [split; [reflexivity|constructor]|discriminate]|]. destruct (IH (skipn n us)) as (uss & E & F); [rewrite skipn_length; unfold nsum; lia|]. exists (firstn n us :: uss). split; [cbn; rewrite <- E; symmetry; apply firstn_skipn|]. constructor; auto. rewrite firstn_length. unfold nsum in *. lia.
Qed.
Lemma Forall2_map_eq : forall {A B} (f : B -> A) (l : list B) m, Forall2 (fun a b => a = f b) m l -> m = map f l.
Proof. intros A B f l m F. induction F; cbn; congruence. Qed.

Lemma good_multi : forall zb nvec, nvec <> [] -> (forall n, In n nvec -> (1 <= n)%nat) -> good zb (SpMultiDiscrete nvec) (PNode KMulti (enum (map PCat nvec))).
Proof.
  intros zb nvec NE Hn. set (ss := map (fun n => SpDiscrete n 0) nvec). assert (F : Forall2 (good zb) ss (map PCat nvec)). { unfold ss. clear NE. induction nvec as [|n nvec IH]; cbn; constructor; [apply good_cat; auto; apply Hn; now left|]. apply IH. intros; apply Hn; now right. }
  assert (LE : map fst (enum (map PCat nvec)) = seq 0 (length nvec)) by (rewrite enum_fst, map_length; reflexivity).
  assert (LS : length (seq 0 (length nvec)) = length nvec) by apply seq_length.
  apply good_node with (ss := ss).
  - apply good_lists; auto. now rewrite seq_length.
  - unfold enum, ss. rewrite combine_length, seq_length, !map_length. lia.
  - apply keys_enum. discriminate.
  - intros _. split; [unfold enum; destruct nvec; [congruence|discriminate]|]. intros k d Hin. apply in_combine_r in Hin. apply in_map_iff in Hin. destruct Hin as (n & <- & _). exact I.
  - intros p. rewrite LE. cbn [build fits]. unfold ss. split; intros (ps & -> & G); pose proof (Forall2_len G) as L; rewrite ?map_length in L; exists ps; (split; [rewrite map_snd_combine by lia; reflexivity|]); now apply (@Forall2_map_l _ _ _ fits (fun n => SpDiscrete n 0)).
  - intros p. rewrite LE. cbn [build variate]. unfold ss. split; intros (ps & -> & G); pose proof (Forall2_len G) as L; rewrite ?map_length in L; exists ps; (split; [rewrite map_snd_combine by lia; reflexivity|]); now apply (@Forall2_map_l _ _ _ variate (fun n => SpDiscrete n 0)).
  - intros us [L HU]. cbn [size] in L. destruct (concat_split nvec us L) as (uss & -> & G). exists uss. split; auto. unfold ss. apply Forall2_map_l. clear -G HU. induction G as [|n u nvec uss H G IH]; constructor; [split; auto; intros x Hx; apply HU; cbn; apply in_or_app; now left|]. apply IH. intros x Hx. apply HU. cbn. apply in_or_app. now right.
  - cbn [ties size]. unfold ss. rewrite map_map. cbn [ties size]. now rewrite map_id.
  - intros x xs HA G. inversion HA; subst. cbn [inside]. unfold ss in G. apply Forall2_map_l in G. clear -G. revert zs G. induction nvec as [|n nvec IH]; intros [|z zs] G; inversion G; subst; constructor; auto.
  - intros x HI. destruct x as [| |zs| |]; try contradiction. exists (map CInt zs). cbn [inside] in HI. split; [constructor; intros ->; inversion HI; subst; congruence|]. unfold ss. apply Forall2_map_l. clear -HI. induction HI; cbn; constructor; auto.
Qed.
Lemma repeat_F2 : forall {A B} (P : A -> B -> Prop) a n (l : list B), Forall2 P (repeat a n) l <-> length l = n /\ forall b, In b l -> P a b.
Proof.
  intros A B P a n l. revert n. induction l as [|b l IH]; intros [|n]; cbn [repeat length]; split; intros H.
  - split; [reflexivity|intros b []].
  - constructor.
  - inversion H.
  - destruct H; discriminate.
  - inversion H.
  - destruct H; discriminate.
  - apply F2cons in H. destruct H as [H1 H2]. apply IH in H2. destruct H2 as [<- H2]. split; auto. intros b' [<-|Hb]; auto.
  - destruct H as [L H]. injection L as L. constructor; [apply H; now left|]. apply IH. split; auto. intros b' Hb. apply H. now right.
Qed.
Lemma good_binary : forall zb n, (1 <= n)%nat -> good zb (SpMultiBinary n) (PNode KMulti (enum (map (fun _ => PCat 2) (seq 0 n)))).
Proof.
  intros zb n Hn. assert (E : map (fun _ => PCat 2) (seq 0 n) = map PCat (repeat 2%nat n)). { assert (G : forall s, map (fun _ => PCat 2) (seq s n) = map PCat (repeat 2%nat n)); [|apply G]. clear. induction n; intros s; cbn; [reflexivity|]. now rewrite IHn. }
  rewrite E. assert (NE : repeat 2%nat n <> []) by (destruct n; [lia|discriminate]). assert (H2 : forall m, In m (repeat 2%nat n) -> (1 <= m)%nat) by (intros m Hm; apply repeat_spec in Hm; lia).
  assert (SZ : nsum (repeat 2%nat n) = (2 * n)%nat) by (clear; induction n; cbn [repeat nsum fold_right]; [reflexivity|]; unfold nsum in *; lia).
  destruct (@good_multi zb _ NE H2) as [G1 G2 G3 G4 G5 G6 G7].
  assert (FI : forall p, fits (SpMultiBinary n) p <-> fits (SpMultiDiscrete (repeat 2%nat n)) p) by (intros p; cbn [fits]; split; intros (ps & -> & H); exists ps; (split; [reflexivity|]); now apply (@repeat_F2 nat pv (fun n q => exists z, logits_of n q z))).
  assert (VI : forall p, variate (SpMultiBinary n) p <-> variate (SpMultiDiscrete (repeat 2%nat n)) p) by (intros p; cbn [variate]; split; intros (ps & -> & H); exists ps; (split; [reflexivity|]); now apply (@repeat_F2 nat pv (fun n q => exists x, q = VArr x /\ length x = n))).
  assert (II : forall x, inside (SpMultiBinary n) x <-> inside (SpMultiDiscrete (repeat 2%nat n)) x). { intros x. cbn [inside]. destruct x as [| |zs| |]; try reflexivity. rewrite (@repeat_F2 nat Z (fun n z => (0 <= z < Z.of_nat n)%Z)). split; intros [L H]; split; auto; intros z Hz; apply H in Hz; [destruct Hz; subst; lia|lia]. }
  split.
  - intros p us ur HF HD. destruct (G1 p us ur) as (X & EX & VX); [now apply FI|cbn [drawn size] in *; now rewrite SZ|]. exists X. split; auto. now apply VI.
  - intros p HF. destruct (G2 p) as (X & EX & VX); [now apply FI|]. exists X. split; auto. now apply VI.
  - intros p HF. destruct (G3 p) as (X & EX & VX); [now apply FI|]. exists X. split; auto. now apply VI.
  - intros X gs gr HV Lg Hg. destruct (G4 X gs gr) as (x & Ex & Ix & Cx); auto; [now apply VI|cbn [ties size] in *; now rewrite SZ|]. exists x. split; auto. split; auto. intros Z. now apply II, Ix.
  - intros p X HF HV. apply G5; [now apply FI|now apply VI].
  - intros x HI. destruct (G6 x) as (X & EX & VX); [now apply II|]. exists X. split; auto. now apply VI.
  - now apply FI.
Qed.

Lemma good_all : forall zb sp, supported sp -> (zb = true -> zero_based sp) -> exists d, mk sp = Ok d /\ good zb sp d.
Proof.
  intros zb. induction sp as [n s|bs|nv|n|l IH|l IH|] using pspace_ind2; intros HS HZ.
  - exists (PCat n). split; [reflexivity|]. apply good_cat; auto.
  - destruct (proj2 (mk_box bs)) as (d & E); [intros [lo hi] Hb; apply (HS lo hi Hb)|]. exists d. split; auto. now apply good_box.
  - destruct HS. eexists. split; [reflexivity|]. now apply good_multi.
  - eexists. split; [reflexivity|]. now apply good_binary.
  - apply supported_tuple in HS. rewrite zero_tuple in HZ. assert (exists ds, mk_list l = Ok ds /\ Forall2 (good zb) l ds) as (ds & E & F).
    { clear - IH HS HZ. induction l as [|s l IHl]; [exists []; split; [reflexivity|constructor]|]. inversion IH; subst. inversion HS; subst. destruct H1 as (d & E1 & M1); auto; [intros Z; apply HZ in Z; now inversion Z|]. destruct IHl as (ds & E2 & M2); auto; [intros Z; apply HZ in Z; now inversion Z|]. exists (d :: ds). cbn [mk_list]. rewrite E1. cbn [bind]. rewrite E2. split; [reflexivity|]. now constructor. }
    rewrite mk_tuple_eq, E. cbn [bind]. eexists. split; [reflexivity|]. pose proof (Forall2_len F) as LD. assert (LE : map fst (enum ds) = seq 0 (length l)) by (rewrite enum_fst; f_equal; lia). assert (LS : length (seq 0 (length l)) = length l) by apply seq_length.
    apply good_node with (ss := l).
    + apply good_lists; auto. now rewrite seq_length.
    + unfold enum. rewrite combine_length, seq_length. lia.
    + apply keys_enum. discriminate.
    + discriminate.
    + intros p. rewrite LE, fits_tuple. cbn [build]. split; intros (ps & -> & G); pose proof (Forall2_len G) as L; exists ps; (split; [rewrite map_snd_combine by lia; reflexivity|auto]).
    + intros p. rewrite LE, variate_tuple. cbn [build]. split; intros (ps & -> & G); pose proof (Forall2_len G) as L; exists ps; (split; [rewrite map_snd_combine by lia; reflexivity|auto]).
    + intros us. apply drawn_tuple.
    + reflexivity.
    + intros x xs HA G. inversion HA; subst. now apply inside_tuple.
    + intros x HI. destruct x as [| | |cs|]; try contradiction. apply inside_tuple in HI. exists cs. split; auto. constructor.
  - apply supported_dict in HS. destruct HS as [ND HS]. rewrite zero_dict in HZ. assert (exists ds, mk_dict l = Ok ds /\ map fst ds = map fst l /\ Forall2 (good zb) (map snd l) (map snd ds)) as (ds & E & EK & F).
    { clear - IH HS HZ. induction l as [|[k s] l IHl]; [exists []; split; [reflexivity|split; [reflexivity|constructor]]|]. inversion IH; subst. cbn in HS. inversion HS; subst. destruct H1 as (d & E1 & M1); auto; [intros Z; apply HZ in Z; now inversion Z|]. destruct IHl as (ds & E2 & K2 & M2); auto; [intros Z; apply HZ in Z; now inversion Z|]. exists ((k, d) :: ds). cbn [mk_dict]. cbn [snd] in E1. rewrite E1. cbn [bind]. rewrite E2. split; [reflexivity|]. cbn. split; [now rewrite K2|]. now constructor. }
    rewrite mk_dict_eq, E. cbn [bind]. eexists. split; [reflexivity|]. pose proof (Forall2_len F) as LD. rewrite !map_length in LD. assert (LK : length (map fst l) = length l) by apply map_length.
    assert (FS : forall {A} (cs : list A), length cs = length l -> map fst (combine (map fst l) cs) = map fst l). { intros A cs. clear. revert cs. induction l as [|y l IHl]; intros [|z cs] L; cbn in *; try lia; auto. f_equal. apply IHl. lia. }
    apply good_node with (ss := map snd l).
    + rewrite <- (combine_fst_snd ds). apply good_lists; auto. now rewrite !map_length.
    + rewrite map_length. lia.
    + cbn. now rewrite EK.
    + discriminate.
    + intros p. rewrite EK, fits_dict. cbn [build]. split.
      * intros (ps & -> & K & G). exists (map snd ps). split; auto. now rewrite <- K, combine_fst_snd.
      * intros (ps & -> & G). pose proof (Forall2_len G) as L. rewrite map_length in L. exists (combine (map fst l) ps). split; auto. rewrite map_snd_combine by lia. split; auto.
    + intros p. rewrite EK, variate_dict. cbn [build]. split.
      * intros (ps & -> & K & G). exists (map snd ps). split; auto. now rewrite <- K, combine_fst_snd.
      * intros (ps & -> & G). pose proof (Forall2_len G) as L. rewrite map_length in L. exists (combine (map fst l) ps). split; auto. rewrite map_snd_combine by lia. split; auto.
    + intros us. apply drawn_dict.
    + cbn [ties]. now rewrite map_map.
    + intros x xs HA G. inversion HA; subst. pose proof (Forall2_len G) as L. rewrite map_length in L. apply inside_dict. rewrite EK, map_snd_combine by lia. split; auto.
    + intros x HI. destruct x as [| | | |cs]; try contradiction. apply inside_dict in HI. destruct HI as [K HI]. exists (map snd cs). split; auto. rewrite EK, <- K. rewrite <- (combine_fst_snd cs) at 3. constructor.
  - destruct HS.
Qed.
