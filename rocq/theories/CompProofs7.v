(** Composite distributions with boxes: the value of log_proba, the round trip, and the variates drawn. *)
From Coq Require Import List ZArith Lia Bool Reals Lra.
From Verif Require Import PyCommon CommonProofs UtilsModel UtilsSpec UtilsProofs2 UtilsProofs3 WrappersModel WrappersProofs TDSpec TDProofs DistModel DistSpec DistProofs DistProofs2 PolicySpec PolicyProofs3 MeanSpec MeanProofs CompModel CompSpec CompSpec2 CompProofs CompProofs2 CompProofs3 CompProofs4 CompProofs5 PolicyProofs4.
Import ListNotations.
Set Implicit Arguments.
Local Open Scope R_scope.

Scheme valued_mut := Induction for valued Sort Prop with valueds_mut := Induction for valueds Sort Prop.
Combined Scheme valued_ind2 from valued_mut, valueds_mut.

Lemma valueds_len : forall ss ps Ys xs r, valueds ss ps Ys xs r -> length ps = length ss /\ length Ys = length ss /\ length xs = length ss.
Proof. induction 1; cbn; auto. destruct IHvalueds as (I1 & I2 & I3). repeat split; congruence. Qed.
Lemma coords_len : forall bs mu lv ys xs r, coords bs mu lv ys xs r -> length mu = length bs /\ length lv = length bs /\ length ys = length bs /\ length xs = length bs.
Proof. induction 1; cbn; auto. destruct IHcoords as (I1 & I2 & I3 & I4). repeat split; congruence. Qed.
Lemma n_bounds_val : forall b l h, n_bounds (fst b) (snd b) (-256) 256 = Ok (l, h) -> l = lower b /\ h = upper b /\ l < h.
Proof. intros [lo hi] l h E. unfold n_bounds in E. cbn [fst snd] in E. destruct (Rlt_dec _ _) as [H|]; [|discriminate]. injection E as <- <-. unfold lower, upper. cbn [fst snd]. auto. Qed.
Lemma sigmoid_exp : forall y, sigmoid y = 1 / (1 + exp (- y)). Proof. intros y. unfold sigmoid. lra. Qed.

Definition vals (sp : pspace) (p Y : pv) (x : clean) (r : R) : Prop := forall d, mk sp = Ok d -> c_pre d x = Ok Y /\ c_log_proba d p Y = Ok r /\ (forall gs gr, length gs = ties sp -> quiet gs -> c_post d Y (gs ++ gr) = Ok (x, gr)).
Definition vals_list (ss : list pspace) (ps Ys : list pv) (xs : list clean) (r : R) : Prop := forall ds ks, Forall2 (fun s d => mk s = Ok d) ss ds -> length ks = length ds -> let l := combine ks ds in
  (forall kd c, Forall2 (fun kd' x => cpart kd (fst kd') c = Ok x) l xs -> pre_list kd c l = Ok (combine ks Ys)) /\
  (forall kd P Q, Forall2 (fun kd' p => part kd (fst kd') P = Ok p) l ps -> Forall2 (fun kd' X => part kd (fst kd') Q = Ok X) l Ys -> logp_list kd P Q l = Ok r) /\
  (forall kd Q gs gr, length gs = nsum (map ties ss) -> quiet gs -> Forall2 (fun kd' X => part kd (fst kd') Q = Ok X) l Ys -> post_list kd Q l (gs ++ gr) = Ok (combine ks xs, gr)).

Lemma fst_combine : forall {A B} (ks : list A) (l : list B), length ks = length l -> map fst (combine ks l) = ks.
Proof. intros A B ks. induction ks as [|k ks IH]; intros [|y l] L; cbn in *; try lia; auto. f_equal. apply IH. lia. Qed.

Lemma vals_node : forall kd ss ds ks ps Ys xs x r, vals_list ss ps Ys xs r -> Forall2 (fun s d => mk s = Ok d) ss ds -> length ks = length ds -> length ps = length ss -> length Ys = length ss -> length xs = length ss ->
  keys_ok kd ks -> assembled kd ks xs x ->
  c_pre (PNode kd (combine ks ds)) x = Ok (build kd (combine ks Ys)) /\ c_log_proba (PNode kd (combine ks ds)) (build kd (combine ks ps)) (build kd (combine ks Ys)) = Ok r /\
  (forall gs gr, length gs = nsum (map ties ss) -> quiet gs -> c_post (PNode kd (combine ks ds)) (build kd (combine ks Ys)) (gs ++ gr) = Ok (x, gr)).
Proof.
  intros kd ss ds ks ps Ys xs x r H F L Lp LY Lx HK HA. pose proof (Forall2_len F) as LD. destruct (H ds ks F L) as (H1 & H2 & H3).
  assert (K : map fst (combine ks ds) = ks) by (now apply fst_combine).
  assert (FP : Forall2 (fun kd' p => part kd (fst kd') (build kd (combine ks ps)) = Ok p) (combine ks ds) ps) by (apply (@Forall2_fst _ _ (fun k p => part kd k (build kd (combine ks ps)) = Ok p)); rewrite K; apply build_parts; auto; lia).
  assert (FY : Forall2 (fun kd' p => part kd (fst kd') (build kd (combine ks Ys)) = Ok p) (combine ks ds) Ys) by (apply (@Forall2_fst _ _ (fun k p => part kd k (build kd (combine ks Ys)) = Ok p)); rewrite K; apply build_parts; auto; lia).
  assert (FX : Forall2 (fun kd' y => cpart kd (fst kd') x = Ok y) (combine ks ds) xs) by (apply (@Forall2_fst _ _ (fun k y => cpart kd k x = Ok y)); rewrite K; apply assembled_parts; auto; lia).
  split; [rewrite pre_node, (H1 kd x FX); reflexivity|]. split; [rewrite logp_node; now apply H2|]. intros gs gr Lg Hg. rewrite post_node, (H3 kd _ gs gr Lg Hg FY). cbn [bind fst snd].
  assert (LX : length ks = length xs) by lia. destruct HA.
  - rewrite map_snd_combine by auto. rewrite stack_ints_ok by auto. reflexivity.
  - now rewrite map_snd_combine.
  - reflexivity.
Qed.

Lemma mk_multi_F2 : forall nvec, Forall2 (fun s d => mk s = Ok d) (map (fun n => SpDiscrete n 0) nvec) (map PCat nvec).
Proof. induction nvec; cbn; constructor; auto. Qed.
Lemma binary_dists : forall n, map (fun _ => PCat 2) (seq 0 n) = map PCat (repeat 2%nat n).
Proof. intros n. assert (G : forall s, map (fun _ => PCat 2) (seq s n) = map PCat (repeat 2%nat n)); [|apply G]. induction n; intros s; cbn; [reflexivity|]. now rewrite IHn. Qed.
Lemma ties_multi : forall nvec, nsum (map ties (map (fun n => SpDiscrete n 0) nvec)) = nsum nvec.
Proof. intros. rewrite map_map. cbn [ties size]. now rewrite map_id. Qed.
Lemma nsum_twos : forall n, nsum (repeat 2%nat n) = (2 * n)%nat.
Proof. induction n; cbn [repeat nsum fold_right]; [reflexivity|]. unfold nsum in *. lia. Qed.
Lemma mk_dict_combine : forall ks ss d, length ks = length ss -> mk (SpDict (combine ks ss)) = Ok d -> exists ds, d = PNode KDict (combine ks ds) /\ length ks = length ds /\ Forall2 (fun s d => mk s = Ok d) ss ds.
Proof.
  intros ks ss d L E. rewrite mk_dict_eq in E. destruct (mk_dict (combine ks ss)) as [l|] eqn:E1; [|discriminate]. injection E as <-. apply mk_dict_ok in E1. destruct E1 as [K F]. rewrite fst_combine in K by auto. rewrite map_snd_combine in F by auto.
  exists (map snd l). rewrite <- K. rewrite combine_fst_snd. split; [reflexivity|]. rewrite !map_length. split; auto.
Qed.

Lemma box_values : forall bs mu lv ys xs r, coords bs mu lv ys xs r -> forall bd, Forall2 (fun b y => n_bounds (fst b) (snd b) (-256) 256 = Ok y) bs bd ->
  map (fun bx => n_pre (fst (fst bx)) (snd (fst bx)) (snd bx)) (combine bd xs) = ys /\ map (fun bx => n_post (fst (fst bx)) (snd (fst bx)) (-30) 30 (snd bx)) (combine bd ys) = xs /\
  r = ln (DistSpec.product (joint mu (map (fun v => clip v (-20) 20) lv) ys)).
Proof.
  induction 1 as [|b bs m ms v vs y ys xs r Hb Hy HC IH]; intros bd F; inversion F as [|? [l h] ? bd' E F']; subst; [cbn; rewrite ln_1; auto|].
  destruct (n_bounds_val b E) as (-> & -> & _). destruct (IH bd' F') as (I1 & I2 & I3). cbn [combine map fst snd].
  assert (EX : lower b + (upper b - lower b) / (1 + exp (- y)) = n_post (lower b) (upper b) (-30) 30 y). { unfold n_post. rewrite clip_in by lra. rewrite sigmoid_exp. unfold Rdiv. ring. }
  rewrite EX. rewrite n_pre_post by auto. rewrite clip_in by lra. rewrite I1, I2. split; auto. split; auto. cbn [joint DistSpec.product fold_right map]. fold (DistSpec.product (joint ms (map (fun v => clip v (-20) 20) vs) ys)). rewrite I3. symmetry. unfold lv_used, clip.
  assert (P : forall m lv y, 0 < DistSpec.product (joint m lv y)). { clear. induction m as [|m ms IH]; intros [|v lv] [|y ys]; cbn; try lra. apply Rmult_lt_0_compat; [|apply IH]. unfold gauss. apply Rdiv_lt_0_compat; [apply exp_pos|]. apply sqrt_lt_R0. pose proof PI_RGT_0. pose proof (exp_pos v). nra. }
  apply ln_mult; [|apply P]. unfold gauss. apply Rdiv_lt_0_compat; [apply exp_pos|]. apply sqrt_lt_R0. pose proof PI_RGT_0. pose proof (exp_pos (Rmin (Rmax v (-20)) 20)). nra.
Qed.

Lemma valued_vals : (forall sp p Y x r, valued sp p Y x r -> vals sp p Y x r) /\ (forall ss ps Ys xs r, valueds ss ps Ys xs r -> vals_list ss ps Ys xs r).
Proof.
  apply valued_ind2.
  - intros n z a Hz Ha d E. injection E as <-. cbn [c_pre]. rewrite onehot_z_nat. split; [reflexivity|]. split.
    + cbn [c_log_proba as_array bind array_at item lookup logits_key Nat.eqb]. change (unit_vector n a) with (one_hot n a). apply logp_boltzmann; auto; lia.
    + intros gs gr Lg Hg. cbn [ties size] in Lg. cbn [c_post]. change (unit_vector n a) with (one_hot n a). assert (F3 : firstn n (gs ++ gr) = gs) by (rewrite <- Lg; apply firstn_app_exact). assert (F4 : skipn n (gs ++ gr) = gr) by (rewrite <- Lg; apply skipn_app_exact). rewrite F3, F4, cat_roundtrip by auto. reflexivity.
  - intros bs mu lv ys xs r HC d E. cbn [mk] in E. destruct (map_outcome _ bs) as [bd|] eqn:E1; [|discriminate]. injection E as <-. apply map_outcome_ok in E1. destruct (box_values HC E1) as (V1 & V2 & V3). destruct (coords_len HC) as (L1 & L2 & L3 & L4). pose proof (Forall2_len E1) as LB. split; [|split].
    + cbn [c_pre]. replace (length xs =? length bd)%nat with true by (symmetry; apply Nat.eqb_eq; lia). now rewrite V1.
    + cbn [c_log_proba as_array np_at array_at item lookup mu_key logvar_key Nat.eqb bind]. rewrite n_log_proba_spec; [|split; cbn; lia|cbn; lia]. rewrite V3. reflexivity.
    + intros gs gr Lg Hg. cbn [ties] in Lg. destruct gs; [|discriminate]. cbn [c_post app]. replace (length ys =? length bd)%nat with true by (symmetry; apply Nat.eqb_eq; lia). now rewrite V2.
  - intros nvec ps Ys zs r NE HV IH d E. injection E as <-. destruct (valueds_len HV) as (L1 & L2 & L3). rewrite !map_length in *. unfold enum. rewrite map_length.
    destruct (@vals_node KMulti _ _ (seq 0 (length nvec)) ps Ys (map CInt zs) (CInts zs) r IH (mk_multi_F2 nvec)) as (H1 & H2 & H3); rewrite ?seq_length, ?map_length; auto.
    + cbn. now rewrite seq_length.
    + constructor. destruct zs; [destruct nvec; [congruence|discriminate]|discriminate].
    + cbn [build] in *. rewrite !map_snd_combine in * by (rewrite seq_length; lia). split; auto. split; auto. intros gs gr Lg. apply H3. rewrite ties_multi. exact Lg.
  - intros n ps Ys zs r NE HV IH d E. cbn [mk] in E. rewrite binary_dists in E. injection E as <-. destruct (valueds_len HV) as (L1 & L2 & L3). rewrite !map_length, repeat_length in *. unfold enum. rewrite map_length, repeat_length.
    destruct (@vals_node KMulti _ _ (seq 0 n) ps Ys (map CInt zs) (CInts zs) r IH (mk_multi_F2 _)) as (H1 & H2 & H3); rewrite ?seq_length, ?map_length, ?repeat_length; auto.
    + cbn. now rewrite seq_length.
    + constructor. destruct zs; [cbn in L3; lia|discriminate].
    + cbn [build] in *. rewrite !map_snd_combine in * by (rewrite seq_length; lia). split; auto. split; auto. intros gs gr Lg. apply H3. rewrite ties_multi, nsum_twos. exact Lg.
  - intros ss ps Ys xs r HV IH d E. rewrite mk_tuple_eq in E. destruct (mk_list ss) as [ds|] eqn:E1; [|discriminate]. injection E as <-. apply mk_list_ok in E1. destruct (valueds_len HV) as (L1 & L2 & L3). pose proof (Forall2_len E1) as LD. unfold enum.
    destruct (@vals_node KTuple _ _ (seq 0 (length ds)) ps Ys xs (CTuple xs) r IH E1) as (H1 & H2 & H3); rewrite ?seq_length; auto.
    + cbn. now rewrite seq_length.
    + constructor.
    + cbn [build] in *. rewrite !map_snd_combine in * by (rewrite seq_length; lia). split; auto.
  - intros ks ss ps Ys xs r ND LK HV IH d E. destruct (mk_dict_combine _ _ LK E) as (ds & -> & LD & F). destruct (valueds_len HV) as (L1 & L2 & L3).
    destruct (@vals_node KDict _ _ ks ps Ys xs (CDict (combine ks xs)) r IH F LD) as (H1 & H2 & H3); auto.
    + constructor.
    + cbn [build] in *. split; auto. split; auto. intros gs gr Lg. apply H3. cbn [ties] in Lg. rewrite Lg. rewrite <- map_map. now rewrite map_snd_combine by auto.
  - intros ds ks F L. inversion F; subst. destruct ks; [|discriminate]. cbn. repeat split; auto. intros kd Q gs gr Lg Hg _. destruct gs; [reflexivity|discriminate].
  - intros s ss p ps Y Ys x xs r r' HV IH HVs IHs ds ks F L. inversion F as [|? d ? ds' E F']; subst. destruct ks as [|k ks]; [discriminate|]. injection L as L. destruct (IH d E) as (E1 & E2 & E3). destruct (IHs ds' ks F' L) as (H1 & H2 & H3). cbn [combine]. split; [|split].
    + intros kd c G. apply F2cons in G. destruct G as [F1 G]. cbn [fst] in F1. cbn [pre_list]. rewrite F1. cbn [bind]. rewrite E1. cbn [bind]. rewrite (H1 kd c G). reflexivity.
    + intros kd P Q G1 G2. apply F2cons in G1. apply F2cons in G2. destruct G1 as [F1 G1], G2 as [F2 G2]. cbn [fst] in *. cbn [logp_list]. rewrite F1, F2. cbn [bind]. rewrite E2. cbn [bind]. rewrite (H2 kd P Q G1 G2). reflexivity.
    + intros kd Q gs gr Lg Hg G. apply F2cons in G. destruct G as [G1 G]. cbn [fst] in *. cbn [map nsum fold_right] in Lg. fold (nsum (map ties ss)) in Lg. cbn [post_list]. rewrite G1. cbn [bind]. set (m := ties s) in *. assert (Lg1 : length (firstn m gs) = m) by (rewrite firstn_length; lia). assert (Lg2 : length (skipn m gs) = nsum (map ties ss)) by (rewrite skipn_length; lia).
      rewrite <- (firstn_skipn m gs), <- app_assoc. rewrite (E3 _ _ Lg1 (quiet_firstn m Hg)). cbn [bind fst snd]. rewrite (H3 kd Q _ gr Lg2 (quiet_skipn m Hg) G). reflexivity.
Qed.
