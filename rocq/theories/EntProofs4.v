(** Affine transformations of composite distributions. *)
From Coq Require Import List ZArith Lia Bool Reals Lra.
From Verif Require Import PyCommon CommonProofs UtilsModel UtilsSpec UtilsProofs2 UtilsProofs3 WrappersModel WrappersProofs TDSpec TDProofs DistModel DistSpec DistProofs DistProofs2 MeanSpec MeanProofs CompModel CompSpec CompProofs CompProofs2 CompProofs3 CompProofs4 CompProofs5 CompProofs7 EntModel EntSpec EntProofs EntProofs2 EntProofs3.
Import ListNotations.
Set Implicit Arguments.
Local Open Scope R_scope.

Fixpoint affine_list (kd : kind) (p scale shift : pv) (v : vt) (l : list (nat * pdist)) : outcome (list (nat * aout)) :=
  match l with
  | [] => Ok []
  | (k, d') :: r =>
      bind (part kd k p) (fun p' => bind (part kd k scale) (fun s' => bind (part kd k shift) (fun t' => bind (vt_part kd k v) (fun v' =>
      bind (affine_in d' p' s' t' v') (fun a => bind (affine_list kd p scale shift v r) (fun b => Ok ((k, a) :: b)))))))
  end.
Lemma bind_ext : forall {A B} (x : outcome A) (f g : A -> outcome B), (forall a, f a = g a) -> bind x f = bind x g.
Proof. intros A B [a|e] f g H; cbn; auto. Qed.
Lemma affine_node : forall kd l p scale shift v, affine_in (PNode kd l) p scale shift v =
  bind (check_parts kd l p scale shift) (fun _ => bind (check_vt kd l v) (fun _ => bind (affine_list kd p scale shift v l) (fun xs => Ok (abuild kd xs)))).
Proof.
  intros kd l p sc sh v. cbn [affine_in]. apply bind_ext. intros _. apply bind_ext. intros _. f_equal. induction l as [|[k d] l IH]; cbn; [reflexivity|]. apply bind_ext. intros p'. apply bind_ext. intros s'. apply bind_ext. intros t'. apply bind_ext. intros v'. apply bind_ext. intros a. now rewrite IH.
Qed.
Fixpoint affine_vals (ds : list pdist) (ps scs shs : list pv) : outcome (list aout) :=
  match ds, ps, scs, shs with
  | d :: ds, p :: ps, sc :: scs, sh :: shs => bind (affine_in d p sc sh VNone) (fun a => bind (affine_vals ds ps scs shs) (fun b => Ok (a :: b)))
  | _, _, _, _ => Ok []
  end.
Lemma affine_list_vals : forall kd p sc sh ks ds ps scs shs, length ks = length ds -> Forall2 (fun k v => part kd k p = Ok v) ks ps -> Forall2 (fun k v => part kd k sc = Ok v) ks scs -> Forall2 (fun k v => part kd k sh = Ok v) ks shs ->
  affine_list kd p sc sh VNone (combine ks ds) = bind (affine_vals ds ps scs shs) (fun rs => Ok (combine ks rs)).
Proof.
  intros kd p sc sh ks ds. revert ks. induction ds as [|d ds IH]; intros ks ps scs shs L F G K; destruct ks as [|k ks]; try discriminate; inversion F as [|? y1 ? l1 E1 F1]; subst; inversion G as [|? y2 ? l2 E2 G1]; subst; inversion K as [|? y3 ? l3 E3 K1]; subst; [reflexivity|].
  cbn [combine affine_list affine_vals]. rewrite E1, E2, E3. cbn [bind vt_part]. replace (vt_part kd k VNone) with (Ok VNone : outcome vt) by (destruct kd; reflexivity). cbn [bind]. destruct (affine_in d y1 y2 y3 VNone); cbn [bind]; auto. rewrite (IH ks l1 l2 l3) by auto. destruct (affine_vals ds l1 l2 l3); reflexivity.
Qed.
Lemma same_keys_refl : forall l, same_keys l l = true.
Proof. intros l. unfold same_keys. assert (H : forallb (fun k => existsb (Nat.eqb k) l) l = true) by (apply forallb_forall; intros x Hx; apply existsb_exists; exists x; split; auto; apply Nat.eqb_refl). now rewrite H. Qed.
Lemma check_build : forall kd ks (ds : list pdist) ps scs shs, length ks = length ds -> length ps = length ks -> length scs = length ks -> length shs = length ks ->
  check_parts kd (combine ks ds) (build kd (combine ks ps)) (build kd (combine ks scs)) (build kd (combine ks shs)) = Ok tt.
Proof.
  intros kd ks ds ps scs shs L L1 L2 L3. destruct kd; cbn [check_parts build len_of keys_of bind]; try (rewrite !map_snd_combine by auto; rewrite combine_length; rewrite L1, L2, L3, <- L, Nat.min_id, Nat.eqb_refl; cbn [bind assert_]; rewrite ?Nat.eqb_refl; cbn; reflexivity).
  rewrite !fst_combine by auto. rewrite same_keys_refl. cbn [assert_ bind]. reflexivity.
Qed.
Lemma affine_build : forall kd ks ds ps scs shs, keys_ok kd ks -> length ks = length ds -> length ps = length ks -> length scs = length ks -> length shs = length ks ->
  affine_in (PNode kd (combine ks ds)) (build kd (combine ks ps)) (build kd (combine ks scs)) (build kd (combine ks shs)) VNone = bind (affine_vals ds ps scs shs) (fun rs => Ok (abuild kd (combine ks rs))).
Proof.
  intros kd ks ds ps scs shs K L L1 L2 L3. rewrite affine_node, check_build by auto. cbn [bind]. replace (check_vt kd (combine ks ds) VNone) with (Ok tt : outcome unit) by (destruct kd; reflexivity). cbn [bind]. rewrite (@affine_list_vals kd _ _ _ ks ds ps scs shs); auto; try (apply build_parts; auto). destruct (affine_vals ds ps scs shs); reflexivity.
Qed.

(** * A box *)
Lemma jlog_is : forall v, 0 <= v -> logvar_is v (jlog v).
Proof. intros v H. unfold jlog. destruct (Rlt_dec 0 v) as [P|P]; cbn; [now apply exp_ln|]. destruct (Req_EM_T v 0); cbn; auto. lra. Qed.
Lemma clip20 : forall x, clip x (-20) 20 = Rmax (-20) (Rmin 20 x).
Proof. intros x. unfold clip, Rmax, Rmin. repeat destruct (Rle_dec _ _); lra. Qed.
Lemma bcast_same : forall f a b, length a = length b -> bcast f a b = Ok (zipw f a b).
Proof. intros f a b L. unfold bcast. now rewrite L, Nat.eqb_refl. Qed.
Lemma affine_box : forall bs bd mu lv sc sh, length bd = length bs -> length mu = length bs -> length lv = length bs -> length sc = length bs -> length sh = length bs ->
  exists r, affine_in (PNorm bd) (VDict [(1%nat, VArr mu); (2%nat, VArr lv)]) (VArr sc) (VArr sh) VNone = Ok r /\ moved (SpBox bs) (VDict [(1%nat, VArr mu); (2%nat, VArr lv)]) (VArr sc) (VArr sh) r.
Proof.
  intros bs bd mu lv sc sh LB L1 L2 L3 L4. cbn [affine_in]. unfold norm_affine. change (array_at mu_key (VDict [(1%nat, VArr mu); (2%nat, VArr lv)])) with (Ok mu : outcome (list R)). change (array_at logvar_key (VDict [(1%nat, VArr mu); (2%nat, VArr lv)])) with (Ok lv : outcome (list R)).
  cbn [bind]. rewrite check_ok by congruence. cbn [bind]. assert (CL : check_logvar (nd_of bd) lv = Ok (map (fun x => clip x (-20) 20) lv)) by (unfold check_logvar; rewrite check_ok by (cbn; congruence); reflexivity). rewrite CL. cbn [bind as_array].
  rewrite bcast_same by (rewrite !map_length; congruence). cbn [bind]. rewrite bcast_same by congruence. cbn [bind]. eexists. split; [reflexivity|]. constructor.
  - rewrite zipw_len by congruence. congruence.
  - rewrite map_length, zipw_len by (rewrite !map_length; congruence). rewrite !map_length. congruence.
  - intros i Hi. split; [apply (@nth_zipw Rplus mu sh i 0 0 0); lia|].
    set (var := zipw (fun x s => x * Rsqr s) (map exp (map (fun x => clip x (-20) 20) lv)) sc). assert (LV : length var = length bs) by (unfold var; rewrite zipw_len; rewrite !map_length; congruence).
    rewrite (nth_indep _ XNan (jlog 0)) by (rewrite map_length; lia). rewrite map_nth. assert (EV : nth i var 0 = exp (Rmax (-20) (Rmin 20 (nth i lv 0))) * (nth i sc 0 * nth i sc 0)).
    { unfold var. rewrite (@nth_zipw (fun x s => x * Rsqr s) _ _ i 0 0 0) by (rewrite ?map_length; lia). rewrite (@nth_map0 exp _ i 0) by (rewrite map_length; lia). rewrite (@nth_map0 (fun x => clip x (-20) 20) _ i 0) by lia. rewrite clip20. reflexivity. }
    rewrite EV. apply jlog_is. apply Rmult_le_pos; [left; apply exp_pos|apply Rle_0_sqr].
Qed.

Lemma affine_boxes : (forall sp d, shape sp d -> boxes sp -> forall p sc sh, fits sp p -> variate sp sc -> variate sp sh -> exists r, affine_in d p sc sh VNone = Ok r /\ moved sp p sc sh r) /\
  (forall ss ds, shapes ss ds -> Forall boxes ss -> forall ps scs shs, Forall2 fits ss ps -> Forall2 variate ss scs -> Forall2 variate ss shs -> exists rs, affine_vals ds ps scs shs = Ok rs /\ moveds ss ps scs shs rs).
Proof.
  apply shape_shapes_ind.
  - intros n s _ [].
  - intros bs bd F _ p sc sh (mu & lv & -> & L1 & L2) (x & -> & Lx) (y & -> & Ly). apply Forall2_len in F. now apply affine_box.
  - intros sp kd ks ss ds HK HL HSh IH HF HV _ _ HB _ HMv B p sc sh Fp Fs Ft. pose proof (shapes_len HSh) as LS. apply HF in Fp. destruct Fp as (ps & -> & F). apply HV in Fs. destruct Fs as (scs & -> & G). apply HV in Ft. destruct Ft as (shs & -> & K).
    destruct (IH (HB B) ps scs shs F G K) as (rs & E & M). rewrite affine_build by (auto; (apply Forall2_len in F; apply Forall2_len in G; apply Forall2_len in K; congruence)). rewrite E. cbn [bind]. eexists. split; [reflexivity|]. now apply HMv.
  - intros _ ps scs shs F G K. inversion F; inversion G; inversion K; subst. exists []. split; [reflexivity|constructor].
  - intros s d ss ds _ IH1 _ IH2 B ps scs shs F G K. inversion B; subst. inversion F; subst. inversion G; subst. inversion K; subst. cbn [affine_vals]. destruct (IH1 H1 y y0 y1) as (r & -> & M); auto. cbn [bind]. destruct (IH2 H2 l' l'0 l'1) as (rs & -> & Ms); auto. cbn [bind]. exists (r :: rs). split; auto. now constructor.
Qed.
Definition has_int (sp : pspace) : Prop := exists s, contains sp s /\ integers s.
Lemma affine_ints : (forall sp d, shape sp d -> forall p sc sh, fits sp p -> variate sp sc -> variate sp sh -> (exists r, affine_in d p sc sh VNone = Ok r /\ ~ has_int sp) \/ affine_in d p sc sh VNone = Err ENotImplemented) /\
  (forall ss ds, shapes ss ds -> forall ps scs shs, Forall2 fits ss ps -> Forall2 variate ss scs -> Forall2 variate ss shs -> (exists rs, affine_vals ds ps scs shs = Ok rs /\ forall s, In s ss -> ~ has_int s) \/ affine_vals ds ps scs shs = Err ENotImplemented).
Proof.
  apply shape_shapes_ind.
  - intros n s _ p sc sh _ _ _. now right.
  - intros bs bd F p sc sh (mu & lv & -> & L1 & L2) (x & -> & Lx) (y & -> & Ly). left. apply Forall2_len in F. destruct (@affine_box bs bd mu lv x y) as (r & E & _); auto. exists r. split; auto. intros (s & HC & HI). apply contains_leaf in HC; auto. now subst.
  - intros sp kd ks ss ds HK HL HSh IH HF HV HCt HIn _ _ _ p sc sh Fp Fs Ft. pose proof (shapes_len HSh) as LS. apply HF in Fp. destruct Fp as (ps & -> & F). apply HV in Fs. destruct Fs as (scs & -> & G). apply HV in Ft. destruct Ft as (shs & -> & K).
    rewrite affine_build by (auto; (apply Forall2_len in F; apply Forall2_len in G; apply Forall2_len in K; congruence)). destruct (IH ps scs shs F G K) as [(rs & E & N)|E]; rewrite E; cbn [bind]; [|now right]. left. eexists. split; [reflexivity|].
    intros (s & HC & HI). destruct (HCt s HC) as [->|(t & Ht & [HD|[_ HD]])].
    + destruct (HIn HI) as [NE AI]. destruct ss as [|t ss]; [congruence|]. apply (N t (or_introl eq_refl)). exists t. split; [constructor|]. apply AI. now left.
    + apply (N t Ht). exists s. auto.
    + apply (N t Ht). exists t. split; [constructor|auto].
  - intros ps scs shs F G K. left. inversion F; inversion G; inversion K; subst. exists []. split; [reflexivity|]. intros s [].
  - intros s d ss ds _ IH1 _ IH2 ps scs shs F G K. inversion F; subst. inversion G; subst. inversion K; subst. cbn [affine_vals]. destruct (IH1 y y0 y1) as [(r & -> & N)| ->]; auto. cbn [bind]. destruct (IH2 l' l'0 l'1) as [(rs & -> & Ns)| ->]; auto. cbn [bind]. left. eexists. split; [reflexivity|]. intros t [<-|Ht]; auto.
Qed.

Lemma not_jittable : forall v, has_function v -> jittable v = false.
Proof.
  intros v H. induction H as [|v l HI H IH|k v l HI H IH]; cbn; auto.
  - destruct (forallb jittable l) eqn:E; auto. rewrite forallb_forall in E. apply E in HI. congruence.
  - destruct (forallb (fun kv => jittable (snd kv)) l) eqn:E; auto. rewrite forallb_forall in E. apply E in HI. cbn in HI. congruence.
Qed.
