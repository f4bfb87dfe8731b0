(** Divergences of composite distributions with boxes, and affine transformations. *)
From Coq Require Import List ZArith Lia Bool Reals Lra.
From Verif Require Import PyCommon CommonProofs UtilsModel UtilsSpec UtilsProofs2 UtilsProofs3 WrappersModel WrappersProofs TDSpec TDProofs DistModel DistSpec DistProofs DistProofs2 MeanSpec MeanProofs CompModel CompSpec CompProofs CompProofs2 CompProofs3 CompProofs4 CompProofs5 CompProofs7 EntModel EntSpec EntProofs EntProofs2.
Import ListNotations.
Set Implicit Arguments.
Local Open Scope R_scope.

Lemma quad1 : forall a b m m' c, 0 < a -> 0 < b -> (forall x, a * ((x - m) * (x - m)) - b * ((x - m') * (x - m')) = c) -> m = m' /\ a = b.
Proof.
  intros a b m m' c Ha Hb H. pose proof (H m) as H1. pose proof (H m') as H2. set (e := (m - m') * (m - m')). assert (E0 : 0 <= e) by apply Rle_0_sqr. assert (E1 : - (b * e) = c) by (unfold e; rewrite <- H1; ring). assert (E2 : a * e = c) by (unfold e; rewrite <- H2; ring).
  assert (Z : e = 0) by nra. assert (EM : m = m') by (apply Rsqr_0_uniq in Z; lra). split; auto. subst m'. pose proof (H (m + 1)) as H3. nra.
Qed.
Definition quad (x mu lv : list R) : R := dot (map Rsqr (zipw Rminus x mu)) (map (fun v => exp (- v)) lv).
Lemma quad_const : forall mu mu' lv lv' c, length mu' = length mu -> length lv = length mu -> length lv' = length mu ->
  (forall x, length x = length mu -> quad x mu lv - quad x mu' lv' = c) -> mu = mu' /\ lv = lv'.
Proof.
  induction mu as [|m mu IH]; intros [|m' mu'] [|v lv] [|v' lv'] c L1 L2 L3 H; try discriminate; auto. cbn in L1, L2, L3.
  assert (HC : forall x y, length y = length mu -> (exp (- v) * ((x - m) * (x - m)) - exp (- v') * ((x - m') * (x - m'))) + (quad y mu lv - quad y mu' lv') = c).
  { intros x y Ly. rewrite <- (H (x :: y)) by (cbn; lia). unfold quad, dot. cbn [map zipw rsum]. unfold Rsqr. ring. }
  destruct (@quad1 (exp (- v)) (exp (- v')) m m' (c - (quad mu mu lv - quad mu mu' lv'))) as [-> Ev]; try apply exp_pos; [intros x; rewrite <- (HC x mu eq_refl); ring|]. apply exp_inv in Ev. assert (v = v') by lra. subst v'.
  destruct (IH mu' lv lv' c) as [-> ->]; try lia; auto. intros y Ly. rewrite <- (HC 0 y Ly). ring.
Qed.

(** [f] and [g] differ by a constant on the variates of the space. *)
Definition apart (sp : pspace) (d : pdist) (p q : pv) (c : R) : Prop := forall X, variate sp X -> exists a b, c_log_proba d p X = Ok a /\ c_log_proba d q X = Ok b /\ a - b = c.
Record divides (sp : pspace) (d : pdist) : Prop := mkDv {
  v_some : exists X, variate sp X;
  v_total : forall p X, fits sp p -> variate sp X -> exists a, c_log_proba d p X = Ok a;
  v_vals : forall p q, fits sp p -> fits sp q -> exists h c k, e_entropy d p = Ok h /\ e_cross_entropy d p q = Ok c /\ e_kl d p q = Ok k /\ c = h + k /\ 0 <= k /\
    (k = 0 -> forall X, variate sp X -> c_log_proba d p X = c_log_proba d q X) /\ (forall c, apart sp d p q c -> k = 0) }.

Lemma cat_apart : forall n z z' x, length z = n -> length z' = n -> length x = n -> exists a b, cat_log_proba n z x = Ok a /\ cat_log_proba n z' x = Ok b.
Proof. intros n z z' x L1 L2 L3. unfold cat_log_proba. rewrite (check_ok _ L1), (check_ok _ L2), (check_ok _ L3). cbn. eauto. Qed.
Lemma dot_zeros : forall n y, dot (repeat 0 n) y = 0.
Proof. unfold dot. induction n as [|n IH]; intros [|y ys]; cbn; try reflexivity. rewrite IH. lra. Qed.

Lemma divides_cat : forall n s, (1 <= n)%nat -> divides (SpDiscrete n s) (PCat n).
Proof.
  intros n s Hn. constructor.
  - exists (VArr (repeat 0 n)), (repeat 0 n). split; auto. apply repeat_length.
  - intros p X (z & -> & L) (x & -> & Lx). destruct (@cat_apart n z z x L L Lx) as (a & _ & E & _). exists a. exact E.
  - intros p q (z & -> & L) (z' & -> & L'). destruct (@cat_div_spec n z z' Hn L L') as (h & c & k & H1 & H2 & H3 & H4 & H5 & H6). exists h, c, k. split; [exact H1|]. split; [exact H2|]. split; [exact H3|]. split; auto. split; auto. split.
    + intros K X (x & -> & Lx). exact (proj1 H6 K x).
    + intros c' HA. apply H6. assert (Z : c' = 0).
      { destruct (HA (VArr (repeat 0 n))) as (a & b & Ea & Eb & E); [exists (repeat 0 n); split; auto; apply repeat_length|]. change (cat_log_proba n z (repeat 0 n) = Ok a) in Ea. change (cat_log_proba n z' (repeat 0 n) = Ok b) in Eb. unfold cat_log_proba in Ea, Eb.
        rewrite (check_ok _ (repeat_length 0 n)), (check_ok _ L) in Ea. rewrite (check_ok _ (repeat_length 0 n)), (check_ok _ L') in Eb. cbn [bind] in Ea, Eb. rewrite dot_zeros in Ea, Eb. injection Ea as <-. injection Eb as <-. lra. }
      subst c'. intros x. destruct (Nat.eq_dec (length x) n) as [Lx|NL].
      * destruct (HA (VArr x)) as (a & b & Ea & Eb & E); [exists x; auto|]. change (cat_log_proba n z x = Ok a) in Ea. change (cat_log_proba n z' x = Ok b) in Eb. rewrite Ea, Eb. f_equal. lra.
      * unfold cat_log_proba. now rewrite (check_bad _ NL).
Qed.

Lemma norm_logp : forall D p x, fits_norm D p -> length x = nd_dim D -> n_log_proba D p x = Ok (- (1/2) * (INR (nd_dim D) * log_2pi + rsum (clipped D (n_logvar p)) + quad x (n_mu p) (clipped D (n_logvar p)))).
Proof. intros D p x [H1 H2] L. unfold n_log_proba. rewrite (check_ok _ L), (check_ok _ H1), (check_logvar_ok _ _ H2). cbn [bind]. rewrite clipped_length, H2. reflexivity. Qed.
Lemma divides_box : forall bs bd, length bd = length bs -> divides (SpBox bs) (PNorm bd).
Proof.
  intros bs bd LB. set (D := nd_of bd). assert (ND : nd_dim D = length bs) by exact LB. constructor.
  - exists (VArr (repeat 0 (length bs))), (repeat 0 (length bs)). split; auto. apply repeat_length.
  - intros p X (mu & lv & -> & L1 & L2) (x & -> & Lx). eexists. transitivity (n_log_proba D (mkN mu lv) x); [reflexivity|]. apply norm_logp; [split; cbn [n_mu n_logvar]; congruence|congruence].
  - intros p q (mu & lv & -> & L1 & L2) (mu' & lv' & -> & L1' & L2'). set (a := mkN mu lv). set (b := mkN mu' lv').
    assert (Fa : fits_norm D a) by (split; cbn; congruence). assert (Fb : fits_norm D b) by (split; cbn; congruence). destruct (@n_div_spec D a b Fa Fb) as (h & c & k & H1 & H2 & H3 & H4 & H5 & H6).
    exists h, c, k. split; [exact H1|]. split; [exact H2|]. split; [exact H3|]. split; auto. split; auto. split.
    + intros K X (x & -> & Lx). exact (proj1 H6 K x).
    + intros c' HA. apply H6. apply n_same; auto. apply (@quad_const _ _ _ _ (- (2 * c') - rsum (clipped D (n_logvar a)) + rsum (clipped D (n_logvar b)))); try (rewrite ?clipped_length; unfold a, b; cbn; congruence).
      intros x Lx. cbn [n_mu] in Lx. unfold a in Lx. cbn in Lx. destruct (HA (VArr x)) as (u & v & Eu & Ev & E); [exists x; split; auto; congruence|].
      change (n_log_proba D a x = Ok u) in Eu. change (n_log_proba D b x = Ok v) in Ev. rewrite norm_logp in Eu, Ev by (auto; congruence). apply (f_equal (fun o => match o with Ok v => v | Err _ => 0 end)) in Eu. apply (f_equal (fun o => match o with Ok v => v | Err _ => 0 end)) in Ev. cbv beta iota in Eu, Ev. lra.
Qed.

Definition aparts (ss : list pspace) (ds : list pdist) (ps qs : list pv) (c : R) : Prop := forall Xs, Forall2 variate ss Xs -> exists a b, logp_vals ds ps Xs = Ok a /\ logp_vals ds qs Xs = Ok b /\ a - b = c.
Lemma divides_lists : forall ss ds, Forall2 divides ss ds ->
  (exists Xs, Forall2 variate ss Xs) /\
  (forall ps Xs, Forall2 fits ss ps -> Forall2 variate ss Xs -> exists a, logp_vals ds ps Xs = Ok a) /\
  (forall ps qs, Forall2 fits ss ps -> Forall2 fits ss qs -> exists h c k, ent_vals ds ps = Ok h /\ pair_vals cat_cross_entropy n_cross_entropy ds ps qs = Ok c /\ pair_vals cat_kl n_kl ds ps qs = Ok k /\ c = h + k /\ 0 <= k /\
    (k = 0 -> forall Xs, Forall2 variate ss Xs -> logp_vals ds ps Xs = logp_vals ds qs Xs) /\ (forall c, aparts ss ds ps qs c -> k = 0)).
Proof.
  intros ss ds F. induction F as [|s d ss ds H F (IH0 & IH1 & IH2)].
  - split; [exists []; constructor|]. split; [intros ps Xs _ _; cbn; eauto|]. intros ps qs _ _. exists 0, 0, 0. cbn. repeat split; auto; lra.
  - destruct IH0 as (Xs0 & HX0). destruct (v_some H) as (X0 & HX). split; [exists (X0 :: Xs0); now constructor|]. split.
    + intros ps Xs G K. inversion G; subst. inversion K; subst. cbn. destruct (v_total H y y0) as (a & ->); auto. cbn. destruct (IH1 l' l'0) as (b & ->); auto. cbn. eauto.
    + intros ps qs G K. inversion G as [|? p ? ps' G1 G2]; subst. inversion K as [|? q ? qs' K1 K2]; subst. destruct (v_vals H p q G1 K1) as (h & c & k & H1 & H2 & H3 & H4 & H5 & H6 & H7). destruct (IH2 ps' qs' G2 K2) as (h' & c' & k' & I1 & I2 & I3 & I4 & I5 & I6 & I7).
      exists (h + h'), (c + c'), (k + k'). cbn. fold e_cross_entropy. fold e_kl. rewrite H1, H2, H3. cbn. rewrite I1, I2, I3. cbn. split; auto. split; auto. split; auto. split; [lra|]. split; [lra|]. split.
      * intros Z. assert (k = 0) by lra. assert (k' = 0) by lra. intros Xs HXs. inversion HXs; subst. rewrite H6 by auto. destruct (c_log_proba d q y); cbn; auto. rewrite I6 by auto. reflexivity.
      * intros c0 HA. destruct (v_total H p X0) as (a0 & A0); auto. destruct (v_total H q X0) as (b0 & B0); auto. destruct (IH1 ps' Xs0) as (a1 & A1); auto. destruct (IH1 qs' Xs0) as (b1 & B1); auto.
        assert (k = 0).
        { apply (H7 (c0 - (a1 - b1))). intros X HV. destruct (v_total H p X) as (a & A); auto. destruct (v_total H q X) as (b & B); auto. exists a, b. split; auto. split; auto. destruct (HA (X :: Xs0)) as (u & v & Eu & Ev & E); [now constructor|]. cbn in Eu, Ev. rewrite A in Eu. rewrite B in Ev. cbn in Eu, Ev. rewrite A1 in Eu. rewrite B1 in Ev. cbn in Eu, Ev. injection Eu as <-. injection Ev as <-. lra. }
        assert (k' = 0).
        { apply (I7 (c0 - (a0 - b0))). intros Xs HV. destruct (IH1 ps' Xs) as (a & A); auto. destruct (IH1 qs' Xs) as (b & B); auto. exists a, b. split; auto. split; auto. destruct (HA (X0 :: Xs)) as (u & v & Eu & Ev & E); [now constructor|]. cbn in Eu, Ev. rewrite A0 in Eu. rewrite B0 in Ev. cbn in Eu, Ev. rewrite A in Eu. rewrite B in Ev. cbn in Eu, Ev. injection Eu as <-. injection Ev as <-. lra. }
        lra.
Qed.
Lemma divides_all : (forall sp d, shape sp d -> divides sp d) /\ (forall ss ds, shapes ss ds -> Forall2 divides ss ds).
Proof.
  apply shape_shapes_ind.
  - intros n s Hn. now apply divides_cat.
  - intros bs bd F. apply divides_box. now apply Forall2_len in F.
  - intros sp kd ks ss ds HK HL HSh IH HF HV _ _ _ _ _. pose proof (Forall2_len IH) as LS. destruct (divides_lists IH) as (I0 & I1 & I2).
    assert (LF : forall (P : pspace -> pv -> Prop) ps, Forall2 P ss ps -> length ps = length ks) by (intros P ps G; apply Forall2_len in G; congruence).
    constructor.
    + destruct I0 as (Xs & G). exists (build kd (combine ks Xs)). apply HV. eauto.
    + intros p X Fp FX. apply HF in Fp. destruct Fp as (ps & -> & F). apply HV in FX. destruct FX as (Xs & -> & G). rewrite logp_build by (eauto). auto.
    + intros p q Fp Fq. apply HF in Fp. destruct Fp as (ps & -> & F). apply HF in Fq. destruct Fq as (qs & -> & G). destruct (I2 ps qs F G) as (h & c & k & H1 & H2 & H3 & H4 & H5 & H6 & H7). exists h, c, k. unfold e_cross_entropy, e_kl. rewrite ent_build, !pair_build by eauto. split; auto. split; auto. split; auto. split; auto. split; auto. split.
      * intros Z X FX. apply HV in FX. destruct FX as (Xs & -> & FX). rewrite !logp_build by eauto. auto.
      * intros c0 HA. apply (H7 c0). intros Xs FX. destruct (HA (build kd (combine ks Xs))) as (a & b & E1 & E2 & E3); [apply HV; eauto|]. rewrite logp_build in E1, E2 by eauto. eauto.
  - constructor.
  - intros s d ss ds _ IH1 _ IH2. constructor; auto.
Qed.
