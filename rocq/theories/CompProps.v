(** Property C111: distributions over composite spaces (coax/proba_dists/_composite.py). *)
From Coq Require Import List ZArith Lia Bool Reals Lra.
From Verif Require Import PyCommon CommonProofs UtilsModel UtilsSpec TDSpec DistModel PolicySpec MeanSpec MeanProofs GumbelProps CompModel CompSpec CompProofs CompProofs2 CompProofs3 CompProofs4 CompProofs5 CompProofs6 CompSpec2 CompProofs7 CompProofs8.
Import ListNotations.
Local Open Scope R_scope.

(** Dict(a=Discrete(2), b=Tuple(MultiDiscrete([1, 2]))) *)
Definition ex_space : pspace := SpDict [(7%nat, SpDiscrete 2 0); (3%nat, SpTuple [SpMultiDiscrete [1; 2]%nat])].
Definition ex_dist : pdist := PNode KDict [(7%nat, PCat 2); (3%nat, PNode KTuple [(0%nat, PNode KMulti [(0%nat, PCat 1); (1%nat, PCat 2)])])].
Definition ex_logits (z : list R) : pv := VDict [(0%nat, VArr z)].
Definition ex_params : pv := VDict [(7%nat, ex_logits [0; ln 3]); (3%nat, VList [VList [ex_logits [5]; ex_logits [0; 0]]])].
Definition ex_elem : clean := CDict [(7%nat, CInt 1); (3%nat, CTuple [CInts [0; 1]%Z])].
Lemma ex_supported : supported ex_space.
Proof. cbn. split; [constructor; [intros [C|[]]; discriminate|constructor; [intros []|constructor]]|]. split; [lia|]. split; auto. split; auto. split; [discriminate|]. intros n [<-|[<-|[]]]; lia. Qed.
Lemma ex_countable : countable ex_space. Proof. cbn. auto. Qed.
Lemma ex_made : mk ex_space = Ok ex_dist. Proof. reflexivity. Qed.
Lemma ex_logits_of : forall n z, length z = n -> exists w, logits_of n (ex_logits z) w. Proof. intros n z L. exists z. split; auto. Qed.
Lemma ex_fits : fits ex_space ex_params.
Proof.
  eexists. split; [reflexivity|]. cbn. split; [reflexivity|]. split; [now apply ex_logits_of|]. split; [reflexivity|]. split; [|exact I]. eexists. split; [reflexivity|]. cbn. split; [|exact I]. eexists. split; [reflexivity|]. constructor; [now apply ex_logits_of|]. constructor; [now apply ex_logits_of|constructor].
Qed.
Lemma ex_inside : inside ex_space ex_elem. Proof. cbn. repeat split; try lia. constructor; [lia|]. constructor; [lia|constructor]. Qed.
Lemma ex_noise5 : noise 5 [1; 2; 3; 4; 5]. Proof. split; [reflexivity|]. intros g [<-|[<-|[<-|[<-|[<-|[]]]]]]; lra. Qed.

(** C111: a distribution is made exactly for the spaces whose leaves are Discrete, MultiDiscrete, MultiBinary or Box spaces with a nonempty
    part within [-256, 256] in every coordinate; TypeError and AssertionError otherwise. *)
Theorem C111_construct : forall sp,
  ((exists d, mk sp = Ok d) <-> (~ contains sp SpOther /\ forall bs b, contains sp (SpBox bs) -> In b bs -> proper b)) /\
  (forall e, mk sp = Err e -> (e = EType /\ contains sp SpOther) \/ (e = EAssertion /\ exists bs b, contains sp (SpBox bs) /\ In b bs /\ ~ proper b)).
Proof.
  intros sp. split.
  - split.
    + intros (d & E). split.
      * intros C. destruct (mk_part C E) as (d' & E'). discriminate.
      * intros bs b C Hb. destruct (mk_part C E) as (d' & E'). apply (proj1 (mk_box bs)); eauto.
    + intros [H1 H2]. destruct (mk sp) as [d|e] eqn:E; [eauto|]. exfalso. apply mk_err in E. destruct E as (s & C & [[-> _]|(bs & b & -> & Hb & N & _)]); [auto|]. apply N. eapply H2; eauto.
  - intros e E. apply mk_err in E. destruct E as (s & C & [[-> ->]|(bs & b & -> & Hb & N & ->)]); [left; auto|right; split; eauto].
Qed.
Print Assumptions C111_construct.
Example C111_construct_ex : mk ex_space = Ok ex_dist /\ mk (SpTuple [ex_space; SpDict [(1%nat, SpOther)]]) = Err EType /\ mk (SpBox [(None, Some 1); (Some 1, Some 1)]) = Err EAssertion.
Proof. split; [reflexivity|]. split; [reflexivity|]. cbn [mk map_outcome fst snd]. unfold n_bounds. unfold Rmax, Rmin. repeat (destruct (Rle_dec _ _); try lra). repeat (destruct (Rlt_dec _ _); try lra). reflexivity. Qed.

(** C111: for parameters of the right structure, sampling, taking the mode and taking the mean never raise and give elements of the space;
    log_proba of a variate never raises; elements can be preprocessed; the default priors have the right structure.  Discrete spaces start at 0;
    draws for boxes are arbitrary. *)
Theorem C111_member : forall sp d p us gs, supported sp -> zero_based sp -> mk sp = Ok d -> fits sp p -> drawn sp us -> noise (ties sp) gs ->
  (exists X x, c_sample d p us = Ok (X, []) /\ variate sp X /\ c_post d X gs = Ok (x, []) /\ inside sp x /\ c_draw d p us gs = Ok x) /\
  (exists X x, c_mode d p = Ok X /\ variate sp X /\ c_post d X gs = Ok (x, []) /\ inside sp x /\ c_best d p gs = Ok x) /\
  (exists X x, c_mean d p = Ok X /\ variate sp X /\ c_post d X gs = Ok (x, []) /\ inside sp x).
Proof.
  intros sp d p us gs HS HZ HM HF HD [Lg Hg]. destruct (good_all (zb := true) sp HS (fun _ => HZ)) as (d' & E & G). assert (d' = d) by congruence. subst d'.
  assert (P : forall X, variate sp X -> exists x, c_post d X gs = Ok (x, []) /\ inside sp x). { intros X HV. destruct (@g_post _ _ _ G X gs [] HV Lg Hg) as (x & Ex & Ix & _). rewrite app_nil_r in Ex. eauto. }
  split; [|split].
  - destruct (@g_sample _ _ _ G p us [] HF HD) as (X & EX & V). rewrite app_nil_r in EX. destruct (P X V) as (x & Ex & Ix). exists X, x. unfold c_draw. rewrite EX. cbn [bind fst]. rewrite Ex. auto.
  - destruct (@g_mode _ _ _ G p HF) as (X & EX & V). destruct (P X V) as (x & Ex & Ix). exists X, x. unfold c_best. rewrite EX. cbn [bind]. rewrite Ex. auto.
  - destruct (@g_mean _ _ _ G p HF) as (X & EX & V). destruct (P X V) as (x & Ex & Ix). exists X, x. auto.
Qed.
Print Assumptions C111_member.
Example C111_member_ex : let sp := SpTuple [SpDiscrete 2 0; SpBox [(Some 0, None); (None, Some 1)]] in
  supported sp /\ zero_based sp /\ fits sp (VList [ex_logits [0; 1]; VDict [(1%nat, VArr [3; 4]); (2%nat, VArr [0; 0])]]) /\ drawn sp [1/2; 1/3; -4; 7] /\ noise (ties sp) [1; 2] /\ inside sp (CTuple [CInt 1; CVec [5; -5]]) /\ ~ inside sp (CTuple [CInt 1; CVec [5; 2]]).
Proof.
  cbv zeta. split; [|split; [|split; [|split; [|split; [|split]]]]].
  - cbn. split; [lia|]. split; auto. intros lo hi [E|[E|[]]]; injection E as <- <-; repeat split; lra.
  - cbn. auto.
  - eexists. split; [reflexivity|]. cbn. split; [now apply ex_logits_of|]. split; auto. exists [3; 4], [0; 0]. auto.
  - exists [[1/2; 1/3]; [-4; 7]]. split; [reflexivity|]. split; [split; [reflexivity|]; intros u [<-|[<-|[]]]; lra|]. split; [reflexivity|exact I].
  - split; [reflexivity|]. intros g [<-|[<-|[]]]; lra.
  - cbn. split; [lia|]. split; auto. split; auto. intros [|[|i]] Hi; cbn; [split; [lra|exact I]|split; [exact I|lra]|lia].
  - cbn. intros (_ & (_ & H) & _). specialize (H 1%nat ltac:(lia)). cbn in H. lra.
Qed.

(** C111: log_proba is defined for every variate, preprocess_variate for every element (whatever the start of Discrete spaces), and the
    default priors have the structure of the parameters. *)
Theorem C111_defined : forall sp d, supported sp -> mk sp = Ok d ->
  fits sp (c_priors d) /\ (forall p X, fits sp p -> variate sp X -> exists r, c_log_proba d p X = Ok r) /\ (forall x, inside sp x -> exists X, c_pre d x = Ok X /\ variate sp X).
Proof.
  intros sp d HS HM. destruct (good_all (zb := false) sp HS) as (d' & E & G); [discriminate|]. assert (d' = d) by congruence. subst d'. split; [apply (g_prior G)|]. split; [apply (g_logp G)|apply (g_pre G)].
Qed.
Print Assumptions C111_defined.
Example C111_defined_ex : supported (SpDiscrete 2 5) /\ mk (SpDiscrete 2 5) = Ok (PCat 2) /\ inside (SpDiscrete 2 5) (CInt 6) /\ c_pre (PCat 2) (CInt 6) = Ok (VArr [0; 0]).
Proof. repeat split; cbn; lia || auto. Qed.

(** C111: what is drawn is never in the space if a Discrete(n) space starts at n. *)
Theorem C111_start_refuted : exists sp d p, supported sp /\ mk sp = Ok d /\ fits sp p /\ (exists us gs, drawn sp us /\ noise (ties sp) gs) /\
  forall us gs, drawn sp us -> noise (ties sp) gs -> exists x, c_draw d p us gs = Ok x /\ ~ inside sp x.
Proof.
  exists (SpDiscrete 2 2), (PCat 2), (ex_logits [0; 0]). split; [cbn; lia|]. split; [reflexivity|]. split; [now apply ex_logits_of|]. split.
  - exists [1/2; 1/3], [1; 2]. split; (split; [reflexivity|]); intros u [<-|[<-|[]]]; lra.
  - intros us gs HU HG. destruct (@C111_member (SpDiscrete 2 0) (PCat 2) (ex_logits [0; 0]) us gs) as ((X & x & _ & _ & _ & HI & E) & _); auto; [cbn; lia|reflexivity|now apply ex_logits_of|].
    exists x. split; auto. destruct x; try contradiction. cbn in *. lia.
Qed.
Print Assumptions C111_start_refuted.

(** C111: the variate drawn for a space of integers is [x] with exactly the product of the probabilities that the softmax of the logits of
    each component gives to that component of [x]. *)
Theorem C111_probability : forall sp d p gs x F, supported sp -> countable sp -> mk sp = Ok d -> fits sp p -> noise (size sp) gs -> inside sp x ->
  indicates (size sp) (fun us => c_draw d p us gs) x F -> mean_units (size sp) F (prob sp p x).
Proof.
  intros sp d p gs x F HS HC HM HF [Lg Hg] HI HX. destruct (@draw_prob sp d p HS HC HM HF x gs HI Lg Hg) as (I & M & H). apply (@mean_units_ext (size sp) I F); auto. intros us Lu HU. destruct (H us Lu HU) as (c & E & _ & Hc). destruct (HX us Lu HU) as [[E1 E2]|[E1 E2]]; destruct Hc as [[C1 C2]|[C1 C2]]; try congruence.
Qed.
Print Assumptions C111_probability.
Example C111_probability_ex : supported ex_space /\ countable ex_space /\ mk ex_space = Ok ex_dist /\ fits ex_space ex_params /\ size ex_space = 5%nat /\ noise 5 [1; 2; 3; 4; 5] /\ inside ex_space ex_elem /\ prob ex_space ex_params ex_elem = 3/8.
Proof.
  split; [exact ex_supported|]. split; [exact ex_countable|]. split; [exact ex_made|]. split; [exact ex_fits|]. split; [reflexivity|]. split; [exact ex_noise5|]. split; [exact ex_inside|].
  cbn. unfold boltzmann, total. cbn. rewrite exp_0, exp_ln by lra. pose proof (exp_pos 5). change (Pos.to_nat 1) with 1%nat. cbv iota. rewrite ?exp_0, ?exp_ln by lra. field. lra.
Qed.

(** C111: log_proba(dist_params, preprocess_variate(x)) is the logarithm of that probability, and postprocess_variate gives back [x]. *)
Theorem C111_log_proba : forall sp d p gs x, supported sp -> countable sp -> mk sp = Ok d -> fits sp p -> noise (size sp) gs -> inside sp x ->
  0 < prob sp p x /\ exists X, c_pre d x = Ok X /\ c_log_proba d p X = Ok (ln (prob sp p x)) /\ c_post d X gs = Ok (x, []).
Proof. intros sp d p gs x HS HC HM HF [Lg Hg] HI. exact (@pre_logp sp d p HS HC HM HF x gs HI Lg Hg). Qed.
Print Assumptions C111_log_proba.
Example C111_log_proba_ex : exists X, c_pre ex_dist ex_elem = Ok X /\ c_log_proba ex_dist ex_params X = Ok (ln (3/8)) /\ c_post ex_dist X [1; 2; 3; 4; 5] = Ok (ex_elem, []).
Proof.
  destruct C111_probability_ex as (H1 & H2 & H3 & H4 & H5 & H6 & H7 & H8). rewrite <- H5 in H6. destruct (C111_log_proba _ _ _ _ _ H1 H2 H3 H4 H6 H7) as (_ & X & E). rewrite H8 in E. exists X. exact E.
Qed.

(** C111: the probabilities of the elements, of which there are as many as the product of the sizes, add up to 1. *)
Theorem C111_total : forall sp p, supported sp -> countable sp -> fits sp p ->
  exists l, NoDup l /\ (forall x, In x l <-> inside sp x) /\ length l = cardinality sp /\ fold_right Rplus 0 (map (prob sp p) l) = 1.
Proof. intros sp p HS HC HF. exists (elements sp). split; [apply elements_nodup|]. split; [now apply elements_in|]. split; [apply elements_length|]. exact (@elements_total sp HS HC p HF). Qed.
Print Assumptions C111_total.
Example C111_total_ex : cardinality ex_space = 4%nat /\ cardinality (SpTuple [SpMultiBinary 3; SpDiscrete 5 0]) = 40%nat.
Proof. split; reflexivity. Qed.

(** C111: the mode is an element of maximal probability. *)
Theorem C111_mode : forall sp d p gs, supported sp -> countable sp -> mk sp = Ok d -> fits sp p -> noise (size sp) gs ->
  exists y, c_best d p gs = Ok y /\ inside sp y /\ forall x, inside sp x -> prob sp p x <= prob sp p y.
Proof. intros sp d p gs HS HC HM HF [Lg Hg]. apply (@mode_best sp d p HS HC HM HF gs Lg Hg). now apply some_element. Qed.
Print Assumptions C111_mode.
Example C111_mode_ex : exists y, c_best ex_dist ex_params [1; 2; 3; 4; 5] = Ok y /\ inside ex_space y /\ 3/8 <= prob ex_space ex_params y.
Proof.
  destruct C111_probability_ex as (H1 & H2 & H3 & H4 & H5 & H6 & H7 & H8). rewrite <- H5 in H6. destruct (C111_mode _ _ _ _ H1 H2 H3 H4 H6) as (y & E & I & M). exists y. rewrite <- H8. auto.
Qed.

(** C111: with the default priors every element has the same probability. *)
Theorem C111_priors : forall sp d x, supported sp -> countable sp -> mk sp = Ok d -> inside sp x -> prob sp (c_priors d) x = / INR (cardinality sp).
Proof. intros sp d x HS HC HM HI. exact (@flat_all sp HS HC d HM x HI). Qed.
Print Assumptions C111_priors.
Example C111_priors_ex : prob ex_space (c_priors ex_dist) ex_elem = / 4.
Proof. rewrite (C111_priors ex_space ex_dist ex_elem ex_supported ex_countable ex_made ex_inside). f_equal. cbn. lra. Qed.

(** C111, boxes included: if the raw variate [Y] stands for the element [x], then preprocessing [x] gives [Y], postprocessing [Y] gives [x], and
    log_proba of [Y] is the sum of the logarithms of the softmax probabilities of the integers and of the normal densities of the raw
    coordinates of the boxes. *)
Theorem C111_density : forall sp d p Y x r gs, mk sp = Ok d -> valued sp p Y x r -> noise (ties sp) gs ->
  c_pre d x = Ok Y /\ c_log_proba d p Y = Ok r /\ c_post d Y gs = Ok (x, []).
Proof. intros sp d p Y x r gs HM HV [Lg Hg]. destruct valued_vals as [H _]. destruct (H _ _ _ _ _ HV d HM) as (H1 & H2 & H3). split; auto. split; auto. specialize (H3 gs [] Lg Hg). now rewrite app_nil_r in H3. Qed.
Print Assumptions C111_density.

(** C111, boxes included: the variate drawn: Gumbel-softmax vectors with temperature 1/5 for the integers, mu + exp(logvar/2) e for the boxes;
    the element is that of the largest perturbed logits and of the raw coordinates kept within [-30, 30]; preprocessing it, log_proba and
    postprocessing are as in C111_density. *)
Theorem C111_drawn : forall sp d p us gs, supported sp -> zero_based sp -> mk sp = Ok d -> fits sp p -> drawn sp us -> noise (ties sp) gs ->
  exists X Y x r, c_sample d p us = Ok (X, []) /\ drawing sp p us X Y /\ c_post d X gs = Ok (x, []) /\ c_draw d p us gs = Ok x /\
    valued sp p Y x r /\ c_pre d x = Ok Y /\ c_log_proba d p Y = Ok r /\ c_post d Y gs = Ok (x, []).
Proof.
  intros sp d p us gs HS HZ HM HF HD HN. pose proof HN as [Lg Hg]. destruct (draw_all sp HS HZ) as (d' & E & G). assert (d' = d) by congruence. subst d'.
  destruct (G p us gs [] [] HF HD Lg Hg) as (X & Y & x & r & E1 & D & E2 & V & _). rewrite app_nil_r in E1, E2. exists X, Y, x, r. destruct (C111_density _ _ _ _ _ _ _ HM V HN) as (H1 & H2 & H3).
  repeat (split; auto). unfold c_draw. rewrite E1. cbn [bind fst]. rewrite E2. reflexivity.
Qed.
Print Assumptions C111_drawn.
(** Tuple(Discrete(2), Box([0, inf))) : the coordinate 128 = 0 + 256 / 2 is the raw coordinate 0. *)
Example C111_drawn_ex : let sp := SpTuple [SpDiscrete 2 0; SpBox [(Some 0, None)]] in let p := VList [ex_logits [0; 0]; VDict [(1%nat, VArr [3]); (2%nat, VArr [0])]] in
  supported sp /\ zero_based sp /\ fits sp p /\ drawn sp [1/2; 1/3; -3] /\ noise (ties sp) [1; 2] /\
  valued sp p (VList [VArr [0; 1]; VArr [0]]) (CTuple [CInt 1; CVec [128]]) (ln (boltzmann 2 [0; 0] 1) + (ln (DistSpec.gauss 3 1 0) + 0 + 0)) /\
  exists d, mk sp = Ok d.
Proof.
  cbv zeta. split; [|split; [|split; [|split; [|split; [|split]]]]].
  - cbn. split; [lia|]. split; auto. intros lo hi [E|[]]; injection E as <- <-; repeat split; lra.
  - cbn. auto.
  - eexists. split; [reflexivity|]. cbn. split; [now apply ex_logits_of|]. split; auto. exists [3], [0]. auto.
  - exists [[1/2; 1/3]; [-3]]. split; [reflexivity|]. split; [split; [reflexivity|]; intros u [<-|[<-|[]]]; lra|]. split; [reflexivity|exact I].
  - split; [reflexivity|]. intros g [<-|[<-|[]]]; lra.
  - constructor. constructor; [exact (val_cat 2 [0; 0] 1 eq_refl ltac:(lia))|]. constructor; [|constructor]. constructor.
    assert (LB : lower (Some 0, None) = 0) by (unfold lower; cbn; apply Rmax_left; lra). assert (UB : upper (Some 0, None) = 256) by reflexivity.
    replace 128 with (lower (Some 0, None) + (upper (Some 0, None) - lower (Some 0, None)) / (1 + exp (- 0))) by (rewrite LB, UB, Ropp_0, exp_0; lra).
    replace (DistSpec.gauss 3 1 0) with (DistSpec.gauss 3 (exp (lv_used 0)) 0) by (f_equal; unfold lv_used; rewrite Rmax_left, Rmin_left by lra; apply exp_0).
    constructor; [rewrite LB, UB; lra|lra|constructor].
  - cbn [mk map_outcome fst snd bind]. unfold n_bounds. destruct (Rlt_dec (Rmax 0 (-256)) 256) as [H|H]; [cbn [bind]; eauto|]. exfalso. apply H. rewrite Rmax_left; lra.
Qed.

(** C111: what happens to parameters and elements of another structure. *)
Theorem C111_refused :
  (forall n us p e, (exists a, (p = VArr a \/ exists l, p = VList l) /\ e = EType) \/ (exists l, p = VDict l /\ ~ In 0%nat (map fst l) /\ e = EKey) \/
     (exists l1 v l2, p = VDict (l1 ++ (0%nat, v) :: l2) /\ ~ In 0%nat (map fst l1) /\ (forall a, v <> VArr a) /\ e = EType) \/
     (exists l1 z l2, p = VDict (l1 ++ (0%nat, VArr z) :: l2) /\ ~ In 0%nat (map fst l1) /\ length z <> n /\ e = EValue) ->
     c_sample (PCat n) p us = Err e /\ c_mode (PCat n) p = Err e /\ c_mean (PCat n) p = Err e /\ forall x, length x = n -> c_log_proba (PCat n) p (VArr x) = Err e) /\
  (forall s ss d us, mk (SpTuple (s :: ss)) = Ok d ->
     (forall l, c_sample d (VDict l) us = Err EKey /\ c_mode d (VDict l) = Err EKey /\ c_mean d (VDict l) = Err EKey) /\
     (c_sample d (VList []) us = Err EIndex /\ c_mode d (VList []) = Err EIndex /\ c_mean d (VList []) = Err EIndex) /\
     (forall l, c_pre d (CDict l) = Err EKey) /\ c_pre d (CTuple []) = Err EIndex) /\
  (forall k s ss d us, mk (SpDict ((k, s) :: ss)) = Ok d ->
     (forall l, c_sample d (VList l) us = Err EType /\ c_mode d (VList l) = Err EType /\ c_mean d (VList l) = Err EType) /\
     (forall l, ~ In k (map fst l) -> c_sample d (VDict l) us = Err EKey /\ c_mode d (VDict l) = Err EKey /\ c_mean d (VDict l) = Err EKey /\ forall X, c_log_proba d (VDict l) X = Err EKey) /\
     (forall l, c_pre d (CTuple l) = Err EType) /\ (forall l, c_pre d (CInts l) = Err EIndex) /\ (forall l, ~ In k (map fst l) -> c_pre d (CDict l) = Err EKey)) /\
  (forall n nvec d, mk (SpMultiDiscrete (n :: nvec)) = Ok d ->
     (forall l, c_pre d (CTuple l) = Err EType) /\ (forall l, c_pre d (CDict l) = Err EKey) /\ (forall v, c_pre d (CVec v) = Err EAssertion) /\ c_pre d (CInts []) = Err EIndex) /\
  (forall n v, c_pre (PCat n) (CVec v) = Err EAssertion) /\
  (forall bs d x, mk (SpBox bs) = Ok d -> (forall v, length v <> length bs -> c_pre d (CVec v) = Err EValue) /\ c_log_proba d x (VList []) = Err EType) /\
  (forall us gs, exists d, mk (SpMultiDiscrete []) = Ok d /\ c_sample d (VList []) us = Ok (VList [], us) /\ c_post d (VList []) gs = Err EValue).
Proof.
  assert (LK : forall A k (l1 l2 : list (nat * A)) v, ~ In k (map fst l1) -> lookup k (l1 ++ (k, v) :: l2) = Some v).
  { intros A k l1 l2 v H. induction l1 as [|[j w] l1 IH]; cbn; [now rewrite Nat.eqb_refl|]. destruct (Nat.eqb_spec k j) as [->|]; [exfalso; apply H; now left|]. apply IH. intros C. apply H. now right. }
  assert (LN : forall A k (l : list (nat * A)), ~ In k (map fst l) -> lookup k l = None).
  { intros A k l H. induction l as [|[j w] l IH]; cbn; auto. destruct (Nat.eqb_spec k j) as [->|]; [exfalso; apply H; now left|]. apply IH. intros C. apply H. now right. }
  split; [|split; [|split; [|split; [|split; [|split]]]]].
  - intros n us p e H. assert (E : bind (array_at logits_key p) (fun z => check_n n z) = Err e).
    { unfold array_at, item. destruct H as [(a & [->|(l & ->)] & ->)|[(l & -> & H & ->)|[(l1 & v & l2 & -> & H & V & ->)|(l1 & z & l2 & -> & H & Lz & ->)]]]; try reflexivity.
      - unfold logits_key. now rewrite (LN _ _ _ H).
      - unfold logits_key. rewrite (LK _ _ _ _ _ H). cbn. destruct v; try reflexivity. now destruct (V x).
      - unfold logits_key. rewrite (LK _ _ _ _ _ H). cbn. unfold check_n. destruct (Nat.eqb_spec (length z) n); [congruence|reflexivity]. }
    unfold c_mode, c_mean. cbn [c_sample c_each c_log_proba as_array bind]. unfold cat_sample, cat_mode, cat_mean, cat_log_proba. destruct (array_at logits_key p) as [z|]; cbn [bind] in *; [|injection E as ->; auto]. rewrite E. cbn [bind]. repeat split; auto. intros x Lx. rewrite (DistProofs.check_ok _ Lx). reflexivity.
  - intros s ss d us E. rewrite mk_tuple_eq in E. cbn [mk_list] in E. destruct (mk s) as [d1|]; [|discriminate]. cbn [bind] in E. destruct (mk_list ss) as [ds|]; [|discriminate]. injection E as <-. repeat split; reflexivity.
  - intros k s ss d us E. rewrite mk_dict_eq in E. cbn [mk_dict] in E. destruct (mk s) as [d1|]; [|discriminate]. cbn [bind] in E. destruct (mk_dict ss) as [ds|]; [|discriminate]. injection E as <-. split; [repeat split; reflexivity|]. split; [|split; [reflexivity|split; [reflexivity|]]].
    + intros l H. unfold c_mode, c_mean. cbn [c_sample c_each c_log_proba part item]. rewrite (LN _ _ _ H). repeat split; reflexivity.
    + intros l H. cbn [c_pre cpart]. rewrite (LN _ _ _ H). reflexivity.
  - intros n nvec d E. injection E as <-. repeat split; reflexivity.
  - reflexivity.
  - intros bs d x E. cbn [mk] in E. destruct (map_outcome _ bs) as [bd|] eqn:E1; [|discriminate]. injection E as <-. apply map_outcome_ok in E1. apply Forall2_len in E1. split; [|reflexivity]. intros v Lv. cbn [c_pre]. destruct (Nat.eqb_spec (length v) (length bd)); [congruence|reflexivity].
  - intros us gs. eexists. split; [reflexivity|]. split; reflexivity.
Qed.
Print Assumptions C111_refused.
Example C111_refused_ex : c_sample (PCat 2) (VDict [(1%nat, VArr [0; 0])]) [] = Err EKey /\ c_mode (PCat 2) (ex_logits [0]) = Err EValue.
Proof. split; [apply C111_refused|apply (C111_refused : _ /\ _)]; [right; left; exists [(1%nat, VArr [0; 0])]|exact []|right; right; right; exists [], [0], []]; cbn; repeat split; auto; intros [C|[]]; discriminate. Qed.
