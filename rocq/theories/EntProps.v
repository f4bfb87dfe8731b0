(** Property C116: entropies, divergences and affine transformations of distributions over composite spaces (coax/proba_dists/_composite.py). *)
From Coq Require Import List ZArith Lia Bool Reals Lra.
From Verif Require Import PyCommon CommonProofs UtilsModel UtilsSpec TDSpec DistModel DistSpec DistProofs CompModel CompSpec CompProofs CompProofs3 CompProofs4 CompProofs6 CompProps EntModel EntSpec CompProofs5 CompProofs7 EntProofs EntProofs2 EntProofs3 EntProofs4 EntProofs5.
Import ListNotations.
Local Open Scope R_scope.

(** C116: for spaces of integers the sum over the components is the Shannon entropy of the joint distribution of all elements, however the list of
    elements is ordered. *)
Theorem C116_entropy : forall sp d p l, supported sp -> countable sp -> mk sp = Ok d -> fits sp p -> lists_all sp l -> e_entropy d p = Ok (shannon (prob sp p) l).
Proof. intros sp d p l HS HC HM HF HL. rewrite (s_ent (proj1 shannonic_all sp d (shape_all sp HS HM) HC)) by auto. f_equal. symmetry. now apply total_all. Qed.
Print Assumptions C116_entropy.
Theorem C116_cross_entropy : forall sp d p q l, supported sp -> countable sp -> mk sp = Ok d -> fits sp p -> fits sp q -> lists_all sp l -> e_cross_entropy d p q = Ok (cross (prob sp p) (prob sp q) l).
Proof. intros sp d p q l HS HC HM HF HQ HL. rewrite (s_cross (proj1 shannonic_all sp d (shape_all sp HS HM) HC)) by auto. f_equal. symmetry. now apply total_all. Qed.
Print Assumptions C116_cross_entropy.
Theorem C116_kl : forall sp d p q l, supported sp -> countable sp -> mk sp = Ok d -> fits sp p -> fits sp q -> lists_all sp l -> e_kl d p q = Ok (divergence (prob sp p) (prob sp q) l).
Proof. intros sp d p q l HS HC HM HF HQ HL. rewrite (s_kl (proj1 shannonic_all sp d (shape_all sp HS HM) HC)) by auto. f_equal. symmetry. now apply total_all. Qed.
Print Assumptions C116_kl.
Example C116_entropy_ex : supported ex_space /\ countable ex_space /\ mk ex_space = Ok ex_dist /\ fits ex_space ex_params /\ (exists l, lists_all ex_space l /\ length l = 4%nat) /\ fits ex_space (c_priors ex_dist).
Proof.
  split; [exact ex_supported|]. split; [exact ex_countable|]. split; [exact ex_made|]. split; [exact ex_fits|]. split.
  - exists (elements ex_space). split; [|reflexivity]. split; [apply elements_nodup|]. apply elements_in. exact ex_countable.
  - destruct (C111_defined ex_space ex_dist ex_supported ex_made) as [H _]. exact H.
Qed.

(** C116: the entropy of the joint distribution lies between 0 and the logarithm of the number of elements; it reaches this value exactly if all
    elements are equally likely. *)
Theorem C116_entropy_bounds : forall sp d p, supported sp -> countable sp -> mk sp = Ok d -> fits sp p ->
  exists h, e_entropy d p = Ok h /\ 0 <= h <= ln (INR (cardinality sp)) /\ (h = ln (INR (cardinality sp)) <-> forall x, inside sp x -> prob sp p x = / INR (cardinality sp)).
Proof. intros sp d p HS HC HM HF. exact (@joint_entropy sp d HS HC HM p HF). Qed.
Print Assumptions C116_entropy_bounds.
Example C116_entropy_bounds_ex : e_entropy ex_dist (c_priors ex_dist) = Ok (ln 4).
Proof.
  destruct C116_entropy_ex as (H1 & H2 & H3 & _ & _ & H4). destruct (C116_entropy_bounds _ _ _ H1 H2 H3 H4) as (h & E & _ & U). rewrite E. f_equal. replace 4 with (INR (cardinality ex_space)) by (cbn; lra). apply U. intros x Hx. now apply C111_priors.
Qed.

(** C116: kl_divergence is never negative, and 0 exactly if all elements have the same probability under both parameters. *)
Theorem C116_kl_zero : forall sp d p q, supported sp -> countable sp -> mk sp = Ok d -> fits sp p -> fits sp q -> exists k, e_kl d p q = Ok k /\ 0 <= k /\ (k = 0 <-> forall x, inside sp x -> prob sp p x = prob sp q x).
Proof. intros sp d p q HS HC HM HF HQ. exact (@joint_kl sp d HS HC HM p q HF HQ). Qed.
Print Assumptions C116_kl_zero.
Example C116_kl_zero_ex : exists k, e_kl ex_dist ex_params (c_priors ex_dist) = Ok k /\ 0 < k.
Proof.
  destruct C116_entropy_ex as (H1 & H2 & H3 & H5 & _ & H4). destruct (C116_kl_zero _ _ _ _ H1 H2 H3 H5 H4) as (k & E & P & U). exists k. split; auto. destruct P as [P|P]; auto. symmetry in P. pose proof (proj1 U P ex_elem ex_inside) as C.
  rewrite C111_priors_ex in C. destruct C111_probability_ex as (_ & _ & _ & _ & _ & _ & _ & C8). rewrite C8 in C. lra.
Qed.

(** C116, boxes included: all three are defined for parameters of the structure of the space, cross_entropy = entropy + kl_divergence, and
    kl_divergence is 0 exactly if log_proba is the same for all raw variates. *)
Theorem C116_mixed : forall sp d p q, supported sp -> mk sp = Ok d -> fits sp p -> fits sp q ->
  exists h c k, e_entropy d p = Ok h /\ e_cross_entropy d p q = Ok c /\ e_kl d p q = Ok k /\ c = h + k /\ 0 <= k /\ (k = 0 <-> forall X, variate sp X -> c_log_proba d p X = c_log_proba d q X).
Proof.
  intros sp d p q HS HM Fp Fq. pose proof (proj1 divides_all sp d (shape_all sp HS HM)) as D. destruct (v_vals D p q Fp Fq) as (h & c & k & H1 & H2 & H3 & H4 & H5 & H6 & H7). exists h, c, k. split; [exact H1|]. split; [exact H2|]. split; [exact H3|]. split; [exact H4|]. split; [exact H5|]. split; [exact H6|].
  intros E. apply (H7 0). intros X HX. destruct (v_total D p X Fp HX) as (a & A). exists a, a. split; auto. split; [rewrite <- E; auto|lra].
Qed.
Print Assumptions C116_mixed.
Definition ex_mixed : pspace := SpTuple [SpDiscrete 2 0; SpDict [(4%nat, SpBox [(None, None); (Some 0, Some 1)])]].
Definition ex_mixed_params (z mu lv : list R) : pv := VList [ex_logits z; VDict [(4%nat, VDict [(1%nat, VArr mu); (2%nat, VArr lv)])]].
Lemma ex_mixed_supported : supported ex_mixed.
Proof. cbn. split; [lia|]. split; auto. split; [constructor; [intros []|constructor]|]. split; auto. intros lo hi [E|[E|[]]]; injection E as <- <-; repeat split; lra. Qed.
Lemma ex_mixed_fits : forall z mu lv, length z = 2%nat -> length mu = 2%nat -> length lv = 2%nat -> fits ex_mixed (ex_mixed_params z mu lv).
Proof. intros z mu lv L1 L2 L3. eexists. split; [reflexivity|]. cbn. split; [now apply ex_logits_of|]. split; auto. eexists. split; [reflexivity|]. split; auto. split; auto. exists mu, lv. auto. Qed.
Lemma ex_mixed_made : exists d, mk ex_mixed = Ok d.
Proof. destruct (@good_all false ex_mixed ex_mixed_supported ltac:(discriminate)) as (d & E & _). eauto. Qed.
Lemma ex_shifted : forall x, cat_log_proba 2 [7; 7] x = cat_log_proba 2 [0; 0] x.
Proof. intros x. unfold cat_log_proba. change (check_n 2 [7; 7]) with (Ok [7; 7] : outcome (list R)). change (check_n 2 [0; 0]) with (Ok [0; 0] : outcome (list R)). cbn [bind]. replace [7; 7] with (map (fun x => x + 7) [0; 0]) by (cbn; repeat f_equal; lra). now rewrite log_softmax_shift. Qed.
Example C116_mixed_ex : exists d k, mk ex_mixed = Ok d /\ e_kl d (ex_mixed_params [0; 0] [1; 2] [0; 0]) (ex_mixed_params [7; 7] [1; 2] [0; 0]) = Ok k /\ k = 0 /\
  exists k', e_kl d (ex_mixed_params [0; 0] [1; 2] [0; 0]) (ex_mixed_params [0; 0] [1; 3] [0; 0]) = Ok k' /\ 0 < k'.
Proof.
  destruct ex_mixed_made as (d & M). assert (F : forall z mu lv, length z = 2%nat -> length mu = 2%nat -> length lv = 2%nat -> fits ex_mixed (ex_mixed_params z mu lv)) by apply ex_mixed_fits.
  destruct (C116_mixed ex_mixed d _ _ ex_mixed_supported M (F [0; 0] [1; 2] [0; 0] eq_refl eq_refl eq_refl) (F [7; 7] [1; 2] [0; 0] eq_refl eq_refl eq_refl)) as (_ & _ & k & _ & _ & E & _ & _ & Z).
  destruct (C116_mixed ex_mixed d _ _ ex_mixed_supported M (F [0; 0] [1; 2] [0; 0] eq_refl eq_refl eq_refl) (F [0; 0] [1; 3] [0; 0] eq_refl eq_refl eq_refl)) as (_ & _ & k' & _ & _ & E' & _ & P & Z').
  assert (ED : exists b, d = PNode KTuple [(0%nat, PCat 2); (1%nat, PNode KDict [(4%nat, PNorm b)])] /\ length b = 2%nat).
  { clear -M. unfold ex_mixed in M. cbn [mk] in M. unfold map_outcome in M. cbn [fst snd] in M. destruct (n_bounds None None (-256) 256); [|discriminate]. cbn [bind] in M. destruct (n_bounds (Some 0) (Some 1) (-256) 256); [|discriminate]. cbn in M. injection M as <-. eexists. split; reflexivity. }
  destruct ED as (b & -> & Lb). exists (PNode KTuple [(0%nat, PCat 2); (1%nat, PNode KDict [(4%nat, PNorm b)])]), k. split; auto. split; auto. split.
  - apply Z. intros X HX. cbn [c_log_proba]. change (part KTuple 0 (ex_mixed_params [0; 0] [1; 2] [0; 0])) with (Ok (ex_logits [0; 0]) : outcome pv). change (part KTuple 0 (ex_mixed_params [7; 7] [1; 2] [0; 0])) with (Ok (ex_logits [7; 7]) : outcome pv). change (part KTuple 1 (ex_mixed_params [7; 7] [1; 2] [0; 0])) with (part KTuple 1 (ex_mixed_params [0; 0] [1; 2] [0; 0])). cbn [bind]. change (array_at logits_key (ex_logits [7; 7])) with (Ok [7; 7] : outcome (list R)). change (array_at logits_key (ex_logits [0; 0])) with (Ok [0; 0] : outcome (list R)). cbn [bind].
    destruct (part KTuple 0 X) as [x0|]; [|reflexivity]. cbn [bind]. destruct (as_array x0) as [a|]; [|reflexivity]. cbn [bind]. now rewrite ex_shifted.
  - exists k'. split; auto. destruct P as [P|P]; auto. symmetry in P. exfalso. pose proof (proj1 Z' P (VList [VArr [0; 0]; VDict [(4%nat, VArr [1; 2])]])) as C.
    assert (V : variate ex_mixed (VList [VArr [0; 0]; VDict [(4%nat, VArr [1; 2])]])). { eexists. split; [reflexivity|]. cbn. split; [eexists; split; reflexivity|]. split; auto. eexists. split; [reflexivity|]. split; auto. split; auto. eexists. split; reflexivity. }
    specialize (C V). cbn [c_log_proba part index item nth_error lookup Nat.eqb ex_mixed_params bind as_array] in C. change (array_at logits_key (ex_logits [0; 0])) with (Ok [0; 0] : outcome (list R)) in C. cbn [bind] in C. change (np_at (VDict [(1%nat, VArr [1; 2]); (2%nat, VArr [0; 0])])) with (Ok (mkN [1; 2] [0; 0]) : outcome nparams) in C. change (np_at (VDict [(1%nat, VArr [1; 3]); (2%nat, VArr [0; 0])])) with (Ok (mkN [1; 3] [0; 0]) : outcome nparams) in C. cbn [bind] in C.
    rewrite !norm_logp in C by (try split; cbn; auto). unfold cat_log_proba in C. rewrite !check_ok in C by reflexivity. cbn [bind] in C. apply (f_equal (fun o => match o with Ok v => v | Err _ => 0 end)) in C. cbv beta iota in C. cbn [n_logvar n_mu] in C.
    assert (QQ : quad [1; 2] [1; 2] (clipped (nd_of b) [0; 0]) = quad [1; 2] [1; 3] (clipped (nd_of b) [0; 0])) by lra. unfold quad, dot, clipped in QQ. cbn in QQ. unfold Rsqr in QQ. rewrite clip20 in QQ. assert (E0 : Rmax (-20) (Rmin 20 0) = 0) by (unfold Rmax, Rmin; repeat destruct (Rle_dec _ _); lra). rewrite E0, Ropp_0, exp_0 in QQ. lra.
Qed.

(** C116: parameters without one of the components are refused: KeyError for dicts, IndexError for tuples. *)
Theorem C116_missing_key : forall l d lp q, supported (SpDict l) -> mk (SpDict l) = Ok d -> (forall k s v, In (k, s) l -> In (k, v) lp -> fits s v) -> (exists k, In k (map fst l) /\ ~ In k (map fst lp)) -> fits (SpDict l) q ->
  e_entropy d (VDict lp) = Err EKey /\ e_cross_entropy d (VDict lp) q = Err EKey /\ e_cross_entropy d q (VDict lp) = Err EKey /\ e_kl d (VDict lp) q = Err EKey /\ e_kl d q (VDict lp) = Err EKey.
Proof.
  intros l d lp q HS HM HP (k0 & K1 & K2) Fq. destruct (@mk_dict_shapes l d HS HM) as (ds & -> & SH). pose proof (shapes_len SH) as LS. assert (L : length (map fst l) = length ds) by (rewrite <- LS, !map_length; auto).
  assert (NK : part KDict k0 (VDict lp) = Err EKey) by (cbn; now rewrite lookup_none). pose proof (dict_parts l lp HP) as PP.
  assert (PQ : forall k s, In (k, s) (combine (map fst l) (map snd l)) -> okay s (part KDict k q)).
  { apply fits_dict in Fq. destruct Fq as (qs & -> & K & F). apply supported_dict in HS. destruct HS as [ND _]. rewrite <- K in ND. pose proof (@lookup_combine _ (map fst qs) (map snd qs) ND ltac:(now rewrite !map_length)) as LK. rewrite combine_fst_snd in LK. rewrite <- K. intros k s HI. cbn [part item]. clear -LK F HI. revert LK F HI. generalize (map fst qs) as ks, (map snd l) as ss, (map snd qs) as vs. intros ks ss vs LK. revert ss. induction LK as [|a b ks vs E LK IH]; intros ss F HI; inversion F; subst; [destruct HI|]. cbn in HI. destruct HI as [X|HI]; [injection X as -> ->; exists b; split; [now rewrite E|auto]|eauto]. }
  unfold e_cross_entropy, e_kl. rewrite ent_node, !pair_node. repeat split.
  - apply (@ent_missing _ _ _ _ _ SH _ L PP). exists k0. auto.
  - apply (@pair_missing _ _ cross_defined _ _ _ _ _ _ SH _ L); [|exists k0; auto]. intros k s HI. split; auto.
  - apply (@pair_missing _ _ cross_defined _ _ _ _ _ _ SH _ L); [|exists k0; auto]. intros k s HI. split; auto.
  - apply (@pair_missing _ _ kl_defined _ _ _ _ _ _ SH _ L); [|exists k0; auto]. intros k s HI. split; auto.
  - apply (@pair_missing _ _ kl_defined _ _ _ _ _ _ SH _ L); [|exists k0; auto]. intros k s HI. split; auto.
Qed.
Print Assumptions C116_missing_key.
Theorem C116_missing_index : forall ss d ps q, supported (SpTuple ss) -> mk (SpTuple ss) = Ok d -> (length ps < length ss)%nat -> (forall i, (i < length ps)%nat -> fits (nth i ss SpOther) (nth i ps (VList []))) -> fits (SpTuple ss) q ->
  e_entropy d (VList ps) = Err EIndex /\ e_cross_entropy d (VList ps) q = Err EIndex /\ e_cross_entropy d q (VList ps) = Err EIndex /\ e_kl d (VList ps) q = Err EIndex /\ e_kl d q (VList ps) = Err EIndex.
Proof.
  intros ss d ps q HS HM HL HP Fq. destruct (@mk_tuple_shapes ss d HS HM) as (ds & -> & SH). pose proof (shapes_len SH) as LS. assert (L : length (seq 0 (length ss)) = length ds) by (rewrite seq_length; auto).
  assert (NK : In (length ps) (seq 0 (length ss)) /\ part KTuple (length ps) (VList ps) = Err EIndex) by (split; [apply in_seq; lia|cbn; rewrite (proj2 (nth_error_None ps (length ps))); auto]). pose proof (tuple_parts ss ps HP) as PP. destruct NK as [NK1 NK2].
  assert (PQ : forall k s, In (k, s) (combine (seq 0 (length ss)) ss) -> okay s (part KTuple k q)).
  { apply fits_tuple in Fq. destruct Fq as (qs & -> & F). intros k s HI. pose proof (tuple_parts ss qs) as T. assert (G : forall i, (i < length qs)%nat -> fits (nth i ss SpOther) (nth i qs (VList []))). { clear -F. induction F; intros [|i] Hi; cbn in *; try lia; auto. apply IHF. lia. }
    destruct (T G k s HI) as [O|E]; auto. exfalso. apply in_combine_l, in_seq in HI. apply Forall2_len in F. cbn in E. destruct (nth_error qs k) eqn:N; [discriminate|]. apply nth_error_None in N. lia. }
  unfold e_cross_entropy, e_kl. rewrite ent_node, !pair_node. repeat split.
  - apply (@ent_missing _ _ _ _ _ SH _ L PP). exists (length ps). auto.
  - apply (@pair_missing _ _ cross_defined _ _ _ _ _ _ SH _ L); [|exists (length ps); auto]. intros k s HI. split; auto.
  - apply (@pair_missing _ _ cross_defined _ _ _ _ _ _ SH _ L); [|exists (length ps); auto]. intros k s HI. split; auto.
  - apply (@pair_missing _ _ kl_defined _ _ _ _ _ _ SH _ L); [|exists (length ps); auto]. intros k s HI. split; auto.
  - apply (@pair_missing _ _ kl_defined _ _ _ _ _ _ SH _ L); [|exists (length ps); auto]. intros k s HI. split; auto.
Qed.
Print Assumptions C116_missing_index.
Example C116_missing_ex : supported ex_space /\ mk ex_space = Ok ex_dist /\ fits ex_space ex_params /\ e_kl ex_dist (VDict [(3%nat, VList [VList [ex_logits [5]; ex_logits [0; 0]]])]) ex_params = Err EKey.
Proof. split; [exact ex_supported|]. split; [exact ex_made|]. split; [exact ex_fits|]. reflexivity. Qed.

Lemma moved_dict1 : forall k s p sc sh r, moved (SpDict [(k, s)]) (VDict [(k, p)]) (VDict [(k, sc)]) (VDict [(k, sh)]) r -> exists r1, r = ADict [(k, r1)] /\ moved s p sc sh r1.
Proof.
  intros k s p sc sh r H. inversion H as [| |ks ss ps scs shs rs L Ms E1 E2 E3 E4 E5]; subst. destruct ks as [|k0 [|k1 ks]]; cbn in E1; try discriminate; destruct Ms as [|s0 ss0 p0 ps0 sc0 scs0 sh0 shs0 r0 rs0 M1 M2]; cbn in E1, E2, E3, E4, L; try discriminate.
  - destruct M2; [|discriminate]. injection E1 as -> ->. injection E2 as ->. injection E3 as ->. injection E4 as ->. exists r0. split; auto.
  - destruct M2; discriminate.
Qed.
(** C116: affine_transform of a distribution over boxes, without value_transform: shift is added to mu and the variance is multiplied with the square of
    scale, in every coordinate of every box. *)
Theorem C116_affine : forall sp d p scale shift, supported sp -> boxes sp -> mk sp = Ok d -> fits sp p -> variate sp scale -> variate sp shift ->
  exists r, e_affine d p scale shift VNone = Ok r /\ moved sp p scale shift r.
Proof. intros sp d p sc sh HS HB HM Fp Fs Ft. exact (proj1 affine_boxes sp d (shape_all sp HS HM) HB p sc sh Fp Fs Ft). Qed.
Print Assumptions C116_affine.
(** C116: so the mean of the result is not scale * mean + shift, as documented: mu is not multiplied with scale. *)
Theorem C116_affine_refuted : exists bs d mu lv scale shift r mu' lv', supported (SpTuple [SpBox bs]) /\ mk (SpTuple [SpBox bs]) = Ok d /\ e_affine d (VList [VDict [(1%nat, VArr mu); (2%nat, VArr lv)]]) (VList [VArr scale]) (VList [VArr shift]) VNone = Ok r /\
  r = AList [ALeaf mu' lv'] /\ nth 0 mu' 0 <> nth 0 scale 0 * nth 0 mu 0 + nth 0 shift 0.
Proof.
  set (bs := [(None, None) : option R * option R]). assert (HS : supported (SpTuple [SpBox bs])) by (cbn; split; auto; intros lo hi [E|[]]; injection E as <- <-; repeat split).
  destruct (@good_all false _ HS ltac:(discriminate)) as (d & M & _). destruct (C116_affine (SpTuple [SpBox bs]) d (VList [VDict [(1%nat, VArr [1]); (2%nat, VArr [0])]]) (VList [VArr [2]]) (VList [VArr [0]]) HS) as (r & E & Mv); auto.
  - cbn. auto.
  - eexists. split; [reflexivity|]. cbn. split; auto. exists [1], [0]. auto.
  - eexists. split; [reflexivity|]. cbn. split; auto. exists [2]. auto.
  - eexists. split; [reflexivity|]. cbn. split; auto. exists [0]. auto.
  - inversion Mv as [|ss' ps' scs' shs' rs Ms|]; subst. inversion Ms as [|? ? ? ? ? ? ? ? r rs' M1 M2]; subst. inversion M2; subst. inversion M1 as [? ? ? ? ? mu' lv' L1 L2 HC| |]; subst. exists bs, d, [1], [0], [2], [0], (AList [ALeaf mu' lv']), mu', lv'. repeat (split; auto). destruct (HC 0%nat ltac:(cbn; lia)) as [HC0 _]. cbn in HC0. cbn. rewrite HC0. lra.
Qed.
Print Assumptions C116_affine_refuted.
(** C116: if there is a space of integers anywhere inside, affine_transform raises NotImplementedError. *)
Theorem C116_affine_integers : forall sp d p scale shift s, supported sp -> mk sp = Ok d -> fits sp p -> variate sp scale -> variate sp shift -> contains sp s -> integers s -> e_affine d p scale shift VNone = Err ENotImplemented.
Proof.
  intros sp d p sc sh s HS HM Fp Fs Ft HC HI. destruct (proj1 affine_ints sp d (shape_all sp HS HM) p sc sh Fp Fs Ft) as [(r & _ & N)|E]; [|exact E]. exfalso. apply N. exists s. auto.
Qed.
Print Assumptions C116_affine_integers.
(** C116: a value_transform with a function anywhere inside is refused, whatever the other arguments (the function is jitted without declaring that
    argument static). *)
Theorem C116_value_transform_refused : forall d p scale shift v, has_function v -> e_affine d p scale shift v = Err EType.
Proof. intros d p sc sh v H. unfold e_affine. now rewrite (not_jittable H). Qed.
Print Assumptions C116_value_transform_refused.
(** C116: dicts with other keys than the space: AssertionError, before anything else is looked at; the same for value_transform. *)
Lemma has_key : forall k l, existsb (Nat.eqb k) l = true <-> In k l.
Proof. intros k l. rewrite existsb_exists. split; [intros (x & HI & E); apply Nat.eqb_eq in E; now subst|intros HI; exists k; split; auto; apply Nat.eqb_refl]. Qed.
Lemma same_keys_iff : forall a b, same_keys a b = true <-> forall k, In k a <-> In k b.
Proof.
  intros a b. unfold same_keys. rewrite andb_true_iff, !forallb_forall. split.
  - intros [H1 H2] k. split; intros HI; apply has_key; auto.
  - intros H. split; intros k HI; apply has_key; now apply H.
Qed.
Lemma jittable_none : forall v, ~ has_function v -> jittable v = true.
Proof.
  fix IH 1. intros [| |l|l] H; [reflexivity|exfalso; apply H; constructor| |]; cbn.
  - assert (G : forall x, In x l -> ~ has_function x) by (intros x HI F; apply H; now apply hf_list with (v := x)). clear H. induction l as [|x l IHl]; [reflexivity|]. cbn. rewrite (IH x) by (apply G; now left). apply IHl. intros y HI. apply G. now right.
  - assert (G : forall k x, In (k, x) l -> ~ has_function x) by (intros k x HI F; apply H; now apply hf_dict with (k := k) (v := x)). clear H. induction l as [|[k x] l IHl]; [reflexivity|]. cbn. rewrite (IH x) by (apply (G k); now left). apply IHl. intros j y HI. apply (G j). now right.
Qed.
Theorem C116_affine_keys : forall l d lp ls lt v, mk (SpDict l) = Ok d -> ~ has_function v ->
  (~ (forall k, In k (map fst lp) <-> In k (map fst l)) \/ ~ (forall k, In k (map fst ls) <-> In k (map fst l)) \/ ~ (forall k, In k (map fst lt) <-> In k (map fst l)) \/ (exists m, v = VTd m /\ ~ (forall k, In k (map fst m) <-> In k (map fst l)))) ->
  e_affine d (VDict lp) (VDict ls) (VDict lt) v = Err EAssertion.
Proof.
  intros l d lp ls lt v HM HF HK. unfold e_affine. rewrite (@jittable_none v HF). rewrite mk_dict_eq in HM. destruct (mk_dict l) as [ds|] eqn:EM; [|discriminate]. cbn in HM. injection HM as <-. apply mk_dict_ok in EM. destruct EM as [K _]. rewrite affine_node. cbn [check_parts keys_of bind].
  destruct (same_keys (map fst lp) (map fst ls)) eqn:E1; [|reflexivity]. cbn [assert_ bind]. destruct (same_keys (map fst ls) (map fst lt)) eqn:E2; [|reflexivity]. cbn [assert_ bind]. destruct (same_keys (map fst lt) (map fst ds)) eqn:E3; [|reflexivity]. cbn [assert_ bind].
  rewrite same_keys_iff in E1, E2, E3. rewrite K in E3. destruct HK as [H|[H|[H|(m & -> & H)]]].
  - exfalso. apply H. intros k. now rewrite E1, E2, E3.
  - exfalso. apply H. intros k. now rewrite E2, E3.
  - exfalso. apply H. exact E3.
  - cbn [check_vt]. destruct (same_keys (map fst m) (map fst ds)) eqn:E4; [|reflexivity]. exfalso. apply H. rewrite same_keys_iff in E4. rewrite K in E4. exact E4.
Qed.
Print Assumptions C116_affine_keys.
(** C116: lists of another length: AssertionError. *)
Theorem C116_affine_lengths : forall ss d ps scs shs v, mk (SpTuple ss) = Ok d -> ~ has_function v ->
  (length ps <> length ss \/ length scs <> length ss \/ length shs <> length ss \/ (exists m, v = VTs m /\ length m <> length ss)) -> e_affine d (VList ps) (VList scs) (VList shs) v = Err EAssertion.
Proof.
  intros ss d ps scs shs v HM HF HK. unfold e_affine. rewrite (@jittable_none v HF). rewrite mk_tuple_eq in HM. destruct (mk_list ss) as [ds|] eqn:EM; [|discriminate]. cbn in HM. injection HM as <-. apply mk_list_ok in EM. pose proof (Forall2_len EM) as F. rewrite affine_node. cbn [check_parts len_of bind]. rewrite enum_combine, combine_length, seq_length, Nat.min_id.
  destruct (Nat.eqb (length ps) (length scs)) eqn:E1; [|reflexivity]. cbn [assert_ bind]. destruct (Nat.eqb (length scs) (length shs)) eqn:E2; [|reflexivity]. cbn [assert_ bind]. destruct (Nat.eqb (length shs) (length ds)) eqn:E3; [|reflexivity]. cbn [assert_ bind]. apply Nat.eqb_eq in E1, E2, E3.
  destruct HK as [H|[H|[H|(m & -> & H)]]]; try (exfalso; lia). cbn [check_vt]. rewrite combine_length, seq_length, Nat.min_id. destruct (Nat.eqb (length m) (length ds)) eqn:E4; [|reflexivity]. apply Nat.eqb_eq in E4. exfalso. lia.
Qed.
Print Assumptions C116_affine_lengths.
(** C116: a dict of None with the right keys is like None. *)
Theorem C116_affine_nones : forall l d p scale shift m, mk (SpDict l) = Ok d -> (forall k, In k (map fst m) <-> In k (map fst l)) -> (forall k v, In (k, v) m -> v = VNone) ->
  e_affine d p scale shift (VTd m) = e_affine d p scale shift VNone.
Proof.
  intros l d p scale shift m HM HK HN. unfold e_affine. rewrite jittable_none by (intros H; inversion H as [| |k v l0 HI HF]; subst; rewrite (HN k v HI) in HF; inversion HF). cbn [jittable]. rewrite mk_dict_eq in HM. destruct (mk_dict l) as [ds|] eqn:EM; [|discriminate]. cbn in HM. injection HM as <-. apply mk_dict_ok in EM. destruct EM as [K _]. rewrite !affine_node. apply bind_ext. intros _. cbn [check_vt].
  rewrite (proj2 (same_keys_iff (map fst m) (map fst ds))) by (rewrite K; exact HK). cbn [assert_ bind]. replace (affine_list KDict p scale shift (VTd m) ds) with (affine_list KDict p scale shift VNone ds); [reflexivity|].
  rewrite <- K in HK. assert (G : forall k, In k (map fst ds) -> lookup k m = Some VNone).
  { intros k HI. apply HK in HI. clear HK. induction m as [|[j v] m IH]; [destruct HI|]. cbn. destruct (Nat.eqb k j) eqn:E; [f_equal; apply (HN j); now left|]. apply IH; [|destruct HI as [HI|HI]; auto; cbn in HI; subst; now rewrite Nat.eqb_refl in E]. intros q w HQ. apply (HN q). now right. }
  clear HK K. induction ds as [|[k d'] r IH]; [reflexivity|]. cbn [affine_list vt_part]. rewrite (G k) by now left. apply bind_ext. intros p'. apply bind_ext. intros s'. apply bind_ext. intros t'. cbn [bind]. apply bind_ext. intros a. rewrite IH; [reflexivity|]. intros j HI. apply G. now right.
Qed.
Print Assumptions C116_affine_nones.
(** C116: at a box, scales and shifts whose shape cannot be broadcast are a TypeError, a list or dict as value_transform is a ValueError (it is an
    unhashable static argument). *)
Theorem C116_affine_box : forall bs d p sc sh, mk (SpBox bs) = Ok d -> fits (SpBox bs) p ->
  (length sc <> length bs -> length sc <> 1%nat -> length bs <> 1%nat -> e_affine d p (VArr sc) (VArr sh) VNone = Err EType) /\
  (length sc = length bs -> length sh <> length bs -> length sh <> 1%nat -> length bs <> 1%nat -> e_affine d p (VArr sc) (VArr sh) VNone = Err EType) /\
  (forall x scale shift, ~ has_function x -> x <> VNone -> e_affine d p scale shift x = Err EValue).
Proof.
  assert (BL : forall f a b, length a <> length b -> length a <> 1%nat -> length b <> 1%nat -> bcast f a b = Err EType).
  { intros f a b H1 H2 H3. unfold bcast. rewrite (proj2 (Nat.eqb_neq _ _) H1). destruct a as [|x [|y a]]; [| |]; destruct b as [|u [|w b]]; cbn in *; try reflexivity; try lia. }
  intros bs d p sc sh HM (mu & lv & -> & L1 & L2). cbn [mk] in HM. destruct (map_outcome _ bs) as [cs|] eqn:EM; [|discriminate]. cbn in HM. injection HM as <-. assert (LC : length cs = length bs) by (symmetry; apply map_outcome_ok in EM; exact (Forall2_len EM)).
  assert (LV : forall w, check_logvar (nd_of cs) lv = Ok w -> length w = length bs). { intros w. unfold check_logvar, check_n. cbn. rewrite LC, L2, Nat.eqb_refl. cbn. intros E. injection E as <-. now rewrite map_length. }
  assert (CV : exists w, check_logvar (nd_of cs) lv = Ok w). { unfold check_logvar, check_n. cbn. rewrite LC, L2, Nat.eqb_refl. cbn. eauto. } destruct CV as [w Ew]. specialize (LV w Ew).
  split; [|split].
  - intros H1 H2 H3. unfold e_affine. cbn [jittable affine_in norm_affine]. unfold check_n. cbn [array_at item lookup mu_key logvar_key Nat.eqb bind]. rewrite L1, LC, Nat.eqb_refl. cbn [bind]. rewrite Ew. cbn [bind as_array]. rewrite BL by (rewrite ?map_length; congruence). reflexivity.
  - intros H0 H1 H2 H3. unfold e_affine. cbn [jittable affine_in norm_affine]. unfold check_n. cbn [array_at item lookup mu_key logvar_key Nat.eqb bind]. rewrite L1, LC, Nat.eqb_refl. cbn [bind]. rewrite Ew. cbn [bind as_array]. unfold bcast at 1. rewrite map_length, LV, H0, Nat.eqb_refl. cbn [bind]. rewrite BL by congruence. reflexivity.
  - intros x scale shift HF HN. unfold e_affine. rewrite (@jittable_none x HF). cbn [affine_in norm_affine]. destruct x; [congruence|exfalso; apply HF; constructor|reflexivity|reflexivity].
Qed.
Print Assumptions C116_affine_box.
Example C116_affine_box_ex : exists d, mk (SpBox [(None, None); (None, None)]) = Ok d /\ fits (SpBox [(None, None); (None, None)]) (VDict [(1%nat, VArr [1; 2]); (2%nat, VArr [0; 0])]) /\ length [1; 2; 3] <> 2%nat /\ ~ has_function (VTs []).
Proof.
  destruct (@good_all false (SpBox [(None, None); (None, None)])) as (d & M & _); [intros lo hi [E|[E|[]]]; injection E as <- <-; repeat split|discriminate|]. exists d. split; auto. split; [exists [1; 2], [0; 0]; auto|]. split; [cbn; lia|]. intros H. inversion H as [|v l HI HF|]; destruct HI.
Qed.
(** C116: a list where the space is a dict, or a list as its value_transform; a dict where the space is a tuple. *)
Theorem C116_affine_mismatch : forall l ss d dt, mk (SpDict l) = Ok d -> mk (SpTuple ss) = Ok dt ->
  (forall x ps scale shift, e_affine d (VList (x :: ps)) scale shift VNone = Err EType) /\
  (forall lp ls lt m, (forall k, In k (map fst lp) <-> In k (map fst l)) -> (forall k, In k (map fst ls) <-> In k (map fst l)) -> (forall k, In k (map fst lt) <-> In k (map fst l)) -> ~ has_function (VTs m) -> l <> [] \/ m <> [] ->
     e_affine d (VDict lp) (VDict ls) (VDict lt) (VTs m) = Err (if forallb (fun v => match v with VNone => true | _ => false end) m then EAssertion else EType)) /\
  (forall lp scs shift, length lp <> length ss -> length scs = length ss -> e_affine dt (VDict lp) (VList scs) shift VNone = Err EAssertion) /\
  (forall ps scs shs m, length ps = length ss -> length scs = length ss -> length shs = length ss -> ss <> [] -> ~ has_function (VTd m) ->
     e_affine dt (VList ps) (VList scs) (VList shs) (VTd m) = Err (if Nat.eqb (length m) (length ss) then EKey else EAssertion)).
Proof.
  intros l ss d dt HM HT. rewrite mk_dict_eq in HM. destruct (mk_dict l) as [ds|] eqn:EM; [|discriminate]. cbn in HM. injection HM as <-. apply mk_dict_ok in EM. destruct EM as [K _].
  rewrite mk_tuple_eq in HT. destruct (mk_list ss) as [es|] eqn:ET; [|discriminate]. cbn in HT. injection HT as <-. apply mk_list_ok in ET. pose proof (Forall2_len ET) as F.
  split; [|split; [|split]].
  - intros x ps scale shift. unfold e_affine. cbn [jittable]. rewrite affine_node. reflexivity.
  - intros lp ls lt m H1 H2 H3 HF NE. unfold e_affine. rewrite (@jittable_none _ HF). rewrite affine_node. cbn [check_parts keys_of bind]. rewrite !(proj2 (same_keys_iff _ _)) by (intros k; rewrite ?K, ?H1, ?H2, ?H3; reflexivity). cbn [assert_ bind check_vt].
    assert (EB : existsb (fun x => match x with VNone => false | _ => true end) m = negb (forallb (fun v => match v with VNone => true | _ => false end) m)). { clear. induction m as [|[] m IH]; cbn; auto. }
    rewrite EB. destruct (forallb _ m) eqn:FB; cbn [negb]; [|reflexivity]. assert (Z : Nat.eqb (length m) 0 && Nat.eqb (length ds) 0 = false). { assert (LD : length ds = length l) by (rewrite <- (map_length fst ds), K, map_length; reflexivity). rewrite LD. destruct l as [|a l]; [|cbn; now rewrite andb_false_r]. destruct m as [|b m]; [destruct NE; congruence|reflexivity]. } rewrite Z. reflexivity.
  - intros lp scs shift H1 H2. unfold e_affine. cbn [jittable]. rewrite affine_node. cbn [check_parts len_of bind]. rewrite H2. rewrite (proj2 (Nat.eqb_neq _ _) H1). reflexivity.
  - intros ps scs shs m H1 H2 H3 NE HF. unfold e_affine. rewrite (@jittable_none _ HF). rewrite affine_node. cbn [check_parts len_of bind]. rewrite enum_combine, combine_length, seq_length, Nat.min_id, H1, H2, H3, <- F, Nat.eqb_refl. cbn [assert_ bind check_vt]. rewrite combine_length, seq_length, <- F, Nat.min_id.
    destruct (Nat.eqb_spec (length m) (length ss)) as [E|E]; [|reflexivity]. cbn [assert_ bind].
    destruct ss as [|s0 ss]; [congruence|]. destruct es as [|e0 es]; [discriminate|]. destruct ps as [|p0 ps]; [discriminate|]. destruct scs as [|c0 scs]; [discriminate|]. destruct shs as [|h0 shs]; [discriminate|]. reflexivity.
Qed.
Print Assumptions C116_affine_mismatch.
Example C116_affine_keys_ex : mk (SpDict [(4%nat, SpDiscrete 2 0)]) = Ok (PNode KDict [(4%nat, PCat 2)]) /\ ~ has_function (VTd [(5%nat, VNone)]) /\ ~ (forall k, In k (map fst [(5%nat, VNone)]) <-> In k (map fst [(4%nat, SpDiscrete 2 0)])).
Proof.
  split; [reflexivity|]. split; [intros H; inversion H as [| |k v l HI HF]; destruct HI as [E|[]]; inversion E; subst; inversion HF|]. intros H. destruct (proj2 (H 4%nat)) as [E|[]]; [now left|]. discriminate.
Qed.
Example C116_affine_ex : exists d r, let sp := SpDict [(4%nat, SpBox [(None, None); (Some 0, Some 1)])] in
  supported sp /\ boxes sp /\ mk sp = Ok d /\ e_affine d (VDict [(4%nat, VDict [(1%nat, VArr [1; 2]); (2%nat, VArr [0; 50])])]) (VDict [(4%nat, VArr [3; 0])]) (VDict [(4%nat, VArr [5; 6])]) VNone = Ok r /\ (exists lv, r = ADict [(4%nat, ALeaf [6; 8] [lv; XNegInf])]) /\
  contains ex_mixed (SpDiscrete 2 0) /\ integers (SpDiscrete 2 0) /\ has_function (VTs [VNone; VTd [(4%nat, VFun)]]).
Proof.
  set (sp := SpDict [(4%nat, SpBox [(None, None); (Some 0, Some 1)])]). assert (HS : supported sp) by (cbn; split; [constructor; [intros []|constructor]|]; split; auto; intros lo hi [E|[E|[]]]; injection E as <- <-; repeat split; lra).
  destruct (@good_all false _ HS ltac:(discriminate)) as (d & M & _). destruct (C116_affine sp d (VDict [(4%nat, VDict [(1%nat, VArr [1; 2]); (2%nat, VArr [0; 50])])]) (VDict [(4%nat, VArr [3; 0])]) (VDict [(4%nat, VArr [5; 6])]) HS) as (r & E & Mv); auto.
  - cbn. auto.
  - eexists. split; [reflexivity|]. cbn. split; auto. split; auto. exists [1; 2], [0; 50]. auto.
  - eexists. split; [reflexivity|]. cbn. split; auto. split; auto. exists [3; 0]. auto.
  - eexists. split; [reflexivity|]. cbn. split; auto. split; auto. exists [5; 6]. auto.
  - exists d, r. cbv zeta. split; auto. split; [cbn; auto|]. split; auto. split; auto. split; [|split; [apply in_tuple with (t := SpDiscrete 2 0); [now left|constructor]|split; [exact I|]]].
    + clear E. apply moved_dict1 in Mv. destruct Mv as (r1 & -> & Mv). inversion Mv as [? ? ? ? ? mu' lv' L1 L2 HC| |]; subst. destruct (HC 0%nat ltac:(cbn; lia)) as [A0 _]. destruct (HC 1%nat ltac:(cbn; lia)) as [A1 B1]. cbn in L1, L2. destruct mu' as [|m0 [|m1 [|]]]; try discriminate. destruct lv' as [|l0 [|l1 [|]]]; try discriminate. cbn in A0, A1, B1. exists l0. subst m0 m1. replace (1 + 5) with 6 by lra. replace (2 + 6) with 8 by lra. rewrite Rmult_0_r, Rmult_0_r in B1. destruct l1 as [x| |]; cbn in B1; auto; [pose proof (exp_pos x); lra|contradiction].
    + apply hf_list with (v := VTd [(4%nat, VFun)]); [right; now left|]. apply hf_dict with (k := 4%nat) (v := VFun); [now left|constructor].
Qed.
