(** Composite distributions: every node of a structure comes from a list of subspaces. *)
From Coq Require Import List ZArith Lia Bool Reals Lra.
From Verif Require Import PyCommon CommonProofs UtilsModel UtilsSpec UtilsProofs2 UtilsProofs3 TDSpec TDProofs DistModel DistSpec DistProofs DistProofs2 PolicySpec PolicyProofs3 MeanSpec MeanProofs CompModel CompSpec CompProofs CompProofs2 CompProofs3 CompProofs4 CompProofs5 CompProofs7 EntModel EntSpec.
Import ListNotations.
Set Implicit Arguments.
Local Open Scope R_scope.

(** [P] holds for the trees of [sp] exactly if they are built from trees of the subspaces. *)
Definition splits (kd : kind) (ks : list nat) (ss : list pspace) (P : pspace -> pv -> Prop) (sp : pspace) : Prop :=
  forall p, P sp p <-> exists ps, p = build kd (combine ks ps) /\ Forall2 P ss ps.
Definition unint (c : clean) : Z := match c with CInt z => z | _ => 0%Z end.

Inductive shape : pspace -> pdist -> Prop :=
| sh_cat : forall n s, (1 <= n)%nat -> shape (SpDiscrete n s) (PCat n)
| sh_box : forall bs bd, Forall2 (fun b y => n_bounds (fst b) (snd b) (-256) 256 = Ok y) bs bd -> shape (SpBox bs) (PNorm bd)
| sh_node : forall sp kd ks ss ds, keys_ok kd ks -> length ks = length ds -> shapes ss ds -> splits kd ks ss fits sp -> splits kd ks ss variate sp ->
    (forall s, contains sp s -> s = sp \/ exists t, In t ss /\ (contains t s \/ integers s /\ integers t)) ->
    (integers sp -> ss <> [] /\ forall s, In s ss -> integers s) ->
    (boxes sp -> Forall boxes ss) ->
    (countable sp -> Forall countable ss /\ exists f, elements sp = map f (choices (map elements ss)) /\ forall ps xs, Forall2 inside ss xs -> length ps = length ss -> prob sp (build kd (combine ks ps)) (f xs) = probs ss ps xs) ->
    (forall ps scs shs rs, boxes sp -> moveds ss ps scs shs rs -> moved sp (build kd (combine ks ps)) (build kd (combine ks scs)) (build kd (combine ks shs)) (abuild kd (combine ks rs))) ->
    shape sp (PNode kd (combine ks ds))
with shapes : list pspace -> list pdist -> Prop :=
| shs_nil : shapes [] []
| shs_cons : forall s d ss ds, shape s d -> shapes ss ds -> shapes (s :: ss) (d :: ds).
Scheme shape_mut := Induction for shape Sort Prop with shapes_mut := Induction for shapes Sort Prop.
Combined Scheme shape_shapes_ind from shape_mut, shapes_mut.

Lemma shapes_F2 : forall ss ds, shapes ss ds <-> Forall2 shape ss ds.
Proof. intros ss ds. split; intros H; induction H; constructor; auto. Qed.
Lemma shapes_len : forall ss ds, shapes ss ds -> length ss = length ds.
Proof. intros ss ds H. apply shapes_F2 in H. now apply Forall2_len in H. Qed.

Lemma build_inj_len : forall kd (ks : list nat) (ps : list pv), length ks = length ps -> kd <> KDict -> build kd (combine ks ps) = VList ps.
Proof. intros kd ks ps L N. destruct kd; cbn [build]; try congruence; now rewrite map_snd_combine. Qed.
Lemma abuild_list : forall kd (ks : list nat) (rs : list aout), length ks = length rs -> kd <> KDict -> abuild kd (combine ks rs) = AList rs.
Proof. intros kd ks ps L N. destruct kd; cbn [abuild]; try congruence; now rewrite map_snd_combine. Qed.

Lemma choices_map : forall {A B} (g : A -> B) ls, choices (map (map g) ls) = map (map g) (choices ls).
Proof.
  intros A B g ls. induction ls as [|L ls IH]; [reflexivity|]. cbn [map choices]. rewrite IH. clear IH. induction L as [|x L IH]; [reflexivity|]. cbn [map flat_map]. rewrite map_app, IH. f_equal. rewrite !map_map. reflexivity.
Qed.
Lemma moveds_len : forall ss ps scs shs rs, moveds ss ps scs shs rs -> length ps = length ss /\ length scs = length ss /\ length shs = length ss /\ length rs = length ss.
Proof. intros ss ps scs shs rs H. induction H; cbn; [auto|]. destruct IHmoveds as (? & ? & ? & ?). repeat split; congruence. Qed.

Lemma enum_combine : forall {A} (l : list A), enum l = combine (seq 0 (length l)) l. Proof. reflexivity. Qed.
Lemma seq_ok : forall kd n, kd <> KDict -> keys_ok kd (seq 0 n).
Proof. intros kd n N. destruct kd; cbn; try congruence; now rewrite seq_length. Qed.

Lemma splits_seq : forall kd ss (P : pspace -> pv -> Prop) sp, kd <> KDict -> (forall p, P sp p <-> exists ps, p = VList ps /\ Forall2 P ss ps) -> splits kd (seq 0 (length ss)) ss P sp.
Proof.
  intros kd ss P sp N H p. rewrite H. split; intros (ps & -> & F); exists ps; (split; [|exact F]); rewrite build_inj_len; auto; rewrite seq_length; now apply Forall2_len in F.
Qed.

(** Spaces of several integers: subspaces Discrete(n). *)
Definition discs (nv : list nat) : list pspace := map (fun n => SpDiscrete n 0) nv.
Lemma discs_elements : forall nv, choices (map elements (discs nv)) = map (map CInt) (choices (map (fun n => map Z.of_nat (seq 0 n)) nv)).
Proof.
  intros nv. rewrite <- choices_map. f_equal. unfold discs. rewrite !map_map. apply map_ext. intros n. cbn [elements]. rewrite map_map. reflexivity.
Qed.
Lemma discs_probs : forall nv ps zs, length ps = length nv -> length zs = length nv -> probs (discs nv) ps (map CInt zs) = product (map (fun t => prob_int (fst (fst t)) (snd (fst t)) (snd t)) (combine (combine nv ps) zs)).
Proof. induction nv as [|n nv IH]; intros [|p ps] [|z zs] L1 L2; try discriminate; [reflexivity|]. cbn. rewrite IH by (cbn in *; lia). reflexivity. Qed.
Lemma discs_inside : forall nv xs, Forall2 inside (discs nv) xs -> xs = map CInt (map unint xs) /\ length (map unint xs) = length nv.
Proof.
  intros nv xs H. split.
  - revert xs H. induction nv as [|n nv IH]; intros xs H; inversion H; subst; [reflexivity|]. cbn. rewrite <- IH by auto. destruct y; try contradiction. reflexivity.
  - rewrite map_length. apply Forall2_len in H. unfold discs in H. rewrite map_length in H. auto.
Qed.
Lemma product_bin : forall ps zs, product (map (fun t => prob_int (fst (fst t)) (snd (fst t)) (snd t)) (combine (combine (repeat 2%nat (length ps)) ps) zs)) = product (map (fun t => prob_int 2 (fst t) (snd t)) (combine ps zs)).
Proof. induction ps as [|p ps IH]; intros [|z zs]; cbn; try reflexivity. now rewrite IH. Qed.

Lemma shape_discs : forall nv, (forall n, In n nv -> (1 <= n)%nat) -> shapes (discs nv) (map PCat nv).
Proof. induction nv as [|n nv IH]; intros H; cbn; constructor; [constructor; apply H; now left|]. apply IH. intros m Hm. apply H. now right. Qed.
Lemma discs_len : forall nv, length (discs nv) = length nv. Proof. intros. apply map_length. Qed.
Lemma discs_in : forall nv s, In s (discs nv) -> integers s.
Proof. intros nv s H. apply in_map_iff in H. destruct H as (n & <- & _). exact I. Qed.
Lemma contains_leaf : forall sp s, contains sp s -> (match sp with SpTuple _ | SpDict _ => False | _ => True end) -> s = sp.
Proof. intros sp s H. destruct H; auto; contradiction. Qed.

Lemma multi_fits_iff : forall nv p, fits (SpMultiDiscrete nv) p <-> exists ps, p = VList ps /\ Forall2 fits (discs nv) ps.
Proof. intros nv p. cbn [fits]. unfold discs. split; intros (ps & -> & F); exists ps; (split; [reflexivity|]); [apply (proj2 (Forall2_map_l _ _ _ _))|apply (proj1 (Forall2_map_l _ _ _ _)) in F]; exact F. Qed.
Lemma multi_variate_iff : forall nv p, variate (SpMultiDiscrete nv) p <-> exists ps, p = VList ps /\ Forall2 variate (discs nv) ps.
Proof. intros nv p. cbn [variate]. unfold discs. split; intros (ps & -> & F); exists ps; (split; [reflexivity|]); [apply (proj2 (Forall2_map_l _ _ _ _))|apply (proj1 (Forall2_map_l _ _ _ _)) in F]; exact F. Qed.
Lemma bin_fits_iff : forall n p, fits (SpMultiBinary n) p <-> exists ps, p = VList ps /\ Forall2 fits (discs (repeat 2%nat n)) ps.
Proof.
  intros n p. cbn [fits]. unfold discs. split.
  - intros (ps & -> & F). exists ps. split; [reflexivity|]. apply (proj2 (Forall2_map_l _ _ _ _)). apply (proj2 (repeat_F2 _ _ _ _)). exact F.
  - intros (ps & -> & F). exists ps. split; [reflexivity|]. apply (proj1 (Forall2_map_l _ _ _ _)) in F. exact (proj1 (repeat_F2 _ _ _ _) F).
Qed.
Lemma bin_variate_iff : forall n p, variate (SpMultiBinary n) p <-> exists ps, p = VList ps /\ Forall2 variate (discs (repeat 2%nat n)) ps.
Proof.
  intros n p. cbn [variate]. unfold discs. split.
  - intros (ps & -> & F). exists ps. split; [reflexivity|]. apply (proj2 (Forall2_map_l _ _ _ _)). apply (proj2 (repeat_F2 _ _ _ _)). exact F.
  - intros (ps & -> & F). exists ps. split; [reflexivity|]. apply (proj1 (Forall2_map_l _ _ _ _)) in F. exact (proj1 (repeat_F2 _ _ _ _) F).
Qed.
Lemma discs_countable : forall nv, Forall countable (discs nv). Proof. induction nv; constructor; auto. reflexivity. Qed.

Lemma shape_multi : forall nv, nv <> [] -> (forall n, In n nv -> (1 <= n)%nat) -> shape (SpMultiDiscrete nv) (PNode KMulti (enum (map PCat nv))).
Proof.
  intros nv NE HN. rewrite enum_combine, map_length. rewrite <- (discs_len nv). apply sh_node with (ss := discs nv); [apply seq_ok; discriminate|rewrite seq_length, discs_len, map_length; auto|now apply shape_discs|apply splits_seq; [discriminate|apply multi_fits_iff]|apply splits_seq; [discriminate|apply multi_variate_iff]| | |intros []| |intros ? ? ? ? []].
  - intros s HC. left. apply contains_leaf in HC; auto.
  - intros _. split; [|apply discs_in]. destruct nv; [congruence|discriminate].
  - intros _. split; [apply discs_countable|]. exists (fun xs => CInts (map unint xs)). split.
    + rewrite discs_elements, map_map. cbn [elements]. apply map_ext. intros zs. f_equal. rewrite map_map. cbn [unint]. now rewrite map_id.
    + intros ps xs HI LP. destruct (discs_inside nv HI) as [E L]. rewrite build_inj_len by (try discriminate; rewrite seq_length; auto). rewrite E at 2. rewrite discs_len in LP. rewrite discs_probs by auto. reflexivity.
Qed.
Lemma shape_binary : forall n, (1 <= n)%nat -> shape (SpMultiBinary n) (PNode KMulti (enum (map (fun _ => PCat 2) (seq 0 n)))).
Proof.
  intros n Hn. rewrite binary_dists. set (nv := repeat 2%nat n). assert (LN : length nv = n) by apply repeat_length. rewrite enum_combine, map_length. rewrite <- (discs_len nv).
  apply sh_node with (ss := discs nv); [apply seq_ok; discriminate|rewrite seq_length, discs_len, map_length; auto| |apply splits_seq; [discriminate|apply bin_fits_iff]|apply splits_seq; [discriminate|apply bin_variate_iff]| | |intros []| |intros ? ? ? ? []].
  - apply shape_discs. intros m Hm. apply repeat_spec in Hm. lia.
  - intros s HC. left. apply contains_leaf in HC; auto.
  - intros _. split; [|apply discs_in]. unfold nv. destruct n; [lia|discriminate].
  - intros _. split; [apply discs_countable|]. exists (fun xs => CInts (map unint xs)). split.
    + rewrite discs_elements, map_map. cbn [elements]. unfold nv. assert (ER : forall m, repeat [0%Z; 1%Z] m = map (fun n => map Z.of_nat (seq 0 n)) (repeat 2%nat m)) by (induction m; cbn; congruence). rewrite ER. apply map_ext. intros zs. f_equal. rewrite map_map. cbn [unint]. now rewrite map_id.
    + intros ps xs HI LP. destruct (discs_inside nv HI) as [E L]. rewrite build_inj_len by (try discriminate; rewrite seq_length; auto). rewrite E at 2. rewrite discs_len in LP. rewrite discs_probs by auto. cbn [prob]. symmetry. unfold nv. rewrite <- LN, <- LP. apply product_bin.
Qed.

Lemma boxes_tuple : forall l, boxes (SpTuple l) <-> Forall boxes l. Proof. intros l. apply (all_list boxes). Qed.
Lemma boxes_dict : forall l, boxes (SpDict l) <-> Forall boxes (map snd l). Proof. intros l. apply (all_dict boxes). Qed.

Lemma shape_all : forall sp d, supported sp -> mk sp = Ok d -> shape sp d.
Proof.
  induction sp as [n s|bs|nv|n|l IH|l IH|] using pspace_ind2; intros d HS HM.
  - cbn in HM. injection HM as <-. constructor. exact HS.
  - cbn [mk] in HM. destruct (map_outcome _ bs) as [bd|] eqn:E; [|discriminate]. cbn in HM. injection HM as <-. constructor. now apply map_outcome_ok.
  - cbn in HM. injection HM as <-. destruct HS. now apply shape_multi.
  - cbn in HM. injection HM as <-. now apply shape_binary.
  - rewrite mk_tuple_eq in HM. destruct (mk_list l) as [ds|] eqn:E; [|discriminate]. cbn [bind] in HM. injection HM as <-. apply mk_list_ok in E. apply supported_tuple in HS.
    assert (F : shapes l ds). { clear -IH HS E. revert ds E. induction IH as [|s l Hs _ IHl]; intros ds E; inversion E; subst; constructor; inversion HS; subst; auto. }
    rewrite enum_combine. rewrite <- (shapes_len F). apply sh_node with (ss := l); [apply seq_ok; discriminate|rewrite seq_length; now apply shapes_len|exact F|apply splits_seq; [discriminate|apply fits_tuple]|apply splits_seq; [discriminate|apply variate_tuple]| |intros []|apply boxes_tuple| |].
    + intros s HC. inversion HC; subst; eauto.
    + intros HC. apply countable_tuple in HC. split; auto. exists CTuple. split; [reflexivity|]. intros ps xs HI LP. rewrite build_inj_len by (try discriminate; rewrite seq_length; auto). apply prob_tuple.
    + intros ps scs shs rs _ HMv. destruct (moveds_len HMv) as (L1 & L2 & L3 & L4). rewrite !build_inj_len, abuild_list by (try discriminate; rewrite seq_length; auto). now constructor.
  - rewrite mk_dict_eq in HM. destruct (mk_dict l) as [ds|] eqn:E; [|discriminate]. cbn [bind] in HM. injection HM as <-. apply mk_dict_ok in E. destruct E as [EK E]. apply supported_dict in HS. destruct HS as [ND HS].
    assert (F : shapes (map snd l) (map snd ds)). { clear -IH HS E. revert E. generalize (map snd ds). clear ds. induction IH as [|s l Hs _ IHl]; intros ds E; inversion E; subst; constructor; inversion HS; subst; auto. }
    rewrite <- (combine_fst_snd ds), EK. assert (LK : length (map fst l) = length (map snd l)) by now rewrite !map_length.
    apply sh_node with (ss := map snd l); [exact ND|rewrite <- EK, !map_length; auto|exact F| | | |intros []|apply boxes_dict| |].
    + intros p. rewrite fits_dict. split.
      * intros (ps & -> & K & G). exists (map snd ps). cbn [build]. rewrite <- K, combine_fst_snd. auto.
      * intros (ps & -> & G). exists (combine (map fst l) ps). cbn [build]. pose proof (Forall2_len G) as L. split; auto. rewrite fst_combine, map_snd_combine by congruence. auto.
    + intros p. rewrite variate_dict. split.
      * intros (ps & -> & K & G). exists (map snd ps). cbn [build]. rewrite <- K, combine_fst_snd. auto.
      * intros (ps & -> & G). exists (combine (map fst l) ps). cbn [build]. pose proof (Forall2_len G) as L. split; auto. rewrite fst_combine, map_snd_combine by congruence. auto.
    + intros s HC. inversion HC; subst; eauto. right. exists t. split; auto. apply in_map_iff. exists (k, t). auto.
    + intros HC. apply countable_dict in HC. split; auto. exists (fun xs => CDict (combine (map fst l) xs)). split; [cbn [elements]; now rewrite map_map|]. intros ps xs HI LP. cbn [build]. rewrite prob_dict. apply Forall2_len in HI. rewrite !map_snd_combine by congruence. reflexivity.
    + intros ps scs shs rs _ HMv. cbn [build abuild]. rewrite <- (combine_fst_snd l) at 1. now constructor.
  - contradiction.
Qed.
