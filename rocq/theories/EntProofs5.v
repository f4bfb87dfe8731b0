(** Composite distributions: entropies of the joint distribution, missing components. *)
From Coq Require Import List ZArith Lia Bool Reals Lra.
From Verif Require Import PyCommon CommonProofs UtilsModel UtilsSpec UtilsProofs2 UtilsProofs3 WrappersModel WrappersProofs TDSpec TDProofs DistModel DistSpec DistProofs DistProofs2 MeanSpec MeanProofs CompModel CompSpec CompProofs CompProofs2 CompProofs3 CompProofs4 CompProofs5 CompProofs6 CompProofs7 EntModel EntSpec EntProofs EntProofs2 EntProofs3.
Import ListNotations.
Set Implicit Arguments.
Local Open Scope R_scope.

Lemma nth_pairs : forall {A} (G : R -> R -> R) (f g : A -> R) L, total (map (fun k => G (nth k (map f L) 0) (nth k (map g L) 0)) (seq 0 (length L))) = total (map (fun x => G (f x) (g x)) L).
Proof.
  intros A G f g L. induction L as [|x L IH]; [reflexivity|]. cbn [length seq map nth]. rewrite !tot_cons. f_equal. rewrite <- IH. rewrite <- seq_shift, map_map. reflexivity.
Qed.
Section Joint.
Variables (sp : pspace) (d : pdist).
Hypotheses (HS : supported sp) (HC : countable sp) (HM : mk sp = Ok d).
Let SH : shannonic sp d := proj1 shannonic_all sp d (shape_all sp HS HM) HC.
Definition pvec (p : pv) : list R := map (prob sp p) (elements sp).
Lemma pvec_dist : forall p, fits sp p -> pos_distribution (pvec p).
Proof. intros p F. split; [|now apply (s_sums SH)]. intros x Hx. apply in_map_iff in Hx. destruct Hx as (c & <- & Hc). now apply (s_pos SH). Qed.
Lemma pvec_len : forall p, length (pvec p) = cardinality sp. Proof. intros p. unfold pvec. rewrite map_length. apply elements_length. Qed.
Lemma pvec_H : forall p, average phi_h sp p p = H (pvec p).
Proof. intros p. unfold H, DistSpec.expect, pvec. rewrite map_length. rewrite (@nth_pairs _ (fun a b => a * - ln b)). reflexivity. Qed.
Lemma pvec_KL : forall p q, average phi_k sp p q = KL (pvec p) (pvec q).
Proof. intros p q. unfold KL, DistSpec.expect, pvec. rewrite map_length. rewrite (@nth_pairs _ (fun a b => a * (ln a - ln b))). reflexivity. Qed.
Lemma card_pos : (1 <= cardinality sp)%nat.
Proof. rewrite <- elements_length. destruct (some_element sp HS HC) as (x & Hx). apply elements_in in Hx; auto. destruct (elements sp); [destruct Hx|cbn; lia]. Qed.
Lemma joint_entropy : forall p, fits sp p -> exists h, e_entropy d p = Ok h /\ 0 <= h <= ln (INR (cardinality sp)) /\ (h = ln (INR (cardinality sp)) <-> forall x, inside sp x -> prob sp p x = / INR (cardinality sp)).
Proof.
  intros p F. exists (H (pvec p)). split; [rewrite (s_ent SH) by auto; f_equal; apply pvec_H|]. destruct (@H_bounds (pvec p) (cardinality sp) (pvec_dist p F) (pvec_len p) card_pos) as [B U]. split; auto. split.
  - intros E x Hx. apply elements_in in Hx; auto. apply (In_nth _ _ (CInt 0)) in Hx. destruct Hx as (k & Hk & <-). specialize (U E k). rewrite <- U by (rewrite <- elements_length; auto). unfold pvec. rewrite (nth_indep _ 0 (prob sp p (CInt 0))) by (rewrite map_length; auto). now rewrite map_nth.
  - intros E. rewrite <- pvec_H. unfold average. assert (N0 : 0 < INR (cardinality sp)) by (apply lt_0_INR; pose proof card_pos; lia). rewrite (@total_ext _ _ (fun _ => / INR (cardinality sp) * ln (INR (cardinality sp)))).
    + rewrite total_const, elements_length. field. lra.
    + intros x Hx. apply elements_in in Hx; auto. rewrite E by auto. unfold phi_h. rewrite ln_Rinv by auto. lra.
Qed.
Lemma joint_kl : forall p q, fits sp p -> fits sp q -> exists k, e_kl d p q = Ok k /\ 0 <= k /\ (k = 0 <-> forall x, inside sp x -> prob sp p x = prob sp q x).
Proof.
  intros p q Fp Fq. exists (KL (pvec p) (pvec q)). split; [rewrite (s_kl SH) by auto; f_equal; apply pvec_KL|]. destruct (@gibbs (pvec p) (pvec q) (pvec_dist p Fp) (pvec_dist q Fq)) as [G1 G2]; [now rewrite !pvec_len|]. split; auto. split.
  - intros E x Hx. specialize (G2 E). apply elements_in in Hx; auto. unfold pvec in G2. revert Hx G2. generalize (elements sp). intros L. induction L as [|y L IH]; intros HI G; [destruct HI|]. cbn in G. injection G as G3 G4. destruct HI as [->|HI]; auto.
  - intros E. rewrite <- pvec_KL. unfold average. rewrite (@total_ext _ _ (fun _ => 0)); [rewrite total_const; lra|]. intros x Hx. apply elements_in in Hx; auto. rewrite E by auto. unfold phi_k. lra.
Qed.
End Joint.

(** * Missing components *)
Definition okay (s : pspace) (r : outcome pv) : Prop := exists v, r = Ok v /\ fits s v.
Lemma ent_missing : forall kd e p ss ds, shapes ss ds -> forall ks, length ks = length ds -> (forall k s, In (k, s) (combine ks ss) -> okay s (part kd k p) \/ part kd k p = Err e) -> (exists k, In k ks /\ part kd k p = Err e) ->
  ent_list kd p (combine ks ds) = Err e.
Proof.
  intros kd e p ss ds F. induction F as [|s d ss ds HS F IH]; intros ks L H (k0 & K1 & K2).
  - destruct ks; [destruct K1|discriminate].
  - destruct ks as [|k ks]; [discriminate|]. cbn. destruct (H k s (or_introl eq_refl)) as [(v & E & Fv)|E]; rewrite E; cbn; auto.
    destruct (v_vals (proj1 divides_all s d HS) v v Fv Fv) as (h & _ & _ & -> & _). cbn. rewrite (IH ks); [reflexivity|now injection L|intros; apply H; now right|]. destruct K1 as [<-|K1]; [congruence|eauto].
Qed.
Lemma pair_missing : forall fc fn, (forall s d p q, shape s d -> fits s p -> fits s q -> exists x, e_pair fc fn d p q = Ok x) -> forall kd e p q ss ds, shapes ss ds -> forall ks, length ks = length ds ->
  (forall k s, In (k, s) (combine ks ss) -> (okay s (part kd k p) \/ part kd k p = Err e) /\ (okay s (part kd k q) \/ part kd k q = Err e)) -> (exists k, In k ks /\ (part kd k p = Err e \/ part kd k q = Err e)) ->
  pair_list fc fn kd p q (combine ks ds) = Err e.
Proof.
  intros fc fn HT kd e p q ss ds F. induction F as [|s d ss ds HS F IH]; intros ks L H (k0 & K1 & K2).
  - destruct ks; [destruct K1|discriminate].
  - destruct ks as [|k ks]; [discriminate|]. cbn. destruct (H k s (or_introl eq_refl)) as [[(v & E & Fv)|E] H2]; rewrite E; cbn; auto. destruct H2 as [(w & E2 & Fw)|E2]; rewrite E2; cbn; auto.
    destruct (HT s d v w HS Fv Fw) as (x & ->). cbn. rewrite (IH ks); [reflexivity|now injection L|intros; apply H; now right|]. destruct K1 as [<-|K1]; [destruct K2; congruence|eauto].
Qed.
Lemma cross_defined : forall s d p q, shape s d -> fits s p -> fits s q -> exists x, e_pair cat_cross_entropy n_cross_entropy d p q = Ok x.
Proof. intros s d p q HS Fp Fq. destruct (v_vals (proj1 divides_all s d HS) p q Fp Fq) as (h & c & k & _ & E & _). eauto. Qed.
Lemma kl_defined : forall s d p q, shape s d -> fits s p -> fits s q -> exists x, e_pair cat_kl n_kl d p q = Ok x.
Proof. intros s d p q HS Fp Fq. destruct (v_vals (proj1 divides_all s d HS) p q Fp Fq) as (h & c & k & _ & _ & E & _). eauto. Qed.

Lemma mk_tuple_shapes : forall ss d, supported (SpTuple ss) -> mk (SpTuple ss) = Ok d -> exists ds, d = PNode KTuple (combine (seq 0 (length ss)) ds) /\ shapes ss ds.
Proof.
  intros ss d HS HM. rewrite mk_tuple_eq in HM. destruct (mk_list ss) as [ds|] eqn:E; [|discriminate]. cbn in HM. injection HM as <-. apply mk_list_ok in E. apply supported_tuple in HS. exists ds.
  assert (F : shapes ss ds). { clear -HS E. induction E; inversion HS; subst; constructor; auto. now apply shape_all. } split; auto. rewrite enum_combine. now rewrite (shapes_len F).
Qed.
Lemma mk_dict_shapes : forall l d, supported (SpDict l) -> mk (SpDict l) = Ok d -> exists ds, d = PNode KDict (combine (map fst l) ds) /\ shapes (map snd l) ds.
Proof.
  intros l d HS HM. rewrite mk_dict_eq in HM. destruct (mk_dict l) as [ds|] eqn:E; [|discriminate]. cbn in HM. injection HM as <-. apply mk_dict_ok in E. destruct E as [EK E]. apply supported_dict in HS. destruct HS as [_ HS]. exists (map snd ds). rewrite <- EK, combine_fst_snd. split; auto.
  clear -HS E. revert HS E. generalize (map snd l) (map snd ds). intros a b HS E. induction E; inversion HS; subst; constructor; auto. now apply shape_all.
Qed.
Lemma lookup_in : forall {A} k (l : list (nat * A)) v, lookup k l = Some v -> In (k, v) l.
Proof. intros A k l v. induction l as [|[j w] l IH]; cbn; [discriminate|]. destruct (Nat.eqb_spec k j) as [->|]; [intros H; injection H as ->; auto|auto]. Qed.
Lemma lookup_none : forall {A} k (l : list (nat * A)), ~ In k (map fst l) -> lookup k l = None.
Proof. intros A k l. induction l as [|[j w] l IH]; cbn; [reflexivity|]. intros N. destruct (Nat.eqb_spec k j) as [->|]; [exfalso; auto|]. apply IH. auto. Qed.
Lemma tuple_parts : forall ss ps, (forall i, (i < length ps)%nat -> fits (nth i ss SpOther) (nth i ps (VList []))) -> forall k s, In (k, s) (combine (seq 0 (length ss)) ss) -> okay s (part KTuple k (VList ps)) \/ part KTuple k (VList ps) = Err EIndex.
Proof.
  intros ss ps H k s HI. assert (E : nth k ss SpOther = s).
  { assert (G : forall m ss, In (k, s) (combine (seq m (length ss)) ss) -> (m <= k)%nat /\ nth (k - m) ss SpOther = s). { clear. intros m ss. revert m. induction ss as [|t ss IH]; intros m HI; [destruct HI|]. cbn in HI. destruct HI as [E|HI]; [injection E as -> ->; split; auto; now rewrite Nat.sub_diag|]. apply IH in HI. destruct HI as [HI E]. split; [lia|]. replace (k - m)%nat with (S (k - S m)) by lia. exact E. }
    apply G in HI. rewrite Nat.sub_0_r in HI. apply HI. }
  cbn [part index]. destruct (nth_error ps k) as [v|] eqn:N; [|now right]. left. exists v. split; auto. pose proof (nth_error_Some ps k) as L. rewrite N in L. specialize (H k ltac:(apply L; discriminate)). rewrite E in H. erewrite nth_error_nth in H by exact N. exact H.
Qed.
Lemma dict_parts : forall l lp, (forall k s v, In (k, s) l -> In (k, v) lp -> fits s v) -> forall k s, In (k, s) (combine (map fst l) (map snd l)) -> okay s (part KDict k (VDict lp)) \/ part KDict k (VDict lp) = Err EKey.
Proof.
  intros l lp H k s HI. rewrite combine_fst_snd in HI. cbn [part item]. destruct (lookup k lp) as [v|] eqn:E; [|now right]. left. exists v. split; auto. apply lookup_in in E. eauto.
Qed.
