(** Entropies of composite distributions. *)
From Coq Require Import List ZArith Lia Bool Reals Lra Permutation.
From Verif Require Import PyCommon CommonProofs UtilsModel UtilsSpec UtilsProofs2 UtilsProofs3 TDSpec TDProofs DistModel DistSpec DistProofs DistProofs2 PolicySpec PolicyProofs3 MeanSpec MeanProofs CompModel CompSpec CompProofs CompProofs2 CompProofs3 CompProofs4 CompProofs5 CompProofs7 EntModel EntSpec EntProofs.
Import ListNotations.
Set Implicit Arguments.
Local Open Scope R_scope.

(** * Nodes *)
Section Lists.
Variable fc : nat -> list R -> list R -> outcome R.
Variable fn : ndist -> nparams -> nparams -> outcome R.
Fixpoint pair_list (kd : kind) (p q : pv) (l : list (nat * pdist)) : outcome R :=
  match l with [] => Ok 0 | (k, d') :: r => bind (part kd k p) (fun p' => bind (part kd k q) (fun q' => bind (e_pair fc fn d' p' q') (fun a => bind (pair_list kd p q r) (fun b => Ok (a + b))))) end.
Lemma pair_node : forall kd l p q, e_pair fc fn (PNode kd l) p q = pair_list kd p q l.
Proof. intros kd l p q. cbn [e_pair]. induction l as [|[k d] l IH]; cbn; [reflexivity|]. destruct (part kd k p) as [a|]; cbn; auto. destruct (part kd k q) as [b|]; cbn; auto. destruct (e_pair fc fn d a b); cbn; auto. now rewrite IH. Qed.
Fixpoint pair_vals (ds : list pdist) (ps qs : list pv) : outcome R :=
  match ds, ps, qs with d :: ds, p :: ps, q :: qs => bind (e_pair fc fn d p q) (fun a => bind (pair_vals ds ps qs) (fun b => Ok (a + b))) | _, _, _ => Ok 0 end.
Lemma pair_list_vals : forall kd p q ks ds ps qs, length ks = length ds -> Forall2 (fun k v => part kd k p = Ok v) ks ps -> Forall2 (fun k v => part kd k q = Ok v) ks qs ->
  pair_list kd p q (combine ks ds) = pair_vals ds ps qs.
Proof.
  intros kd p q ks ds. revert ks. induction ds as [|d ds IH]; intros ks ps qs L F G; destruct ks as [|k ks]; try discriminate; inversion F as [|? y ? ps' E1 F1]; subst; inversion G as [|? y' ? qs' E2 G1]; subst; cbn; [reflexivity|]. rewrite E1. cbn. rewrite E2. cbn. destruct (e_pair fc fn d y y'); cbn; auto. rewrite (IH ks ps' qs'); auto.
Qed.
Lemma pair_build : forall kd ks ds ps qs, keys_ok kd ks -> length ks = length ds -> length ps = length ks -> length qs = length ks -> e_pair fc fn (PNode kd (combine ks ds)) (build kd (combine ks ps)) (build kd (combine ks qs)) = pair_vals ds ps qs.
Proof. intros kd ks ds ps qs K L1 L2 L3. rewrite pair_node. apply pair_list_vals; auto; apply build_parts; auto. Qed.
End Lists.

Fixpoint ent_list (kd : kind) (p : pv) (l : list (nat * pdist)) : outcome R :=
  match l with [] => Ok 0 | (k, d') :: r => bind (part kd k p) (fun p' => bind (e_entropy d' p') (fun a => bind (ent_list kd p r) (fun b => Ok (a + b)))) end.
Lemma ent_node : forall kd l p, e_entropy (PNode kd l) p = ent_list kd p l.
Proof. intros kd l p. cbn [e_entropy]. induction l as [|[k d] l IH]; cbn; [reflexivity|]. destruct (part kd k p) as [a|]; cbn; auto. destruct (e_entropy d a); cbn; auto. now rewrite IH. Qed.
Fixpoint ent_vals (ds : list pdist) (ps : list pv) : outcome R :=
  match ds, ps with d :: ds, p :: ps => bind (e_entropy d p) (fun a => bind (ent_vals ds ps) (fun b => Ok (a + b))) | _, _ => Ok 0 end.
Lemma ent_build : forall kd ks ds ps, keys_ok kd ks -> length ks = length ds -> length ps = length ks -> e_entropy (PNode kd (combine ks ds)) (build kd (combine ks ps)) = ent_vals ds ps.
Proof.
  intros kd ks ds ps K L1 L2. rewrite ent_node. assert (F : Forall2 (fun k v => part kd k (build kd (combine ks ps)) = Ok v) ks ps) by (apply build_parts; auto). revert F. generalize (build kd (combine ks ps)) as p. intros p. clear K L2. revert ks L1 ps.
  induction ds as [|d ds IH]; intros ks L ps F; destruct ks as [|k ks]; try discriminate; inversion F as [|? y ? ps' E1 F1]; subst; cbn; [reflexivity|]. rewrite E1. cbn. destruct (e_entropy d y); cbn; auto. rewrite (IH ks) with (ps := ps'); auto.
Qed.
Fixpoint logp_vals (ds : list pdist) (ps Xs : list pv) : outcome R :=
  match ds, ps, Xs with d :: ds, p :: ps, X :: Xs => bind (c_log_proba d p X) (fun a => bind (logp_vals ds ps Xs) (fun b => Ok (a + b))) | _, _, _ => Ok 0 end.
Lemma logp_build : forall kd ks ds ps Xs, keys_ok kd ks -> length ks = length ds -> length ps = length ks -> length Xs = length ks -> c_log_proba (PNode kd (combine ks ds)) (build kd (combine ks ps)) (build kd (combine ks Xs)) = logp_vals ds ps Xs.
Proof.
  intros kd ks ds ps Xs K L1 L2 L3. rewrite logp_node. assert (F : Forall2 (fun k v => part kd k (build kd (combine ks ps)) = Ok v) ks ps) by (apply build_parts; auto). assert (G : Forall2 (fun k v => part kd k (build kd (combine ks Xs)) = Ok v) ks Xs) by (apply build_parts; auto). revert F G. generalize (build kd (combine ks ps)) as p. generalize (build kd (combine ks Xs)) as X. intros X p. clear K L2 L3. revert ks L1 ps Xs.
  induction ds as [|d ds IH]; intros ks L ps Xs F G; destruct ks as [|k ks]; try discriminate; inversion F as [|? y ? ps' E1 F1]; subst; inversion G as [|? y' ? qs' E2 G1]; subst; cbn; [reflexivity|]. rewrite E1. cbn. rewrite E2. cbn. destruct (c_log_proba d y y'); cbn; auto. rewrite (IH ks) with (ps := ps') (Xs := qs'); auto.
Qed.

(** * Spaces of integers *)
Definition additive (phi : R -> R -> R) : Prop := (forall a b c d, 0 < a -> 0 < b -> 0 < c -> 0 < d -> phi (a * b) (c * d) = phi a c + phi b d) /\ phi 1 1 = 0.
Definition average (phi : R -> R -> R) (sp : pspace) (p q : pv) : R := total (map (fun x => prob sp p x * phi (prob sp p x) (prob sp q x)) (elements sp)).
Lemma choices_split : forall {A} (h : list A -> R) L ls, total (map h (choices (L :: ls))) = total (map (fun x => total (map (fun y => h (x :: y)) (choices ls))) L).
Proof.
  intros A h L ls. cbn [choices]. induction L as [|x L IH]; [reflexivity|]. cbn [flat_map map]. rewrite map_app, tot_app, IH. cbn [total fold_right]. rewrite map_map. reflexivity.
Qed.
Fixpoint averages (phi : R -> R -> R) (ss : list pspace) (ps qs : list pv) : R := match ss, ps, qs with s :: ss, p :: ps, q :: qs => average phi s p q + averages phi ss ps qs | _, _, _ => 0 end.
Definition positive (sp : pspace) : Prop := forall p x, fits sp p -> In x (elements sp) -> 0 < prob sp p x.
Lemma positive_list : forall ss, Forall positive ss -> forall ps xs, Forall2 fits ss ps -> In xs (choices (map elements ss)) -> 0 < probs ss ps xs.
Proof.
  intros ss H ps xs F HI. apply choices_in in HI. apply (proj1 (Forall2_map_l _ _ _ _)) in HI. revert ps xs F HI. induction H as [|s ss Hs H IH]; intros ps xs F HI; inversion F; subst; inversion HI; subst; cbn; [lra|]. apply Rmult_lt_0_compat; auto.
Qed.
Lemma averages_list : forall phi, additive phi -> forall ss, Forall positive ss -> Forall sums ss -> forall ps qs, Forall2 fits ss ps -> Forall2 fits ss qs ->
  total (map (fun xs => probs ss ps xs * phi (probs ss ps xs) (probs ss qs xs)) (choices (map elements ss))) = averages phi ss ps qs.
Proof.
  intros phi [HA H1] ss HP. induction HP as [|s ss Hs HP IH]; intros HS ps qs Fp Fq; inversion HS as [|? ? S1 S2]; subst; inversion Fp as [|? p ? ps' P1 P2]; subst; inversion Fq as [|? q ? qs' Q1 Q2]; subst.
  - cbn. rewrite H1. unfold total. cbn. lra.
  - cbn [map averages]. rewrite choices_split. cbn [probs]. specialize (IH S2 ps' qs' P2 Q2). rewrite <- IH. clear IH.
    rewrite (@total_ext _ _ (fun x => prob s p x * phi (prob s p x) (prob s q x) + total (map (fun xs => probs ss ps' xs * phi (probs ss ps' xs) (probs ss qs' xs)) (choices (map elements ss))) * prob s p x)).
    + rewrite total_plus, total_scal. rewrite (S1 p P1). unfold average. lra.
    + intros x Hx. assert (A : 0 < prob s p x) by now apply Hs. assert (B : 0 < prob s q x) by now apply Hs.
      rewrite (@total_ext _ _ (fun xs => (prob s p x * phi (prob s p x) (prob s q x)) * probs ss ps' xs + prob s p x * (probs ss ps' xs * phi (probs ss ps' xs) (probs ss qs' xs)))).
      * rewrite total_plus, !total_scal. rewrite (sums_list S2 P2). lra.
      * intros xs Hxs. rewrite HA; auto; [lra| |]; apply positive_list; auto.
Qed.

Definition phi_h (a b : R) : R := - ln a.
Definition phi_c (a b : R) : R := - ln b.
Definition phi_k (a b : R) : R := ln a - ln b.
Lemma add_h : additive phi_h. Proof. split; [intros; unfold phi_h; rewrite ln_mult by auto; lra|unfold phi_h; rewrite ln_1; lra]. Qed.
Lemma add_c : additive phi_c. Proof. split; [intros; unfold phi_c; rewrite ln_mult by auto; lra|unfold phi_c; rewrite ln_1; lra]. Qed.
Lemma add_k : additive phi_k. Proof. split; [intros; unfold phi_k; rewrite !ln_mult by auto; lra|unfold phi_k; rewrite ln_1; lra]. Qed.

Lemma average_leaf : forall phi n z z', length z = n -> length z' = n -> average phi (SpDiscrete n 0) (VDict [(0%nat, VArr z)]) (VDict [(0%nat, VArr z')]) = DistSpec.expect (softmax z) (fun k => phi (nth k (softmax z) 0) (nth k (softmax z') 0)).
Proof.
  intros phi n z z' L L'. unfold average, DistSpec.expect. cbn [elements]. rewrite map_map, softmax_length, L. apply total_ext. intros k Hk. apply in_seq in Hk. cbn [prob prob_int Z.add]. rewrite Nat2Z.id, !boltzmann_softmax by (auto; lia). reflexivity.
Qed.
Record shannonic (sp : pspace) (d : pdist) : Prop := mkSh {
  s_pos : positive sp;
  s_sums : sums sp;
  s_ent : forall p, fits sp p -> e_entropy d p = Ok (average phi_h sp p p);
  s_cross : forall p q, fits sp p -> fits sp q -> e_cross_entropy d p q = Ok (average phi_c sp p q);
  s_kl : forall p q, fits sp p -> fits sp q -> e_kl d p q = Ok (average phi_k sp p q) }.

Lemma shannonic_leaf : forall n, (1 <= n)%nat -> shannonic (SpDiscrete n 0) (PCat n).
Proof.
  intros n Hn. constructor.
  - intros p x (z & -> & L) Hx. cbn [elements] in Hx. apply in_map_iff in Hx. destruct Hx as (k & <- & Hk). apply in_seq in Hk. cbn [prob prob_int Z.add]. rewrite Nat2Z.id. apply boltzmann_pos; auto. lia.
  - exact (@elements_total (SpDiscrete n 0) Hn eq_refl).
  - intros p (z & -> & L). transitivity (cat_entropy n z); [reflexivity|]. rewrite (@cat_entropy_H n z Hn L). rewrite average_leaf by auto. reflexivity.
  - intros p q (z & -> & L) (z' & -> & L'). transitivity (cat_cross_entropy n z z'); [reflexivity|]. destruct (@KL_softmax n z z' Hn L L') as [_ ->]. rewrite average_leaf by auto. f_equal. unfold H, KL, DistSpec.expect. rewrite <- total_plus. apply total_ext. intros k Hk. unfold phi_c. lra.
  - intros p q (z & -> & L) (z' & -> & L'). transitivity (cat_kl n z z'); [reflexivity|]. destruct (@KL_softmax n z z' Hn L L') as [-> _]. rewrite average_leaf by auto. reflexivity.
Qed.
Lemma shannonic_lists : forall ss ds, Forall2 shannonic ss ds ->
  (forall ps, Forall2 fits ss ps -> ent_vals ds ps = Ok (averages phi_h ss ps ps)) /\
  (forall ps qs, Forall2 fits ss ps -> Forall2 fits ss qs -> pair_vals cat_cross_entropy n_cross_entropy ds ps qs = Ok (averages phi_c ss ps qs) /\ pair_vals cat_kl n_kl ds ps qs = Ok (averages phi_k ss ps qs)).
Proof.
  intros ss ds F. induction F as [|s d ss ds H F [IH1 IH2]].
  - split; intros; cbn; auto.
  - split.
    + intros ps G. inversion G; subst. cbn. rewrite (s_ent H) by auto. cbn. rewrite IH1 by auto. reflexivity.
    + intros ps qs G K. inversion G as [|? p ? ps' G1 G2]; subst. inversion K as [|? q ? qs' K1 K2]; subst. destruct (IH2 ps' qs' G2 K2) as [I1 I2]. cbn. fold e_cross_entropy. fold e_kl. rewrite (s_cross H), (s_kl H), I1, I2 by auto. split; reflexivity.
Qed.
Lemma shannonic_all : (forall sp d, shape sp d -> countable sp -> shannonic sp d) /\ (forall ss ds, shapes ss ds -> Forall countable ss -> Forall2 shannonic ss ds).
Proof.
  apply shape_shapes_ind.
  - intros n s Hn HC. cbn in HC. subst s. now apply shannonic_leaf.
  - intros bs bd _ [].
  - intros sp kd ks ss ds HK HL HSh IH HF _ _ _ _ HCo _ HC. destruct (HCo HC) as (C1 & f & E & HP). specialize (IH C1). pose proof (Forall2_len IH) as LS. destruct (shannonic_lists IH) as [I1 I2].
    assert (AP : Forall positive ss) by (clear -IH; induction IH as [|? ? ? ? HH ? ?]; constructor; auto; apply HH). assert (AS : Forall sums ss) by (clear -IH; induction IH as [|? ? ? ? HH ? ?]; constructor; auto; apply HH).
    assert (INS : forall xs, In xs (choices (map elements ss)) -> Forall2 inside ss xs). { intros xs Hx. apply choices_in in Hx. apply (proj1 (Forall2_map_l _ _ _ _)) in Hx. clear -Hx C1. revert xs Hx. induction C1; intros xs Hx; inversion Hx; subst; constructor; auto. now apply elements_in. }
    assert (AV : forall phi ps qs, additive phi -> Forall2 fits ss ps -> Forall2 fits ss qs -> average phi sp (build kd (combine ks ps)) (build kd (combine ks qs)) = averages phi ss ps qs).
    { intros phi ps qs HA F1 F2. rewrite <- (averages_list HA AP AS F1 F2). unfold average. rewrite E, map_map. apply total_ext. intros xs Hx. rewrite !HP; auto; try (apply Forall2_len in F1; apply Forall2_len in F2; congruence). }
    constructor.
    + intros p x Fp Hx. apply HF in Fp. destruct Fp as (ps & -> & F). rewrite E in Hx. apply in_map_iff in Hx. destruct Hx as (xs & <- & Hx). rewrite HP; auto; [now apply positive_list|]. apply Forall2_len in F. congruence.
    + intros p Fp. apply HF in Fp. destruct Fp as (ps & -> & F). rewrite E, map_map. rewrite <- (sums_list AS F). apply total_ext. intros xs Hx. apply HP; auto. apply Forall2_len in F. congruence.
    + intros p Fp. apply HF in Fp. destruct Fp as (ps & -> & F). rewrite ent_build; auto; [|apply Forall2_len in F; congruence]. rewrite I1 by auto. now rewrite AV by (auto using add_h).
    + intros p q Fp Fq. apply HF in Fp. destruct Fp as (ps & -> & F). apply HF in Fq. destruct Fq as (qs & -> & G). unfold e_cross_entropy. rewrite pair_build; auto; try (apply Forall2_len in F; apply Forall2_len in G; congruence). destruct (I2 ps qs F G) as [-> _]. now rewrite AV by (auto using add_c).
    + intros p q Fp Fq. apply HF in Fp. destruct Fp as (ps & -> & F). apply HF in Fq. destruct Fq as (qs & -> & G). unfold e_kl. rewrite pair_build; auto; try (apply Forall2_len in F; apply Forall2_len in G; congruence). destruct (I2 ps qs F G) as [_ ->]. now rewrite AV by (auto using add_k).
  - intros _. constructor.
  - intros s d ss ds _ IH1 _ IH2 HC. inversion HC; subst. constructor; auto.
Qed.

(** Any complete list of elements will do. *)
Lemma total_perm : forall l m, Permutation l m -> total l = total m.
Proof. intros l m H. induction H; cbn in *; try lra. unfold total in *. lra. Qed.
Lemma lists_all_perm : forall sp l, countable sp -> lists_all sp l -> Permutation l (elements sp).
Proof. intros sp l HC [ND H]. apply NoDup_Permutation; auto; [apply elements_nodup|]. intros x. rewrite H. symmetry. now apply elements_in. Qed.
Lemma total_all : forall (f : clean -> R) sp l, countable sp -> lists_all sp l -> total (map f l) = total (map f (elements sp)).
Proof. intros f sp l HC HL. apply total_perm. apply Permutation_map. now apply lists_all_perm. Qed.
