(** Composite distributions: leaves and nodes. *)
From Coq Require Import List ZArith Lia Bool Reals Lra.
From Verif Require Import PyCommon CommonProofs UtilsModel UtilsSpec UtilsProofs2 UtilsProofs3 TDSpec DistModel DistSpec DistProofs DistProofs2 PolicySpec MeanSpec MeanProofs DrawProofs2 DrawProofs3 CompModel CompSpec.
Import ListNotations.
Set Implicit Arguments.
Local Open Scope R_scope.

(** * The loops as functions *)
Fixpoint sample_list (kd : kind) (p : pv) (l : list (nat * pdist)) (us : list R) : outcome (list (nat * pv) * list R) :=
  match l with
  | [] => Ok ([], us)
  | (k, d') :: r => bind (part kd k p) (fun p' => bind (c_sample d' p' us) (fun xu => bind (sample_list kd p r (snd xu)) (fun yu => Ok ((k, fst xu) :: fst yu, snd yu))))
  end.
Lemma sample_node : forall kd l p us, c_sample (PNode kd l) p us = bind (sample_list kd p l us) (fun xu => Ok (build kd (fst xu), snd xu)).
Proof.
  intros kd l p us. cbn [c_sample]. match goal with |- bind ?a _ = bind ?b _ => assert (E : a = b); [|now rewrite E] end. revert us. induction l as [|[k d] l IH]; intros us; [reflexivity|]. cbn [sample_list]. destruct (part kd k p) as [p'|]; cbn [bind]; auto. destruct (c_sample d p' us) as [[x u]|]; cbn [bind snd]; auto. now rewrite IH.
Qed.
Fixpoint post_list (kd : kind) (X : pv) (l : list (nat * pdist)) (gs : list R) : outcome (list (nat * clean) * list R) :=
  match l with
  | [] => Ok ([], gs)
  | (k, d') :: r => bind (part kd k X) (fun X' => bind (c_post d' X' gs) (fun cg => bind (post_list kd X r (snd cg)) (fun yg => Ok ((k, fst cg) :: fst yg, snd yg))))
  end.
Lemma post_node : forall kd l X gs, c_post (PNode kd l) X gs = bind (post_list kd X l gs) (fun yg => match kd with
                      | KMulti => bind (stack_ints (map snd (fst yg))) (fun c => Ok (c, snd yg))
                      | KTuple => Ok (CTuple (map snd (fst yg)), snd yg)
                      | KDict => Ok (CDict (fst yg), snd yg)
                      end).
Proof.
  intros kd l X gs. cbn [c_post]. match goal with |- bind ?a _ = bind ?b _ => assert (E : a = b); [|now rewrite E] end. revert gs. induction l as [|[k d] l IH]; intros gs; [reflexivity|]. cbn [post_list]. destruct (part kd k X) as [p'|]; cbn [bind]; auto. destruct (c_post d p' gs) as [[x u]|]; cbn [bind snd]; auto. now rewrite IH.
Qed.
Fixpoint each_list (fc : nat -> list R -> outcome (list R)) (fn : list (R * R) -> pv -> outcome (list R)) (kd : kind) (p : pv) (l : list (nat * pdist)) : outcome (list (nat * pv)) :=
  match l with
  | [] => Ok []
  | (k, d') :: r => bind (part kd k p) (fun p' => bind (c_each fc fn d' p') (fun x => bind (each_list fc fn kd p r) (fun y => Ok ((k, x) :: y))))
  end.
Lemma each_node : forall fc fn kd l p, c_each fc fn (PNode kd l) p = bind (each_list fc fn kd p l) (fun xs => Ok (build kd xs)).
Proof.
  intros fc fn kd l p. cbn [c_each]. match goal with |- bind ?a _ = bind ?b _ => assert (E : a = b); [|now rewrite E] end. induction l as [|[k d] l IH]; [reflexivity|]. cbn [each_list]. destruct (part kd k p) as [p'|]; cbn [bind]; auto. destruct (c_each fc fn d p') as [x|]; cbn [bind]; auto. now rewrite IH.
Qed.
Fixpoint logp_list (kd : kind) (p X : pv) (l : list (nat * pdist)) : outcome R :=
  match l with
  | [] => Ok 0
  | (k, d') :: r => bind (part kd k p) (fun p' => bind (part kd k X) (fun X' => bind (c_log_proba d' p' X') (fun a => bind (logp_list kd p X r) (fun b => Ok (a + b)))))
  end.
Lemma logp_node : forall kd l p X, c_log_proba (PNode kd l) p X = logp_list kd p X l.
Proof.
  intros kd l p X. cbn [c_log_proba]. induction l as [|[k d] l IH]; [reflexivity|]. cbn [logp_list]. destruct (part kd k p) as [p'|]; cbn [bind]; auto. destruct (part kd k X) as [X'|]; cbn [bind]; auto. destruct (c_log_proba d p' X') as [x|]; cbn [bind]; auto. now rewrite IH.
Qed.
Fixpoint pre_list (kd : kind) (x : clean) (l : list (nat * pdist)) : outcome (list (nat * pv)) :=
  match l with
  | [] => Ok []
  | (k, d') :: r => bind (cpart kd k x) (fun x' => bind (c_pre d' x') (fun v => bind (pre_list kd x r) (fun y => Ok ((k, v) :: y))))
  end.
Lemma pre_node : forall kd l x, c_pre (PNode kd l) x = bind (pre_list kd x l) (fun xs => Ok (build kd xs)).
Proof.
  intros kd l x. cbn [c_pre]. match goal with |- bind ?a _ = bind ?b _ => assert (E : a = b); [|now rewrite E] end. induction l as [|[k d] l IH]; [reflexivity|]. cbn [pre_list]. destruct (cpart kd k x) as [p'|]; cbn [bind]; auto. destruct (c_pre d p') as [y|]; cbn [bind]; auto. now rewrite IH.
Qed.

(** * Parts *)
(** The keys of a node. *)
Definition keys_ok (kd : kind) (ks : list nat) : Prop := match kd with KDict => NoDup ks | _ => ks = seq 0 (length ks) end.
Definition is_cat (d : pdist) : Prop := match d with PCat _ => True | _ => False end.

Lemma lookup_combine : forall {A} (ks : list nat) (vs : list A), NoDup ks -> length ks = length vs -> Forall2 (fun k v => lookup k (combine ks vs) = Some v) ks vs.
Proof.
  induction ks as [|k ks IH]; intros [|v vs] ND L; cbn in L; try lia; [constructor|]. inversion ND as [|? ? N1 N2]; subst. constructor; [cbn; now rewrite Nat.eqb_refl|].
  specialize (IH vs N2 ltac:(lia)). revert IH. assert (Q : forall ks' vs', (forall j, In j ks' -> j <> k) -> Forall2 (fun j w => lookup j (combine ks vs) = Some w) ks' vs' -> Forall2 (fun j w => lookup j (combine (k :: ks) (v :: vs)) = Some w) ks' vs').
  { induction 2 as [|j w ks' vs' E F IH]; constructor; [|apply IH; intros; apply H; now right]. cbn [combine lookup]. destruct (Nat.eqb_spec j k) as [->|]; [exfalso; apply (H k); [now left|reflexivity]|exact E]. }
  apply Q. intros j Hj ->. contradiction.
Qed.
Lemma nth_error_seq : forall {A} (vs : list A), Forall2 (fun k v => nth_error vs k = Some v) (seq 0 (length vs)) vs.
Proof.
  intros A vs. assert (Q : forall post pre : list A, Forall2 (fun k v => nth_error (pre ++ post) k = Some v) (seq (length pre) (length post)) post).
  { induction post as [|v post IH]; intros pre; cbn [length seq]; constructor.
    - rewrite nth_error_app2, Nat.sub_diag by lia. reflexivity.
    - specialize (IH (pre ++ [v])). rewrite <- app_assoc in IH. cbn [app] in IH. rewrite app_length in IH. cbn [length] in IH. rewrite Nat.add_1_r in IH. exact IH. }
  apply (Q vs []).
Qed.
Lemma map_snd_combine : forall {A B} (ks : list A) (vs : list B), length ks = length vs -> map snd (combine ks vs) = vs.
Proof. induction ks as [|k ks IH]; intros [|v vs] L; cbn in L; try lia; [reflexivity|]. cbn. f_equal. apply IH. lia. Qed.
Lemma Forall2_imp : forall {A B} (P Q : A -> B -> Prop) l m, (forall a b, P a b -> Q a b) -> Forall2 P l m -> Forall2 Q l m.
Proof. intros A B P Q l m H F. induction F; constructor; auto. Qed.
Lemma F2cons : forall {A B} (P : A -> B -> Prop) x l y m, Forall2 P (x :: l) (y :: m) -> P x y /\ Forall2 P l m.
Proof. intros A B P x l y m F. inversion F; auto. Qed.
Lemma Forall2_len : forall {A B} (P : A -> B -> Prop) l m, Forall2 P l m -> length l = length m.
Proof. intros A B P l m F. induction F; cbn; auto. Qed.

Lemma build_parts : forall kd ks vs, keys_ok kd ks -> length ks = length vs -> Forall2 (fun k v => part kd k (build kd (combine ks vs)) = Ok v) ks vs.
Proof.
  intros kd ks vs HK L. destruct kd; cbn [part build]; rewrite ?map_snd_combine by auto.
  - cbn in HK. rewrite HK, L. apply (Forall2_imp (P := fun k v => nth_error vs k = Some v)); [|apply nth_error_seq]. intros a b E. cbn. now rewrite E.
  - cbn in HK. rewrite HK, L. apply (Forall2_imp (P := fun k v => nth_error vs k = Some v)); [|apply nth_error_seq]. intros a b E. cbn. now rewrite E.
  - apply (Forall2_imp (P := fun k v => lookup k (combine ks vs) = Some v)); [|now apply lookup_combine]. intros a b E. cbn. now rewrite E.
Qed.
(** A clean variate put together from its parts. *)
Inductive assembled : kind -> list nat -> list clean -> clean -> Prop :=
| asm_multi : forall ks zs, zs <> [] -> assembled KMulti ks (map CInt zs) (CInts zs)
| asm_tuple : forall ks cs, assembled KTuple ks cs (CTuple cs)
| asm_dict : forall ks cs, assembled KDict ks cs (CDict (combine ks cs)).
Lemma assembled_parts : forall kd ks cs c, assembled kd ks cs c -> keys_ok kd ks -> length ks = length cs -> Forall2 (fun k x => cpart kd k c = Ok x) ks cs.
Proof.
  intros kd ks cs c A HK L. destruct A; cbn [cpart].
  - cbn in HK. rewrite HK, L, map_length. rewrite <- (map_length CInt zs). apply (Forall2_imp (P := fun k v => nth_error (map CInt zs) k = Some v)); [|apply nth_error_seq]. intros a b E. rewrite nth_error_map in E. destruct (nth_error zs a); [|discriminate]. cbn in E. congruence.
  - cbn in HK. rewrite HK, L. apply (Forall2_imp (P := fun k v => nth_error cs k = Some v)); [|apply nth_error_seq]. intros a b E. now rewrite E.
  - apply (Forall2_imp (P := fun k v => lookup k (combine ks cs) = Some v)); [|now apply lookup_combine]. intros a b E. now rewrite E.
Qed.
Lemma map_CInt_inj : forall l m, map CInt l = map CInt m -> l = m.
Proof. induction l as [|x l IH]; intros [|y m] E; try discriminate; auto. injection E as -> E. f_equal. auto. Qed.
Lemma assembled_inj : forall kd ks cs cs' c c', assembled kd ks cs c -> assembled kd ks cs' c' -> length ks = length cs -> length ks = length cs' -> (c = c' <-> cs = cs').
Proof.
  intros kd ks cs cs' c c' A A' L L'. destruct A; inversion A'; subst.
  - split; [congruence|]. intros E. apply map_CInt_inj in E. congruence.
  - split; congruence.
  - split; [|congruence]. intros E. injection E as E. rewrite <- (map_snd_combine ks cs), <- (map_snd_combine ks cs') by auto. now rewrite E.
Qed.
Lemma stack_ints_ok : forall zs, zs <> [] -> stack_ints (map CInt zs) = Ok (CInts zs).
Proof.
  intros zs NE. unfold stack_ints. destruct zs as [|z zs]; [congruence|]. set (l := z :: zs). assert (E : map_outcome (fun c => match c with CInt z => Ok z | _ => Err EValue end) (map CInt l) = Ok l) by (generalize l; clear; induction l as [|x l IH]; [reflexivity|]; cbn; rewrite IH; reflexivity).
  destruct (map CInt l) eqn:Q; [discriminate|]. rewrite E. reflexivity.
Qed.

(** * Distributions over integers, with a variate, its probability and the number of draws *)
Inductive rel : pdist -> pv -> clean -> R -> nat -> Prop :=
| rel_leaf : forall n z a, length z = n -> (a < n)%nat -> rel (PCat n) (VDict [(0%nat, VArr z)]) (CInt (Z.of_nat a)) (boltzmann n z a) n
| rel_node : forall kd l ps cs c r m, rels l ps cs r m -> keys_ok kd (map fst l) -> assembled kd (map fst l) cs c -> (kd = KMulti -> l <> [] /\ forall k d, In (k, d) l -> is_cat d) ->
    rel (PNode kd l) (build kd (combine (map fst l) ps)) c r m
with rels : list (nat * pdist) -> list pv -> list clean -> R -> nat -> Prop :=
| rels_nil : rels [] [] [] 1 0
| rels_cons : forall k d l p ps c cs r r' m m', rel d p c r m -> rels l ps cs r' m' -> rels ((k, d) :: l) (p :: ps) (c :: cs) (r * r') (m + m').
Scheme rel_mut := Induction for rel Sort Prop with rels_mut := Induction for rels Sort Prop.
Combined Scheme rel_ind2 from rel_mut, rels_mut.

Lemma rels_len : forall l ps cs r m, rels l ps cs r m -> length (map fst l) = length ps /\ length (map fst l) = length cs.
Proof. induction 1; cbn; auto. destruct IHrels. split; congruence. Qed.

(** * Draws *)
Definition units (us : list R) : Prop := forall u, In u us -> 0 < u < 1.
Definition quiet (gs : list R) : Prop := forall g, In g gs -> -50 < g < 50.

Lemma mean_units_prod : forall n m F G a b, mean_units n F a -> mean_units m G b -> mean_units (n + m) (fun us => F (firstn n us) * G (skipn n us)) (a * b).
Proof.
  induction n as [|n IH]; intros m F G a b HF HG; cbn [plus mean_units] in *.
  - cbn [firstn skipn]. rewrite HF. now apply mean_units_scal.
  - destruct HF as (H & H1 & H2). exists (fun u => H u * b). split.
    + intros u Hu. cbn [firstn skipn]. apply (IH m (fun us => F (u :: us)) G (H u) b); auto.
    + unfold mean_over_unit in *. rewrite Rmult_comm. apply (@integral_ext (fun x => b * H x)); [lra|intros; ring|]. apply integral_scal; auto. lra.
Qed.

Lemma cat_draw : forall n z a gs, length z = n -> (a < n)%nat -> length gs = n -> quiet gs ->
  exists I, mean_units n I (boltzmann n z a) /\ forall us, length us = n -> units us -> exists x b, cat_sample n tau_default z us = Ok x /\ length x = n /\ cat_post n x gs = Ok b /\ (b < n)%nat /\ ((b = a /\ I us = 1) \/ (b <> a /\ I us = 0)).
Proof.
  intros n z a gs Hz Ha Lg Hg. assert (T : 0 < tau_default) by (unfold tau_default; lra).
  set (I := fun us => match bind (cat_sample n tau_default z us) (fun x => cat_post n x gs) with Ok b => if Nat.eqb b a then 1 else 0 | Err _ => 0 end). exists I. split.
  - assert (E : boltzmann n z a = exp (nth a z 0) / sum_over z exp). { unfold boltzmann. f_equal. rewrite <- Hz. unfold total. clear. induction z as [|x l IH]; [reflexivity|]. cbn [length seq map fold_right nth]. rewrite sum_cons, <- seq_shift, map_map. cbn [nth]. now rewrite IH. }
    rewrite E. apply (@draw_mean n tau_default z gs a); auto. intros us x Lu HU Ex. unfold I. rewrite Ex. cbn [bind]. split; intros H; [rewrite H, Nat.eqb_refl; reflexivity|]. destruct (cat_post n x gs) as [b|]; [|reflexivity]. destruct (Nat.eqb_spec b a); [congruence|reflexivity].
  - intros us Lu HU. destruct (@sample_spec n tau_default z us) as (x & Ex & Lx & _); auto; try lia. assert (NE : x <> []) by (intros C; rewrite C in Lx; cbn in Lx; lia).
    destruct (@argmax_spec x gs) as (b & Eb & Hb & _); auto; [lia|]. exists x, b. split; auto. split; auto. assert (EP : cat_post n x gs = Ok b) by (unfold cat_post; rewrite Lx, Nat.eqb_refl; auto). split; auto. split; [lia|].
    unfold I. rewrite Ex. cbn [bind]. rewrite EP. destruct (Nat.eqb_spec b a); auto.
Qed.

Lemma units_firstn : forall n us, units us -> units (firstn n us).
Proof. intros n us H u Hu. apply H. rewrite <- (firstn_skipn n us). apply in_or_app. now left. Qed.
Lemma units_skipn : forall n us, units us -> units (skipn n us).
Proof. intros n us H u Hu. apply H. rewrite <- (firstn_skipn n us). apply in_or_app. now right. Qed.
Lemma quiet_firstn : forall n us, quiet us -> quiet (firstn n us).
Proof. intros n us H u Hu. apply H. rewrite <- (firstn_skipn n us). apply in_or_app. now left. Qed.
Lemma quiet_skipn : forall n us, quiet us -> quiet (skipn n us).
Proof. intros n us H u Hu. apply H. rewrite <- (firstn_skipn n us). apply in_or_app. now right. Qed.
Lemma firstn_app_exact : forall {A} (l m : list A), firstn (length l) (l ++ m) = l.
Proof. intros A l m. rewrite firstn_app, Nat.sub_diag, firstn_all. cbn. apply app_nil_r. Qed.
Lemma skipn_app_exact : forall {A} (l m : list A), skipn (length l) (l ++ m) = m.
Proof. intros A l m. rewrite skipn_app, Nat.sub_diag, skipn_all. reflexivity. Qed.

(** The variate drawn for the first [m] draws [us], whatever follows, is [x] exactly if the indicator says so; it has a probability itself. *)
Definition draws (d : pdist) (p : pv) (x : clean) (r : R) (m : nat) : Prop :=
  forall gs, length gs = m -> quiet gs -> exists I, mean_units m I r /\ forall us ur gr, length us = m -> units us ->
    exists X c, c_sample d p (us ++ ur) = Ok (X, ur) /\ c_post d X (gs ++ gr) = Ok (c, gr) /\ (is_cat d -> exists z, c = CInt z) /\ (exists r', rel d p c r' m) /\ ((c = x /\ I us = 1) \/ (c <> x /\ I us = 0)).
Definition draws_list (l : list (nat * pdist)) (ps : list pv) (cs : list clean) (r : R) (m : nat) : Prop :=
  forall gs, length gs = m -> quiet gs -> exists I, mean_units m I r /\ forall kd P us ur gr, length us = m -> units us -> Forall2 (fun kd' p => part kd (fst kd') P = Ok p) l ps ->
    exists Xs cs', sample_list kd P l (us ++ ur) = Ok (combine (map fst l) Xs, ur) /\ length Xs = length l /\ length cs' = length l /\
      (forall Y, Forall2 (fun kd' X => part kd (fst kd') Y = Ok X) l Xs -> post_list kd Y l (gs ++ gr) = Ok (combine (map fst l) cs', gr)) /\
      ((forall k d, In (k, d) l -> is_cat d) -> exists zs, cs' = map CInt zs) /\ (exists r', rels l ps cs' r' m) /\ ((cs' = cs /\ I us = 1) \/ (cs' <> cs /\ I us = 0)).

Lemma Forall2_fst : forall {A B} (P : nat -> B -> Prop) (l : list (nat * A)) m, Forall2 P (map fst l) m -> Forall2 (fun x y => P (fst x) y) l m.
Proof. intros A B P l. induction l as [|x l IH]; intros m F; inversion F; subst; constructor; auto. Qed.

Lemma rel_draws : (forall d p x r m, rel d p x r m -> draws d p x r m) /\ (forall l ps cs r m, rels l ps cs r m -> draws_list l ps cs r m).
Proof.
  apply rel_ind2.
  - intros n z a Hz Ha gs Lg Hg. destruct (@cat_draw n z a gs Hz Ha Lg Hg) as (I & HI & H). exists I. split; auto. intros us ur gr Lu HU. destruct (H us Lu HU) as (x & b & Ex & Lx & Eb & Hb & Hc).
    exists (VArr x), (CInt (Z.of_nat b)). cbn [c_sample array_at item lookup logits_key Nat.eqb bind c_post].
    assert (F1 : firstn n (us ++ ur) = us) by (rewrite <- Lu; apply firstn_app_exact). assert (F2 : skipn n (us ++ ur) = ur) by (rewrite <- Lu; apply skipn_app_exact). assert (F3 : firstn n (gs ++ gr) = gs) by (rewrite <- Lg; apply firstn_app_exact). assert (F4 : skipn n (gs ++ gr) = gr) by (rewrite <- Lg; apply skipn_app_exact).
    rewrite F1, F2, F3, F4. rewrite Ex. cbn [bind]. rewrite Eb. cbn [bind]. split; auto. split; auto. split; [eauto|]. split; [eexists; now apply rel_leaf|]. destruct Hc as [[-> ?]|[N ?]]; [left; auto|right; split; auto]. intros C. injection C as C. lia.
  - intros kd l ps cs c r m HR IH HK HA HM gs Lg Hg. destruct (IH gs Lg Hg) as (I & HI & H). exists I. split; auto. intros us ur gr Lu HU. destruct (rels_len HR) as [L1 L2].
    assert (F : Forall2 (fun kd' p => part kd (fst kd') (build kd (combine (map fst l) ps)) = Ok p) l ps) by (apply (@Forall2_fst _ _ (fun k p => part kd k (build kd (combine (map fst l) ps)) = Ok p)), build_parts; auto).
    destruct (H kd _ us ur gr Lu HU F) as (Xs & cs' & E1 & LX & LC & E2 & HZ & HR' & Hc). assert (LX' : length (map fst l) = length Xs) by (rewrite map_length; auto). assert (LC' : length (map fst l) = length cs') by (rewrite map_length; auto).
    assert (F2 : Forall2 (fun kd' X => part kd (fst kd') (build kd (combine (map fst l) Xs)) = Ok X) l Xs) by (apply (@Forall2_fst _ _ (fun k p => part kd k (build kd (combine (map fst l) Xs)) = Ok p)), build_parts; auto).
    specialize (E2 _ F2). assert (exists c', assembled kd (map fst l) cs' c' /\ c_post (PNode kd l) (build kd (combine (map fst l) Xs)) (gs ++ gr) = Ok (c', gr)) as (c' & HA' & E3).
    { rewrite post_node, E2. cbn [bind fst snd]. destruct kd.
      - destruct HM as [NE HM]; auto. destruct (HZ HM) as [zs ->]. assert (NZ : zs <> []) by (intros ->; destruct l; [congruence|cbn in LC; lia]). exists (CInts zs). split; [now constructor|]. rewrite map_snd_combine by auto. rewrite stack_ints_ok by auto. reflexivity.
      - exists (CTuple cs'). split; [constructor|]. now rewrite map_snd_combine.
      - exists (CDict (combine (map fst l) cs')). split; [constructor|]. reflexivity. }
    exists (build kd (combine (map fst l) Xs)), c'. split; [rewrite sample_node, E1; reflexivity|]. split; auto. split; [intros []|]. split.
    + destruct HR' as [r' HR']. exists r'. econstructor; eauto.
    + pose proof (assembled_inj HA' HA LC' L2) as [J1 J2]. destruct Hc as [[-> ?]|[N ?]]; [left; split; auto|right; split; auto].
  - intros gs Lg Hg. exists (fun _ => 1). split; [reflexivity|]. intros kd P us ur gr Lu HU F. exists [], []. destruct us; [|discriminate]. destruct gs; [|discriminate]. cbn. repeat split; auto. exists []; reflexivity. exists 1; constructor.
  - intros k d l p ps c cs r r' m m' HR IH HRs IHs gs Lg Hg. assert (Lg1 : length (firstn m gs) = m) by (rewrite firstn_length; lia). assert (Lg2 : length (skipn m gs) = m') by (rewrite skipn_length; lia).
    destruct (IH _ Lg1 (quiet_firstn m Hg)) as (I1 & M1 & H1). destruct (IHs _ Lg2 (quiet_skipn m Hg)) as (I2 & M2 & H2). exists (fun us => I1 (firstn m us) * I2 (skipn m us)). split; [now apply mean_units_prod|].
    intros kd P us ur gr Lu HU F. apply F2cons in F. destruct F as [EP F']. cbn [fst] in EP. assert (Lu1 : length (firstn m us) = m) by (rewrite firstn_length; lia). assert (Lu2 : length (skipn m us) = m') by (rewrite skipn_length; lia).
    destruct (H1 _ (skipn m us ++ ur) (skipn m gs ++ gr) Lu1 (units_firstn m HU)) as (X & c1 & E1 & E2 & Z1 & R1 & C1). destruct (H2 kd P _ ur gr Lu2 (units_skipn m HU) F') as (Xs & cs' & E3 & LX & LC & E4 & Z2 & R2 & C2).
    rewrite app_assoc, firstn_skipn in E1, E2. exists (X :: Xs), (c1 :: cs'). cbn [sample_list map combine length fst]. rewrite EP. cbn [bind]. rewrite E1. cbn [bind snd fst]. rewrite E3. cbn [bind snd fst]. split; auto. split; auto. split; auto. split; [|split; [|split]].
    + intros Y FY. apply F2cons in FY. destruct FY as [EY FY']. cbn [fst] in EY. cbn [post_list]. rewrite EY. cbn [bind]. rewrite E2. cbn [bind fst snd]. rewrite E4 by auto. reflexivity.
    + intros HC. destruct Z1 as [z ->]; [apply (HC k); now left|]. destruct Z2 as [zs ->]; [intros; apply (HC k0); now right|]. exists (z :: zs). reflexivity.
    + destruct R1 as [r1 R1], R2 as [r2 R2]. exists (r1 * r2). now constructor.
    + destruct C1 as [[-> ->]|[N1 ->]], C2 as [[-> ->]|[N2 ->]]; [left; split; [auto|ring]|right; split; [congruence|ring]|right; split; [congruence|ring]|right; split; [congruence|ring]].
Qed.
