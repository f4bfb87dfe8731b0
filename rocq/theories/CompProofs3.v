(** Composite distributions: the structures made for spaces. *)
From Coq Require Import List ZArith Lia Bool Reals Lra.
From Verif Require Import PyCommon CommonProofs UtilsModel UtilsSpec UtilsProofs2 UtilsProofs3 TDSpec TDProofs DistModel DistSpec DistProofs DistProofs2 PolicySpec PolicyProofs3 MeanSpec MeanProofs CompModel CompSpec CompProofs CompProofs2.
Import ListNotations.
Set Implicit Arguments.
Local Open Scope R_scope.

Section Ind.
Variable P : pspace -> Prop.
Hypothesis HD : forall n s, P (SpDiscrete n s).
Hypothesis HB : forall bs, P (SpBox bs).
Hypothesis HM : forall nv, P (SpMultiDiscrete nv).
Hypothesis HN : forall n, P (SpMultiBinary n).
Hypothesis HT : forall l, Forall P l -> P (SpTuple l).
Hypothesis HK : forall l, Forall (fun ks => P (snd ks)) l -> P (SpDict l).
Hypothesis HO : P SpOther.
Fixpoint pspace_ind2 (sp : pspace) : P sp :=
  match sp with
  | SpDiscrete n s => HD n s | SpBox bs => HB bs | SpMultiDiscrete nv => HM nv | SpMultiBinary n => HN n
  | SpTuple l => HT ((fix go (l : list pspace) : Forall P l := match l with [] => Forall_nil _ | s :: r => Forall_cons s (pspace_ind2 s) (go r) end) l)
  | SpDict l => HK ((fix go (l : list (nat * pspace)) : Forall (fun ks => P (snd ks)) l := match l with [] => Forall_nil _ | ks :: r => Forall_cons ks (pspace_ind2 (snd ks)) (go r) end) l)
  | SpOther => HO
  end.
End Ind.

(** * Construction *)
Fixpoint mk_list (l : list pspace) : outcome (list pdist) := match l with [] => Ok [] | s :: r => bind (mk s) (fun d => bind (mk_list r) (fun ds => Ok (d :: ds))) end.
Fixpoint mk_dict (l : list (nat * pspace)) : outcome (list (nat * pdist)) := match l with [] => Ok [] | (k, s) :: r => bind (mk s) (fun d => bind (mk_dict r) (fun ds => Ok ((k, d) :: ds))) end.
Lemma mk_tuple_eq : forall l, mk (SpTuple l) = bind (mk_list l) (fun ds => Ok (PNode KTuple (enum ds))).
Proof. intros l. cbn [mk]. f_equal. Qed.
Lemma mk_dict_eq : forall l, mk (SpDict l) = bind (mk_dict l) (fun ds => Ok (PNode KDict ds)).
Proof. intros l. cbn [mk]. f_equal. Qed.

Lemma mk_list_ok : forall l ds, mk_list l = Ok ds -> Forall2 (fun s d => mk s = Ok d) l ds.
Proof.
  induction l as [|s l IH]; intros ds E; cbn in E; [injection E as <-; constructor|].
  destruct (mk s) as [d|] eqn:E1; [|discriminate]. cbn in E. destruct (mk_list l) as [ds'|]; [|discriminate]. injection E as <-. constructor; auto.
Qed.
Lemma mk_dict_ok : forall l ds, mk_dict l = Ok ds -> map fst ds = map fst l /\ Forall2 (fun s d => mk s = Ok d) (map snd l) (map snd ds).
Proof.
  induction l as [|[k s] l IH]; intros ds E; cbn in E; [injection E as <-; split; [reflexivity|constructor]|].
  destruct (mk s) as [d|] eqn:E1; [|discriminate]. cbn in E. destruct (mk_dict l) as [ds'|]; [|discriminate]. injection E as <-. destruct (IH ds' eq_refl) as [H1 H2]. cbn. split; [now rewrite H1|constructor; auto].
Qed.
Lemma enum_fst : forall {A} (l : list A), map fst (enum l) = seq 0 (length l).
Proof. intros A l. unfold enum. generalize 0%nat. induction l as [|x l IH]; intros s; cbn; [reflexivity|]. now rewrite IH. Qed.
Lemma enum_snd : forall {A} (l : list A), map snd (enum l) = l.
Proof. intros A l. unfold enum. generalize 0%nat. induction l as [|x l IH]; intros s; cbn; [reflexivity|]. now rewrite IH. Qed.
Lemma combine_fst_snd : forall {A B} (l : list (A * B)), combine (map fst l) (map snd l) = l.
Proof. intros A B l. induction l as [|[a b] l IH]; cbn; [reflexivity|]. now rewrite IH. Qed.
Lemma keys_enum : forall {A} kd (l : list A), kd <> KDict -> keys_ok kd (map fst (enum l)).
Proof. intros A kd l H. rewrite enum_fst. destruct kd; cbn; rewrite ?seq_length; congruence. Qed.

(** * The spec's loops as relations *)
Lemma all_list : forall (P : pspace -> Prop) l, (fix all (l : list pspace) : Prop := match l with [] => True | s :: r => P s /\ all r end) l <-> Forall P l.
Proof. intros P l. induction l as [|s l IH]; split; intros H; auto; [constructor; [apply H|apply IH, H]|]. inversion H; subst. split; auto. now apply IH. Qed.
Lemma all_dict : forall (P : pspace -> Prop) l, (fix all (l : list (nat * pspace)) : Prop := match l with [] => True | (_, s) :: r => P s /\ all r end) l <-> Forall P (map snd l).
Proof. intros P l. induction l as [|[k s] l IH]; split; intros H; auto; [constructor|constructor; [apply H|apply IH, H]|]. inversion H; subst. split; auto. now apply IH. Qed.
Lemma both_list : forall {A} (P : pspace -> A -> Prop) ss l, (fix both (ss : list pspace) (l : list A) : Prop := match ss, l with [], [] => True | s :: ss, c :: l => P s c /\ both ss l | _, _ => False end) ss l <-> Forall2 P ss l.
Proof. intros A P ss. induction ss as [|s ss IH]; intros [|c l]; split; intros H; try (now inversion H); auto; [constructor; [apply H|apply IH, H]|]. inversion H; subst. split; auto. now apply IH. Qed.
Lemma both_dict : forall {A} (P : pspace -> A -> Prop) ss l, (fix both (ss : list (nat * pspace)) (l : list (nat * A)) : Prop := match ss, l with [], [] => True | (k, s) :: ss, (j, c) :: l => k = j /\ P s c /\ both ss l | _, _ => False end) ss l <-> map fst l = map fst ss /\ Forall2 P (map snd ss) (map snd l).
Proof.
  intros A P ss. induction ss as [|[k s] ss IH]; intros [|[j c] l]; split; intros H; try (destruct H as [H _]; discriminate H); try (now inversion H); auto; [split; [reflexivity|constructor]| |].
  - destruct H as (-> & H1 & H2). apply IH in H2. destruct H2 as [H2 H3]. cbn. split; [now rewrite H2|constructor; auto].
  - destruct H as [H1 H2]. cbn in H1, H2. injection H1 as -> H1. inversion H2; subst. split; auto. split; auto. apply IH. auto.
Qed.

(** * Spaces of integers *)
Definition made (sp : pspace) (d : pdist) : Prop := forall p,
  (fits sp p -> forall x, inside sp x -> exists r m, rel d p x r m) /\
  (forall x r m, rel d p x r m -> inside sp x /\ r = prob sp p x /\ m = size sp).

Fixpoint probs (ss : list pspace) (ps : list pv) (l : list clean) : R := match ss, ps, l with s :: ss, q :: ps, c :: l => prob s q c * probs ss ps l | _, _, _ => 1 end.

Lemma made_list : forall ss ds, Forall2 made ss ds -> forall ks ps, length ks = length ds ->
  (Forall2 fits ss ps -> forall cs, Forall2 inside ss cs -> exists r m, rels (combine ks ds) ps cs r m) /\
  (forall cs r m, rels (combine ks ds) ps cs r m -> Forall2 inside ss cs /\ r = probs ss ps cs /\ m = nsum (map size ss)).
Proof.
  intros ss ds F. induction F as [|s d ss ds H F IH]; intros ks ps L.
  - split.
    + intros F1 cs F2. inversion F1; subst. inversion F2; subst. destruct ks; [|discriminate]. exists 1, 0%nat. constructor.
    + intros cs r m HR. destruct ks; [|discriminate]. cbn in HR. inversion HR; subst. repeat split; constructor.
  - destruct ks as [|k ks]; [discriminate|]. injection L as L. split.
    + intros F1 cs F2. inversion F1 as [|? p ? ps' G1 F1']; subst. inversion F2 as [|? c ? cs' G2 F2']; subst. destruct (H p) as [H1 _]. destruct (H1 G1 c G2) as (r & m & HR). destruct (IH ks ps' L) as [H2 _]. destruct (H2 F1' cs' F2') as (r' & m' & HR'). exists (r * r'), (m + m')%nat. cbn [combine]. now constructor.
    + intros cs r m HR. cbn [combine] in HR. inversion HR as [|k' d' l' p ps' c cs' r1 r2 m1 m2 HA HB]; subst. destruct (H p) as [_ H1]. destruct (H1 _ _ _ HA) as (I1 & -> & ->). destruct (IH ks ps' L) as [_ H2]. destruct (H2 _ _ _ HB) as (I2 & -> & ->). split; [constructor; auto|]. split; reflexivity.
Qed.

Lemma made_cat : forall n, made (SpDiscrete n 0) (PCat n).
Proof.
  intros n p. split.
  - intros (z & -> & Lz) x I1. cbn [inside] in I1. destruct x as [z'| | | |]; try contradiction. exists (boltzmann n z (Z.to_nat z')), n. replace (CInt z') with (CInt (Z.of_nat (Z.to_nat z'))) by (f_equal; lia). apply rel_leaf; auto. lia.
  - intros x r m HR. inversion HR; subst. cbn [inside prob size prob_int]. rewrite Nat2Z.id. split; auto. lia.
Qed.
Lemma made_multi : forall nvec, nvec <> [] -> made (SpMultiDiscrete nvec) (PNode KMulti (enum (map PCat nvec))).
Proof.
  intros nvec NE p. assert (F : Forall2 made (map (fun n => SpDiscrete n 0) nvec) (map PCat nvec)). { clear. induction nvec; cbn; constructor; auto. apply made_cat. }
  pose proof (made_list F) as HL. set (ds := map PCat nvec) in *.
  assert (PR : forall ps zs, probs (map (fun n => SpDiscrete n 0) nvec) ps (map CInt zs) = product (map (fun t => prob_int (fst (fst t)) (snd (fst t)) (snd t)) (combine (combine nvec ps) zs))).
  { clear. induction nvec as [|n nvec IH]; intros [|q ps] [|z zs]; cbn; try reflexivity. now rewrite IH. }
  assert (SZ : nsum (map size (map (fun n => SpDiscrete n 0) nvec)) = nsum nvec) by (rewrite map_map; cbn; now rewrite map_id).
  assert (IN : forall zs, Forall2 inside (map (fun n => SpDiscrete n 0) nvec) (map CInt zs) <-> Forall2 (fun n z => (0 <= z < Z.of_nat n)%Z) nvec zs).
  { clear. induction nvec as [|n nvec IH]; intros [|z zs]; cbn; split; intros H; inversion H; subst; constructor; auto; try (now apply IH); cbn [inside] in *; lia. }
  specialize (HL (seq 0 (length ds))). assert (LS : length (seq 0 (length ds)) = length ds) by apply seq_length. split.
  - intros (ps & -> & FP) x HI. cbn [inside] in HI. destruct x as [| |zs| |]; try contradiction. destruct (HL ps LS) as [H1 _]. destruct (H1) with (cs := map CInt zs) as (r & m & HR).
    + clear - FP. induction FP as [|n q nv ps H FP IH]; cbn; constructor; auto. 
    + now apply IN.
    + exists r, m. fold (enum ds) in HR. destruct (rels_len HR) as [L1 _]. replace (VList ps) with (build KMulti (combine (map fst (enum ds)) ps)) by (cbn [build]; now rewrite map_snd_combine by auto). eapply rel_node; eauto; [apply keys_enum; discriminate| |].
      * constructor. intros ->. inversion HI; subst. congruence.
      * intros _. split; [unfold ds, enum; destruct nvec; [congruence|discriminate]|]. intros k d Hin. apply in_combine_r in Hin. unfold ds in Hin. apply in_map_iff in Hin. destruct Hin as (n & <- & _). exact I.
  - intros x r m HR. inversion HR as [|kd l ps cs c r' m' HRs HK HA HM]; subst. destruct (HL ps LS) as [_ H2]. destruct (H2 _ _ _ HRs) as (I1 & -> & ->). destruct (rels_len HRs) as [L1 _]. inversion HA; subst. split; [now apply IN|]. split; [|exact SZ]. cbn [prob build]. rewrite map_snd_combine by auto. apply PR.
Qed.
Lemma made_binary : forall n, (1 <= n)%nat -> made (SpMultiBinary n) (PNode KMulti (enum (map (fun _ => PCat 2) (seq 0 n)))).
Proof.
  intros n Hn p. assert (E : map (fun _ => PCat 2) (seq 0 n) = map PCat (repeat 2%nat n)). { assert (G : forall s, map (fun _ => PCat 2) (seq s n) = map PCat (repeat 2%nat n)); [|apply G]. clear. induction n; intros s; cbn; [reflexivity|]. now rewrite IHn. }
  rewrite E. assert (NE : repeat 2%nat n <> []) by (destruct n; [lia|discriminate]). destruct (made_multi NE p) as [H1 H2]. split.
  - intros (ps & -> & L & FP) x HI. apply H1.
    + exists ps. split; auto. rewrite <- L. clear - FP. induction ps as [|q ps IH]; cbn; constructor; [apply FP; now left|]. apply IH. intros; apply FP; now right.
    + cbn [inside] in *. destruct x as [| |zs| |]; try contradiction. destruct HI as [L' HI]. rewrite <- L'. clear - HI. induction zs as [|z zs IH]; cbn; constructor; [destruct (HI z); [now left| |]; subst; lia|]. apply IH. intros; apply HI; now right.
  - intros x r m HR. destruct (H2 _ _ _ HR) as (I1 & -> & ->). split; [|split].
    + cbn [inside] in *. destruct x as [| |zs| |]; try contradiction. pose proof (Forall2_len I1) as L. rewrite repeat_length in L. split; auto. subst n. clear - I1. intros z Hz. induction zs as [|y zs IH]; [destruct Hz|]. cbn in I1. apply F2cons in I1. destruct I1 as [I0 I1]. destruct Hz as [->|Hz]; [lia|auto].
    + inversion HR as [|kd l ps cs c r' m' HRs HK HA HM]; subst. cbn [prob build] in *. destruct (rels_len HRs) as [L1 _]. rewrite map_snd_combine by auto. assert (L2 : length ps = n) by (rewrite <- L1, enum_fst, seq_length, map_length; apply repeat_length). destruct x as [| |zs| |]; auto. rewrite <- L2. clear. revert zs. induction ps as [|q ps IH]; intros [|z zs]; cbn; try reflexivity. now rewrite IH.
    + cbn [size]. clear. induction n; cbn [repeat nsum fold_right]; [reflexivity|]. unfold nsum in *. lia.
Qed.

Lemma supported_tuple : forall l, supported (SpTuple l) <-> Forall supported l. Proof. intros l. apply (all_list supported). Qed.
Lemma supported_dict : forall l, supported (SpDict l) <-> NoDup (map fst l) /\ Forall supported (map snd l).
Proof. intros l. cbn [supported]. split; intros [H1 H2]; split; auto; now apply (all_dict supported). Qed.
Lemma countable_tuple : forall l, countable (SpTuple l) <-> Forall countable l. Proof. intros l. apply (all_list countable). Qed.
Lemma countable_dict : forall l, countable (SpDict l) <-> Forall countable (map snd l). Proof. intros l. apply (all_dict countable). Qed.
Lemma fits_tuple : forall l p, fits (SpTuple l) p <-> exists ps, p = VList ps /\ Forall2 fits l ps.
Proof. intros l p. split; intros (ps & -> & H); exists ps; (split; [reflexivity|]); now apply (both_list fits). Qed.
Lemma fits_dict : forall l p, fits (SpDict l) p <-> exists ps, p = VDict ps /\ map fst ps = map fst l /\ Forall2 fits (map snd l) (map snd ps).
Proof. intros l p. split; intros (ps & -> & H); exists ps; (split; [reflexivity|]); now apply (both_dict fits). Qed.
Lemma inside_tuple : forall l cs, inside (SpTuple l) (CTuple cs) <-> Forall2 inside l cs. Proof. intros l cs. apply (both_list inside). Qed.
Lemma inside_dict : forall l cs, inside (SpDict l) (CDict cs) <-> map fst cs = map fst l /\ Forall2 inside (map snd l) (map snd cs). Proof. intros l cs. apply (both_dict inside). Qed.
Lemma prob_tuple : forall l ps cs, prob (SpTuple l) (VList ps) (CTuple cs) = probs l ps cs.
Proof. reflexivity. Qed.
Lemma prob_dict : forall l ps cs, prob (SpDict l) (VDict ps) (CDict cs) = probs (map snd l) (map snd ps) (map snd cs).
Proof. induction l as [|[k s] l IH]; intros [|[j q] ps] [|[i c] cs]; cbn [probs map snd]; try reflexivity. rewrite <- IH. reflexivity. Qed.

Lemma made_all : forall sp, supported sp -> countable sp -> exists d, mk sp = Ok d /\ made sp d.
Proof.
  induction sp as [n s|bs|nv|n|l IH|l IH|] using pspace_ind2; intros HS HC.
  - cbn in HC. subst s. exists (PCat n). split; [reflexivity|apply made_cat].
  - destruct HC.
  - eexists. split; [reflexivity|]. destruct HS. now apply made_multi.
  - eexists. split; [reflexivity|]. now apply made_binary.
  - apply supported_tuple in HS. apply countable_tuple in HC. assert (exists ds, mk_list l = Ok ds /\ Forall2 made l ds) as (ds & E & F).
    { clear - IH HS HC. induction l as [|s l IHl]; [exists []; split; [reflexivity|constructor]|]. inversion IH; subst. inversion HS; subst. inversion HC; subst. destruct H1 as (d & E1 & M1); auto. destruct IHl as (ds & E2 & M2); auto. exists (d :: ds). cbn [mk_list]. rewrite E1. cbn [bind]. rewrite E2. split; [reflexivity|]. now constructor. }
    rewrite mk_tuple_eq, E. cbn [bind]. eexists. split; [reflexivity|]. intros p. pose proof (made_list F) as HL. specialize (HL (seq 0 (length ds))). assert (LS : length (seq 0 (length ds)) = length ds) by apply seq_length. split.
    + intros HF x HI. apply fits_tuple in HF. destruct HF as (ps & -> & FP). destruct x as [| | |cs|]; try contradiction. apply inside_tuple in HI. destruct (HL ps LS) as [H1 _]. destruct (H1 FP cs HI) as (r & m & HR). exists r, m. fold (enum ds) in HR. destruct (rels_len HR) as [L1 _]. replace (VList ps) with (build KTuple (combine (map fst (enum ds)) ps)) by (cbn [build]; now rewrite map_snd_combine by auto). eapply rel_node; eauto; [apply keys_enum; discriminate|constructor|discriminate].
    + intros x r m HR. inversion HR as [|kd l' ps cs c r' m' HRs HK HA HM]; subst. destruct (HL ps LS) as [_ H2]. destruct (H2 _ _ _ HRs) as (I1 & -> & ->). destruct (rels_len HRs) as [L1 _]. inversion HA; subst. split; [now apply inside_tuple|]. split; [|reflexivity]. cbn [build]. rewrite map_snd_combine by auto. now rewrite prob_tuple.
  - apply supported_dict in HS. apply countable_dict in HC. destruct HS as [ND HS]. assert (exists ds, mk_dict l = Ok ds /\ map fst ds = map fst l /\ Forall2 made (map snd l) (map snd ds)) as (ds & E & EK & F).
    { clear - IH HS HC. induction l as [|[k s] l IHl]; [exists []; split; [reflexivity|split; [reflexivity|constructor]]|]. inversion IH; subst. cbn in HS, HC. inversion HS; subst. inversion HC; subst. destruct H1 as (d & E1 & M1); auto. destruct IHl as (ds & E2 & K2 & M2); auto. exists ((k, d) :: ds). cbn [mk_dict]. cbn [snd] in E1. rewrite E1. cbn [bind]. rewrite E2. split; [reflexivity|]. cbn. split; [now rewrite K2|]. now constructor. }
    rewrite mk_dict_eq, E. cbn [bind]. eexists. split; [reflexivity|]. intros p. pose proof (made_list F) as HL. specialize (HL (map fst ds)). assert (LS : length (map fst ds) = length (map snd ds)) by now rewrite !map_length. rewrite combine_fst_snd in HL. split.
    + intros HF x HI. apply fits_dict in HF. destruct HF as (ps & -> & KP & FP). destruct x as [| | | |cs]; try contradiction. apply inside_dict in HI. destruct HI as [KC HI]. destruct (HL (map snd ps) LS) as [H1 _]. destruct (H1 FP (map snd cs) HI) as (r & m & HR). exists r, m.
      replace (VDict ps) with (build KDict (combine (map fst ds) (map snd ps))) by (cbn [build]; now rewrite EK, <- KP, combine_fst_snd). eapply rel_node; eauto; [cbn; now rewrite EK| |discriminate]. rewrite <- (combine_fst_snd cs) at 2. rewrite KC, <- EK. constructor.
    + intros x r m HR. inversion HR as [|kd l' ps cs c r' m' HRs HK HA HM]; subst. destruct (HL ps LS) as [_ H2]. destruct (H2 _ _ _ HRs) as (I1 & -> & ->). destruct (rels_len HRs) as [L1 L2]. inversion HA; subst. split; [|split].
      * apply inside_dict. rewrite map_snd_combine by auto. split; auto. rewrite <- EK. clear - L2. rewrite map_length in L2. revert cs L2. induction ds as [|x l IH]; intros [|y cs] L; cbn in *; try lia; auto. f_equal. apply IH. lia.
      * cbn [build]. rewrite prob_dict, !map_snd_combine by auto. reflexivity.
      * cbn [size]. now rewrite map_map.
  - destruct HS.
Qed.
