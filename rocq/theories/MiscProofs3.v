(** Proofs about MiscModel.v: preprocessors, environments. *)
From Coq Require Import List ZArith Bool Reals Lra Lia.
From Verif Require Import PyCommon CommonProofs UtilsModel UtilsSpec UtilsProofs2 WrappersProofs LossProofs DistProofs2 MiscModel MiscSpec MiscProofs MiscProofs2.
Import ListNotations.
Local Open Scope R_scope.
Set Implicit Arguments.

(** * Preprocessing *)

Fixpoint pre_fields (x : ginput) (l : list (nat * gspace)) : outcome (list (nat * gout)) :=
  match l with
  | [] => Ok []
  | (k, sp) :: l' => bind (field k x) (fun y => bind (preprocess sp y) (fun o => bind (pre_fields x l') (fun r => Ok ((k, o) :: r))))
  end.
Lemma preprocess_node : forall l x, preprocess (GNode l) x = bind (pre_fields x l) (fun os => Ok (ONode os)).
Proof.
  intros l x. cbn [preprocess]. f_equal.
  induction l as [|[k sp] l IH]; [reflexivity|]. cbn [pre_fields]. rewrite <- IH. reflexivity.
Qed.

Lemma batches_keys : forall l rows cols, batches_of l rows cols -> map fst cols = map fst l.
Proof. induction 1; simpl; auto. now f_equal. Qed.
Lemma bget_in : forall k b l, NoDup (map fst l) -> In (k, b) l -> bget k l = Some b.
Proof.
  induction l as [|[j c] l IH]; intros N H; [destruct H|]. simpl in *. inversion N as [|? ? N1 N2]; subst. destruct H as [H|H].
  - inversion H; subst. now rewrite Nat.eqb_refl.
  - destruct (Nat.eqb_spec k j) as [->|_]; auto. exfalso. apply N1. apply (in_map fst) in H. exact H.
Qed.
Lemma vget_in : forall k b l, NoDup (map fst l) -> In (k, b) l -> vget k l = Some b.
Proof.
  induction l as [|[j c] l IH]; intros N H; [destruct H|]. simpl in *. inversion N as [|? ? N1 N2]; subst. destruct H as [H|H].
  - inversion H; subst. now rewrite Nat.eqb_refl.
  - destruct (Nat.eqb_spec k j) as [->|_]; auto. exfalso. apply N1. apply (in_map fst) in H. exact H.
Qed.
Lemma batches_nodup : forall l rows cols, batches_of l rows cols -> NoDup (map fst l).
Proof. induction 1; simpl; constructor; auto. Qed.
Lemma batches_row_keys : forall l rows cols, batches_of l rows cols -> forall i r, nth_error rows i = Some r -> map fst r = map fst l.
Proof.
  induction 1; intros i r Hr.
  - apply nth_error_In in Hr. apply repeat_spec in Hr. now subst.
  - rewrite nth_error_map in Hr. destruct (nth_error (combine vs rows) i) as [[v row]|] eqn:E; [|discriminate]. simpl in Hr. inversion Hr; subst. simpl. f_equal. apply (IHbatches_of i).
    clear -E. revert rows i E. induction vs as [|x vs IH]; intros [|y rows] [|i] E; simpl in *; try discriminate; [congruence|eauto].
Qed.
Lemma combine_nth_error : forall A B (l : list A) (m : list B) i a b, nth_error (combine l m) i = Some (a, b) -> nth_error l i = Some a /\ nth_error m i = Some b.
Proof. induction l as [|x l IH]; intros [|y m] [|i] a b H; simpl in *; try discriminate; [inversion H; auto|eauto]. Qed.

Lemma preprocess_batch : forall sp vs b, batch_of sp vs b -> exists o, preprocess sp (Many b) = Ok o /\ forall i v, nth_error vs i = Some v -> preprocess sp (One v) = Ok (row_of i o).
Proof.
  refine (@batch_mut
    (fun sp vs b _ => exists o, preprocess sp (Many b) = Ok o /\ forall i v, nth_error vs i = Some v -> preprocess sp (One v) = Ok (row_of i o))
    (fun l rows cols _ => forall B, (forall k b, In (k, b) cols -> bget k B = Some b) -> exists os, pre_fields (Many (BNode B)) l = Ok os /\
       forall i r V, nth_error rows i = Some r -> (forall k v, In (k, v) r -> vget k V = Some v) -> pre_fields (One (VNode V)) l = Ok (map (fun ko => (fst ko, row_of i (snd ko))) os))
    _ _ _ _ _ _ _).
  - intros n start l. eexists. split; [reflexivity|]. intros i v Hv. rewrite nth_error_map in Hv. destruct (nth_error l i) as [z|] eqn:E; [|discriminate]. inversion Hv; subst. cbn [preprocess row_of].
    rewrite (@nth_map_any _ _ _ l i [] 0%Z) by (apply nth_error_Some; congruence). erewrite (nth_error_nth l i _ E). reflexivity.
  - intros low high l H. cbn [preprocess]. rewrite (proj2 (forallb_forall _ _)) by (intros v Hv; apply Nat.eqb_eq; auto). eexists. split; [reflexivity|].
    intros i v Hv. rewrite nth_error_map in Hv. destruct (nth_error l i) as [z|] eqn:E; [|discriminate]. inversion Hv; subst. cbn [preprocess row_of].
    rewrite (H z) by (eapply nth_error_In; eauto). rewrite Nat.eqb_refl. rewrite (@nth_map_any _ _ _ l i [] []) by (apply nth_error_Some; congruence). erewrite (nth_error_nth l i _ E). reflexivity.
  - intros nvec l H. cbn [preprocess bind]. rewrite (proj2 (forallb_forall _ _)) by (intros v Hv; apply Nat.leb_le; rewrite H; auto). eexists. split; [reflexivity|].
    intros i v Hv. rewrite nth_error_map in Hv. destruct (nth_error l i) as [z|] eqn:E; [|discriminate]. inversion Hv; subst. cbn [preprocess row_of bind forallb].
    rewrite (H z) by (eapply nth_error_In; eauto). rewrite Nat.leb_refl. cbn [andb]. f_equal. f_equal. rewrite map_map. apply map_ext. intros j. cbn [map].
    rewrite (@nth_map_any _ _ _ l i [] []) by (apply nth_error_Some; congruence). erewrite (nth_error_nth l i _ E). reflexivity.
  - intros n l H. cbn [preprocess]. rewrite (proj2 (forallb_forall _ _)) by (intros v Hv; apply Nat.eqb_eq; auto). eexists. split; [reflexivity|].
    intros i v Hv. rewrite nth_error_map in Hv. destruct (nth_error l i) as [z|] eqn:E; [|discriminate]. inversion Hv; subst. cbn [preprocess row_of].
    rewrite (H z) by (eapply nth_error_In; eauto). rewrite Nat.eqb_refl. rewrite (@nth_map_any _ _ _ l i [] []) by (apply nth_error_Some; congruence). erewrite (nth_error_nth l i _ E). reflexivity.
  - intros l rows cols Hb IH. pose proof (batches_nodup Hb) as ND. destruct (IH cols) as [os [E1 E2]]; [intros k b Hk; apply bget_in; auto; now rewrite (batches_keys Hb)|].
    exists (ONode os). rewrite preprocess_node, E1. split; [reflexivity|]. intros i v Hv. rewrite nth_error_map in Hv. destruct (nth_error rows i) as [r|] eqn:E; [|discriminate]. inversion Hv; subst.
    rewrite preprocess_node. rewrite (E2 i r r E); [reflexivity|]. intros k v Hk. apply vget_in; auto. now rewrite (batches_row_keys Hb i E).
  - intros n B _. exists []. split; [reflexivity|]. intros. reflexivity.
  - intros k sp l vs rows b cols Nk Lv Hb IH Hbs IHs B HB. destruct IH as [o [E1 E2]]. destruct (IHs B) as [os [E3 E4]]; [intros; apply HB; now right|].
    exists ((k, o) :: os). cbn [pre_fields field]. rewrite (HB k b) by now left. cbn [bind]. rewrite E1. cbn [bind]. rewrite E3. split; [reflexivity|].
    intros i r V Hr HV. rewrite nth_error_map in Hr. destruct (nth_error (combine vs rows) i) as [[v row]|] eqn:E; [|discriminate]. simpl in Hr. inversion Hr; subst. apply combine_nth_error in E. destruct E as [Ev Er].
    cbn [pre_fields field]. rewrite (HV k v) by now left. cbn [bind]. rewrite (E2 i v Ev). cbn [bind]. rewrite (E4 i row V Er) by (intros; apply HV; now right). reflexivity.
Qed.

Lemma onehot_nth : forall n z k, (k < n)%nat -> nth k (onehot n z) 0 = if (Z.of_nat k =? z)%Z then 1 else 0.
Proof. intros n z k H. unfold onehot. rewrite nth_map_seq by auto. reflexivity. Qed.
Lemma onehot_length : forall n z, length (onehot n z) = n. Proof. intros. unfold onehot. now rewrite map_length, seq_length. Qed.
Lemma onehot_inj : forall n z z', (0 <= z < Z.of_nat n)%Z -> onehot n z = onehot n z' -> z = z'.
Proof.
  intros n z z' H E. apply (f_equal (fun l => nth (Z.to_nat z) l 0)) in E. rewrite !onehot_nth in E by lia. rewrite Z2Nat.id in E by lia. rewrite Z.eqb_refl in E. destruct (Z.eqb_spec z z'); auto. lra.
Qed.
Lemma clip_row_in : forall low high v, length v = length low -> length high = length low -> (forall i, (i < length v)%nat -> nth i low 0 <= nth i v 0 <= nth i high 0) -> clip_row low high v = v.
Proof.
  induction low as [|l low IH]; intros [|h high] [|x v] L1 L2 H; simpl in *; try discriminate; auto. unfold clip_row. cbn [combine map fst snd]. f_equal.
  - apply clip_in. apply (H 0%nat). lia.
  - apply IH; try lia. intros i Hi. apply (H (S i)). lia.
Qed.
Lemma clip_row_between : forall low high v, length v = length low -> length high = length low -> (forall i, (i < length low)%nat -> nth i low 0 <= nth i high 0) ->
  length (clip_row low high v) = length low /\ forall i, (i < length low)%nat -> nth i low 0 <= nth i (clip_row low high v) 0 <= nth i high 0.
Proof.
  induction low as [|l low IH]; intros [|h high] [|x v] L1 L2 H; simpl in *; try discriminate; [split; auto; intros; lia|]. destruct (IH high v) as [A B]; try lia; [intros i Hi; apply (H (S i)); lia|].
  unfold clip_row in *. cbn [combine map fst snd length]. split; [lia|]. intros [|i] Hi; simpl; [apply clip_between; apply (H 0%nat); lia|apply B; lia].
Qed.

Lemma members_keys : forall l vs, members l vs -> map fst vs = map fst l.
Proof. induction 1; simpl; auto. now f_equal. Qed.
Lemma members_nodup : forall l vs, members l vs -> NoDup (map fst l).
Proof. induction 1; simpl; constructor; auto. Qed.

Lemma preprocess_inj : forall sp v, member sp v -> (exists o, preprocess sp (One v) = Ok o) /\ (zero_based sp -> forall v', member sp v' -> preprocess sp (One v) = preprocess sp (One v') -> v = v').
Proof.
  refine (@member_mut
    (fun sp v _ => (exists o, preprocess sp (One v) = Ok o) /\ (zero_based sp -> forall v', member sp v' -> preprocess sp (One v) = preprocess sp (One v') -> v = v'))
    (fun l vs _ => (forall V, (forall k v, In (k, v) vs -> vget k V = Some v) -> exists os, pre_fields (One (VNode V)) l = Ok os) /\
      ((forall k sp, In (k, sp) l -> zero_based sp) -> forall vs' V V', members l vs' -> (forall k v, In (k, v) vs -> vget k V = Some v) -> (forall k v, In (k, v) vs' -> vget k V' = Some v) ->
        pre_fields (One (VNode V)) l = pre_fields (One (VNode V')) l -> vs = vs'))
    _ _ _ _ _ _ _).
  - intros n start z H. split; [eexists; reflexivity|]. intros Z v' M E. inversion Z; subst. inversion M; subst. cbn [preprocess] in E. inversion E. f_equal. eapply onehot_inj; eauto.
  - intros low high v L1 L2 H. split; [cbn [preprocess]; rewrite L1, Nat.eqb_refl; eauto|]. intros _ v' M E. inversion M as [|? ? w L3 L4 H'| | |]; subst. cbn [preprocess] in E. rewrite L1, L3, Nat.eqb_refl in E. rewrite !clip_row_in in E by auto. inversion E. now f_equal.
  - intros nvec v L H. split; [cbn [preprocess bind forallb]; rewrite L, Nat.leb_refl; eexists; reflexivity|]. intros _ v' M E. inversion M as [| |? w L' H'| |]; subst. cbn [preprocess bind forallb] in E. rewrite L, L', Nat.leb_refl in E. cbn [andb map] in E. inversion E as [Q]. f_equal.
    apply (@list_eq_nth _ 0%Z); [congruence|]. intros i Hi. apply (f_equal (fun z => nth i z [])) in Q. rewrite !nth_map_seq in Q by lia. cbn [plus] in Q. inversion Q as [Q']. eapply onehot_inj; [apply H; auto|eauto].
  - intros n v L H. split; [cbn [preprocess]; rewrite L, Nat.eqb_refl; eauto|]. intros _ v' M E. inversion M as [| | |? w L' H'|]; subst. cbn [preprocess] in E. rewrite L', !Nat.eqb_refl in E. inversion E as [Q]. f_equal.
    clear -Q L'. revert w Q L'. induction v as [|x v IH]; intros [|y w] Q L'; simpl in *; try discriminate; auto. inversion Q. f_equal; [now apply eq_IZR|apply IH; auto].
  - intros l vs M [I1 I2]. pose proof (members_nodup M) as ND. assert (HV : forall ws, members l ws -> forall k v, In (k, v) ws -> vget k ws = Some v) by (intros ws Hw k v Hk; apply vget_in; auto; now rewrite (members_keys Hw)). split.
    + rewrite preprocess_node. destruct (I1 vs (HV vs M)) as [os ->]. eexists. reflexivity.
    + intros Z v' M' E. inversion Z as [| | | |? HZ]; subst. inversion M' as [| | | |? ws Hw]; subst. rewrite !preprocess_node in E. f_equal. apply (I2 HZ ws vs ws Hw (HV vs M) (HV ws Hw)).
      destruct (pre_fields (One (VNode vs)) l), (pre_fields (One (VNode ws)) l); cbn [bind] in E; congruence.
  - split; [intros; eexists; reflexivity|]. intros _ vs' V V' M _ _ _. inversion M. reflexivity.
  - intros k sp v l vs Nk M [I1 I2] Ms [J1 J2]. split.
    + intros V HV. cbn [pre_fields field]. rewrite (HV k v) by now left. cbn [bind]. destruct I1 as [o ->]. cbn [bind]. destruct (J1 V) as [os ->]; [intros; apply HV; now right|]. eexists. reflexivity.
    + intros Z vs' V V' M' HV HV' E. inversion M' as [|? ? v2 ? vs2 N2 Mv Mvs]; subst. cbn [pre_fields field] in E. rewrite (HV k v), (HV' k v2) in E by now left. cbn [bind] in E.
      destruct I1 as [o Eo]. destruct (J1 V) as [os Eos]; [intros; apply HV; now right|]. rewrite Eo, Eos in E. cbn [bind] in E. destruct (preprocess sp (One v2)) as [o2|] eqn:Eo2; [|discriminate]. cbn [bind] in E. destruct (pre_fields (One (VNode V')) l) as [os2|] eqn:Eos2; [|discriminate]. cbn [bind] in E. inversion E; subst.
      f_equal; [f_equal; apply I2; auto; [eapply Z; now left|congruence]|]. apply (J2 (fun k' sp' H => Z k' sp' (or_intror H)) vs2 V V' Mvs); [intros; apply HV; now right|intros; apply HV'; now right|congruence].
Qed.

(** * check_preprocessors *)

Section CP.
Variables K X Y : Type.
Variable close : Y -> Y -> bool.
Variable keys : nat -> K.

Lemma check_det : forall (g0 : X -> Y) gs xs, check_preprocessors close keys (map (fun g (_ : K) x => g x) (g0 :: gs)) xs = (match gs with [] => Err EValue | _ => Ok (forallb (fun x => forallb (fun g => close (g x) (g0 x)) gs) xs) end).
Proof.
  intros g0 gs xs. destruct gs as [|g1 gs]; [reflexivity|].
  change (check_preprocessors close keys (map (fun g (_ : K) x => g x) (g0 :: g1 :: gs)) xs) with (Ok (check_samples close keys (fun _ x => g0 x) (map (fun g (_ : K) x => g x) (g1 :: gs)) 0 xs)).
  f_equal. generalize (g1 :: gs). clear g1 gs. intros gs.
  assert (Q : forall gs' i x lo, forallb (fun jp => close (snd jp (keys (i + 1 + fst jp)) x) (g0 x)) (combine (seq lo (length gs')) (map (fun g (_ : K) x => g x) gs')) = forallb (fun g => close (g x) (g0 x)) gs').
  { induction gs' as [|g gs' IH]; intros i x lo; [reflexivity|]. cbn [length seq map combine forallb snd fst]. now rewrite IH. }
  generalize 0%nat. induction xs as [|x xs IH]; intros i; [reflexivity|]. cbn [check_samples forallb]. rewrite IH. unfold check_sample. rewrite map_length, Q. destruct (forallb (fun g => close (g x) (g0 x)) gs); reflexivity.
Qed.
End CP.

(** * Meta-policies *)

Section Meta.
Variables Env Obs Act Info : Type.
Variable env_reset : Env -> Env * (Obs * Info).
Variable env_step : Env -> Act -> Env * (Obs * R * bool * bool * Info).

Definition arm_pick (pi : arm Obs Act) (s : Obs) : Act * R := match pi with ArmLogp f => f s | ArmPlain f => (f s, 0) end.

Lemma meta_step_ok : forall m s k pi, me_s m = Some s -> nth_error (me_arms m) k = Some pi ->
  let a := fst (arm_pick pi s) in let e := fst (env_step (me_env m) a) in let '(o, r, d, t, i) := snd (env_step (me_env m) a) in
  meta_step env_step true m (Z.of_nat k) = (mkME e (me_arms m) (Some o), Ok (o, r, d, t, mkMI i a (snd (arm_pick pi s)))).
Proof.
  intros m s k pi Hs Hk. assert (L : (k < length (me_arms m))%nat) by (apply nth_error_Some; congruence). cbv zeta. unfold meta_step.
  destruct (Z.leb_spec 0 (Z.of_nat k)); [|lia]. destruct (Z.ltb_spec (Z.of_nat k) (Z.of_nat (length (me_arms m)))); [|lia]. cbn [andb negb]. rewrite Hs, Nat2Z.id, Hk.
  unfold arm_pick. destruct pi as [f|f]; [destruct (f s) as [a logp]|]; cbn [fst snd].
  - destruct (env_step (me_env m) a) as [e [[[[o r] d] t] i]]. reflexivity.
  - destruct (env_step (me_env m) (f s)) as [e [[[[o r] d] t] i]]. reflexivity.
Qed.
Lemma meta_run_plays : forall ks m s, me_s m = Some s -> (forall k, In k ks -> (k < length (me_arms m))%nat) ->
  exists rows, snd (meta_run env_step m ks) = map Ok rows /\ plays env_step (me_arms m) (me_env m) s ks rows.
Proof.
  induction ks as [|k ks IH]; intros m s Hs H; [exists []; split; [reflexivity|constructor]|]. cbn [meta_run].
  destruct (nth_error (me_arms m) k) as [pi|] eqn:Ek; [|exfalso; apply nth_error_None in Ek; specialize (H k (or_introl eq_refl)); lia].
  pose proof (@meta_step_ok m s k pi Hs Ek) as Q. cbv zeta in Q. destruct (env_step (me_env m) (fst (arm_pick pi s))) as [e' [[[[o r] d] t] i]] eqn:E. cbn [fst snd] in Q. rewrite Q.
  destruct (IH (mkME e' (me_arms m) (Some o)) o eq_refl) as [rows [R1 R2]]; [intros; apply H; now right|].
  destruct (meta_run env_step (mkME e' (me_arms m) (Some o)) ks) as [m2 xs]. cbn [snd] in *. subst xs. exists ((o, r, d, t, mkMI i (fst (arm_pick pi s)) (snd (arm_pick pi s))) :: rows). split; [reflexivity|]. cbn [me_arms me_env] in R2.
  eapply plays_cons; [|exact E|exact R2]. unfold choose. rewrite Ek. unfold arm_pick. destruct pi as [f|f]; [now destruct (f s)|reflexivity].
Qed.
Lemma meta_step_bad : forall b m k, (k < 0 \/ Z.of_nat (length (me_arms m)) <= k)%Z \/ me_s m = None -> meta_step env_step b m k = (m, Err EAssertion).
Proof.
  intros b m k H. unfold meta_step. destruct (negb ((0 <=? k)%Z && (k <? Z.of_nat (length (me_arms m)))%Z)) eqn:E; [reflexivity|].
  apply negb_false_iff, andb_true_iff in E. destruct E as [E1 E2]. apply Z.leb_le in E1. apply Z.ltb_lt in E2. destruct H as [H|H]; [lia|]. now rewrite H.
Qed.
End Meta.

(** * DeepMind Control *)

Lemma make_dmc_first : forall Id P (eqb : Id -> Id -> bool) registry i (p q : P), (forall x, eqb x x = true) -> reg_get eqb i registry = None ->
  snd (make_dmc eqb registry i p) = p /\ snd (make_dmc eqb (fst (make_dmc eqb registry i p)) i q) = p.
Proof. intros Id P eqb registry i p q R H. unfold make_dmc. rewrite H. simpl. rewrite R. auto. Qed.

Lemma spread_ok : forall n b, (match b with BOne _ => True | BAll l => length l = n end) -> length (spread n b) = n /\ forall i, (i < n)%nat -> nth i (spread n b) None = Some (match b with BOne x => x | BAll l => nth i l 0 end).
Proof.
  intros n [x|l] H; simpl.
  - split; [apply repeat_length|]. intros i Hi. clear H. revert i Hi. induction n; intros [|i] Hi; simpl; auto; try lia. apply IHn. lia.
  - split; [now rewrite map_length|]. intros i Hi. rewrite (@nth_map_any _ _ _ l i None 0) by lia. reflexivity.
Qed.

Lemma inside_app : forall l1 h1 v1 l2 h2 v2, inside (l1, h1) v1 -> inside (l2, h2) v2 -> inside (l1 ++ l2, h1 ++ h2) (v1 ++ v2).
Proof.
  intros l1 h1 v1 l2 h2 v2 [A1 [A2 A3]] [B1 [B2 B3]]. simpl in *. unfold inside. simpl. rewrite !app_length. split; [lia|]. split; [lia|]. intros i Hi. destruct (Nat.lt_ge_cases i (length v1)) as [L|L].
  - rewrite !app_nth1 by lia. apply A3. lia.
  - rewrite !app_nth2 by lia. rewrite A1, A2. apply B3. lia.
Qed.

Lemma extract_inside : forall s a, sp_float s = true -> conforms s a -> exists lo hi, extract_min_max s = Ok (lo, hi) /\ inside (lo, hi) (ravel a).
Proof.
  intros s a F [L C]. rewrite ravel_values. unfold extract_min_max. rewrite F. cbn [negb]. destruct (sp_bounds s) as [[lo hi]|].
  - destruct C as [C1 [C2 C3]]. destruct (spread_ok (sp_dim s) lo C1) as [A1 A2]. destruct (spread_ok (sp_dim s) hi C2) as [B1 B2]. eexists. eexists. split; [reflexivity|].
    split; [simpl; lia|]. split; [simpl; lia|]. intros i Hi. simpl. rewrite L in Hi. rewrite A2, B2 by auto. simpl. apply C3. auto.
  - eexists. eexists. split; [reflexivity|]. split; [simpl; rewrite repeat_length; lia|]. split; [simpl; rewrite repeat_length; lia|]. intros i Hi. simpl. rewrite L in Hi.
    assert (E : nth i (repeat (@None R) (sp_dim s)) None = None) by (generalize (sp_dim s); clear; intros n; revert i; induction n; intros [|i]; simpl; auto). rewrite E. simpl. auto.
Qed.

Lemma spec_box_inside : forall specs obs, specs <> [] -> length obs = length specs -> (forall i s a, nth_error specs i = Some s -> nth_error obs i = Some a -> sp_float s = true /\ conforms s a) ->
  exists box v, spec_to_box specs = Ok box /\ flatten_obs obs = Ok v /\ v = concat (map arr_values obs) /\ inside box v.
Proof.
  intros specs obs NE L H.
  assert (Q : exists bs, collect_all (map extract_min_max specs) = Ok bs /\ inside (flat_map fst bs, flat_map snd bs) (flat_map ravel obs)).
  { clear NE. revert obs L H. induction specs as [|s specs IH]; intros [|a obs] L H; simpl in L; try discriminate.
    - exists []. split; [reflexivity|]. repeat split; simpl in *; lia.
    - destruct (H 0%nat s a eq_refl eq_refl) as [F C]. destruct (@extract_inside s a F C) as [lo [hi [E I]]]. destruct (IH obs) as [bs [E2 I2]]; [lia|intros i; apply (H (S i))|].
      exists ((lo, hi) :: bs). cbn [map collect_all]. rewrite E. cbn [bind]. rewrite E2. split; [reflexivity|]. simpl. now apply inside_app. }
  destruct Q as [bs [E I]]. exists (flat_map fst bs, flat_map snd bs), (flat_map ravel obs). destruct specs as [|s specs]; [congruence|]. destruct obs as [|a obs]; [discriminate|].
  unfold spec_to_box. rewrite E. cbn [bind]. destruct I as [I1 [I2 I3]]. simpl fst in I1. simpl snd in I2. cbv zeta. rewrite I1, I2, Nat.eqb_refl. split; [reflexivity|]. split; [reflexivity|]. split; [|split; auto].
  rewrite flat_map_concat_map. f_equal. apply map_ext. apply ravel_values.
Qed.
