(** Composite distributions: enumeration of the elements, construction. *)
From Coq Require Import List ZArith Lia Bool Reals Lra.
From Verif Require Import PyCommon CommonProofs UtilsModel UtilsSpec UtilsProofs2 UtilsProofs3 TDSpec TDProofs DistModel DistSpec DistProofs DistProofs2 PolicySpec PolicyProofs PolicyProofs2 PolicyProofs3 PolicyProofs4 MeanSpec MeanProofs CompModel CompSpec CompProofs CompProofs2 CompProofs3.
Import ListNotations.
Set Implicit Arguments.
Local Open Scope R_scope.

(** * Choices *)
Lemma choices_in : forall {A} (ls : list (list A)) l, In l (choices ls) <-> Forall2 (fun L x => In x L) ls l.
Proof.
  intros A ls. induction ls as [|L ls IH]; intros l; cbn [choices].
  - split; [intros [<-|[]]; constructor|]. intros F. inversion F. now left.
  - rewrite in_flat_map. split.
    + intros (x & Hx & H). apply in_map_iff in H. destruct H as (y & <- & Hy). constructor; auto. now apply IH.
    + intros F. inversion F; subst. exists y. split; auto. apply in_map, IH. auto.
Qed.
Lemma choices_length : forall {A} (ls : list (list A)), length (choices ls) = nprod (map (@length A) ls).
Proof. intros A ls. induction ls as [|L ls IH]; cbn [choices map nprod fold_right]; [reflexivity|]. unfold nprod in IH. rewrite <- IH. generalize (choices ls). intros C. induction L as [|x L IHL]; cbn; [reflexivity|]. now rewrite app_length, map_length, IHL. Qed.
Lemma NoDup_app2 : forall {A} (l m : list A), NoDup l -> NoDup m -> (forall x, In x l -> ~ In x m) -> NoDup (l ++ m).
Proof. intros A l m N1 N2 H. induction N1 as [|x l Hx N1 IH]; cbn; auto. constructor; [|apply IH; intros y Hy; apply H; now right]. rewrite in_app_iff. intros [C|C]; [auto|]. apply (H x); auto. now left. Qed.
Lemma NoDup_map_inj : forall {A B} (f : A -> B) l, (forall x y, In x l -> In y l -> f x = f y -> x = y) -> NoDup l -> NoDup (map f l).
Proof. intros A B f l H N. induction N as [|x l Hx N IH]; cbn; constructor. - intros C. apply in_map_iff in C. destruct C as (y & E & Hy). apply H in E; [subst; auto|now right|now left]. - apply IH. intros; apply H; auto; now right. Qed.
Lemma choices_nodup : forall {A} (ls : list (list A)), Forall (@NoDup A) ls -> NoDup (choices ls).
Proof.
  intros A ls F. induction F as [|L ls H F IH]; cbn [choices]; [constructor; [intros []|constructor]|]. induction H as [|x L Hx N IHL]; cbn; [constructor|]. apply NoDup_app2; auto.
  - apply NoDup_map_inj; auto. intros y z _ _ E. now injection E.
  - intros l C D. apply in_map_iff in C. destruct C as (y & <- & _). apply in_flat_map in D. destruct D as (x' & Hx' & D). apply in_map_iff in D. destruct D as (y' & E & _). injection E as -> _. auto.
Qed.
Lemma tot_app : forall l m, total (l ++ m) = total l + total m.
Proof. unfold total. induction l as [|x l IH]; intros m; cbn; [lra|]. rewrite IH. lra. Qed.
Lemma tot_scal : forall {A} c (f : A -> R) l, total (map (fun x => c * f x) l) = c * total (map f l).
Proof. unfold total. intros A c f l. induction l as [|x l IH]; cbn; [lra|]. rewrite IH. lra. Qed.
Lemma tot_cons : forall x l, total (x :: l) = x + total l. Proof. reflexivity. Qed.
Lemma choices_total : forall {A} (f : A -> R) (g h : list A -> R) L ls, (forall x y, h (x :: y) = f x * g y) -> total (map h (choices (L :: ls))) = total (map f L) * total (map g (choices ls)).
Proof.
  intros A f g h L ls H. cbn [choices]. generalize (choices ls). intros C. induction L as [|x L IH]; cbn [flat_map map]; [unfold total; cbn; lra|]. rewrite map_app, tot_app, map_map, IH, tot_cons. rewrite (map_ext _ (fun y => f x * g y)) by (intros; apply H). rewrite tot_scal. lra.
Qed.

(** * Elements *)
Lemma Forall2_map_l : forall {A B C} (P : B -> C -> Prop) (f : A -> B) l m, Forall2 P (map f l) m <-> Forall2 (fun a c => P (f a) c) l m.
Proof. intros A B C P f l. induction l as [|x l IH]; intros m; cbn; split; intros F; inversion F; subst; constructor; auto; now apply IH. Qed.
Lemma Forall2_iff : forall {A B} (P Q : A -> B -> Prop) l m, Forall (fun a => forall b, P a b <-> Q a b) l -> (Forall2 P l m <-> Forall2 Q l m).
Proof. intros A B P Q l m F. revert m. induction F as [|x l H F IH]; intros m; split; intros G; inversion G; subst; constructor; try (now apply H); now apply IH. Qed.
Lemma Forall_all : forall {A} (P : A -> Prop) l, (forall x, P x) -> Forall P l. Proof. intros A P l H. induction l; constructor; auto. Qed.

Lemma elements_in : forall sp, countable sp -> forall x, In x (elements sp) <-> inside sp x.
Proof.
  induction sp as [n s|bs|nv|n|l IH|l IH|] using pspace_ind2; intros HC x.
  - cbn [elements]. rewrite in_map_iff. split.
    + intros (k & <- & Hk). apply in_seq in Hk. cbn. lia.
    + destruct x as [z| | | |]; cbn [inside]; try contradiction. intros Hz. exists (Z.to_nat (z - s)). split; [f_equal; lia|]. apply in_seq. lia.
  - destruct HC.
  - cbn [elements]. rewrite in_map_iff.
    assert (G : forall zs, In zs (choices (map (fun n => map Z.of_nat (seq 0 n)) nv)) <-> Forall2 (fun n z => (0 <= z < Z.of_nat n)%Z) nv zs).
    { intros zs. rewrite choices_in, Forall2_map_l. apply Forall2_iff, Forall_all. intros n z. rewrite in_map_iff. split; [intros (k & <- & Hk); apply in_seq in Hk; lia|]. intros Hz. exists (Z.to_nat z). split; [lia|]. apply in_seq. lia. }
    split; [intros (zs & <- & H); now apply G|]. destruct x as [| |zs| |]; cbn [inside]; try contradiction. intros H. exists zs. split; auto. now apply G.
  - cbn [elements]. rewrite in_map_iff.
    assert (G : forall zs, In zs (choices (repeat [0; 1]%Z n)) <-> length zs = n /\ forall z, In z zs -> z = 0%Z \/ z = 1%Z).
    { intros zs. rewrite choices_in. split.
      - intros F. pose proof (Forall2_len F) as L. rewrite repeat_length in L. split; auto. subst n. clear HC. induction zs as [|y zs IH]; [intros z []|]. cbn in F. apply F2cons in F. destruct F as [F1 F]. intros z [<-|Hz]; [destruct F1 as [?|[?|[]]]; auto|]. now apply IH.
      - intros [<- H]. clear HC. induction zs as [|y zs IH]; cbn; constructor; [destruct (H y (or_introl eq_refl)) as [->| ->]; cbn; auto|]. apply IH. intros z Hz. apply H. now right. }
    split; [intros (zs & <- & H); now apply G|]. destruct x as [| |zs| |]; cbn [inside]; try contradiction. intros H. exists zs. split; auto. now apply G.
  - apply countable_tuple in HC. cbn [elements]. rewrite in_map_iff.
    assert (G : forall cs, In cs (choices (map elements l)) <-> Forall2 inside l cs).
    { intros cs. rewrite choices_in, Forall2_map_l. apply Forall2_iff. clear -IH HC. induction IH; inversion HC; subst; constructor; auto. }
    split; [intros (cs & <- & H); apply inside_tuple; now apply G|]. destruct x as [| | |cs|]; try (intros []; fail). intros H. apply inside_tuple in H. exists cs. split; auto. now apply G.
  - apply countable_dict in HC. cbn [elements]. rewrite in_map_iff.
    assert (G : forall cs, In cs (choices (map (fun ks => elements (snd ks)) l)) <-> Forall2 inside (map snd l) cs).
    { intros cs. rewrite choices_in, !Forall2_map_l. apply Forall2_iff. clear -IH HC. induction IH as [|x l H F IHF]; cbn in HC; [constructor|]. apply Forall_cons_iff in HC. destruct HC. constructor; auto. }
    assert (LK : forall cs, Forall2 inside (map snd l) cs -> length (map fst l) = length cs) by (intros cs F; apply Forall2_len in F; rewrite map_length in *; auto).
    split.
    + intros (cs & <- & H). apply G in H. apply inside_dict. rewrite map_snd_combine by auto. split; auto. apply LK in H. clear - H. rewrite map_length in H. revert cs H. induction l as [|y l IHl]; intros [|z cs] L; cbn in *; try lia; auto. f_equal. apply IHl. lia.
    + destruct x as [| | | |cs]; try (intros []; fail). intros H. apply inside_dict in H. destruct H as [H1 H2]. exists (map snd cs). rewrite <- H1, combine_fst_snd. split; auto. now apply G.
  - destruct HC.
Qed.
Lemma elements_nodup : forall sp, NoDup (elements sp).
Proof.
  induction sp as [n s|bs|nv|n|l IH|l IH|] using pspace_ind2; cbn [elements]; try constructor.
  - apply NoDup_map_inj; [|apply seq_NoDup]. intros x y _ _ E. injection E. lia.
  - apply NoDup_map_inj; [intros x y _ _ E; now injection E|]. apply choices_nodup. clear. induction nv; cbn; constructor; auto. apply NoDup_map_inj; [|apply seq_NoDup]. intros x y _ _ E. lia.
  - apply NoDup_map_inj; [intros x y _ _ E; now injection E|]. apply choices_nodup. clear. induction n; cbn; constructor; auto. constructor; [intros [C|[]]; discriminate|]. constructor; [intros []|constructor].
  - apply NoDup_map_inj; [intros x y _ _ E; now injection E|]. apply choices_nodup. clear -IH. induction IH; cbn; constructor; auto.
  - apply NoDup_map_inj; [|apply choices_nodup; clear -IH; induction IH; cbn; constructor; auto]. intros x y Hx Hy E. injection E as E. apply choices_in, Forall2_len in Hx. apply choices_in, Forall2_len in Hy. rewrite map_length in *. assert (LX : length (map fst l) = length x) by (now rewrite map_length). assert (LY : length (map fst l) = length y) by (now rewrite map_length). rewrite <- (map_snd_combine (map fst l) x LX), <- (map_snd_combine (map fst l) y LY). now rewrite E.
Qed.
Lemma elements_length : forall sp, length (elements sp) = cardinality sp.
Proof.
  induction sp as [n s|bs|nv|n|l IH|l IH|] using pspace_ind2; cbn [elements cardinality]; auto; rewrite ?map_length, ?seq_length, ?choices_length; auto.
  - f_equal. rewrite map_map. rewrite <- (map_id nv) at 2. apply map_ext. intros. now rewrite map_length, seq_length.
  - induction n as [|n IH]; [reflexivity|]. cbn [repeat map nprod fold_right Nat.pow]. unfold nprod in IH. rewrite IH. reflexivity.
  - f_equal. rewrite map_map. clear -IH. induction IH; cbn; [reflexivity|]. now rewrite H, IHIH.
  - f_equal. rewrite map_map. clear -IH. induction IH; cbn; [reflexivity|]. now rewrite H, IHIH.
Qed.
Lemma boltzmann_total : forall n z, length z = n -> (1 <= n)%nat -> total (map (boltzmann n z) (seq 0 n)) = 1.
Proof.
  intros n z L Hn. assert (NE : z <> []) by (intros ->; cbn in L; lia). destruct (softmax_dist NE) as [_ S]. rewrite <- S. rewrite (@list_seq (softmax z) n) by (rewrite softmax_length; auto). f_equal. apply map_ext_in. intros a Ha. apply in_seq in Ha. apply boltzmann_softmax; auto. lia.
Qed.
Lemma discrete_total : forall n p, (1 <= n)%nat -> (exists z, logits_of n p z) -> total (map (fun k => prob_int n p (Z.of_nat k)) (seq 0 n)) = 1.
Proof. intros n p Hn (z & -> & L). cbn [prob_int]. rewrite <- (@boltzmann_total n z L Hn). f_equal. apply map_ext. intros k. now rewrite Nat2Z.id. Qed.

Definition sums (sp : pspace) : Prop := forall p, fits sp p -> total (map (prob sp p) (elements sp)) = 1.
Lemma sums_list : forall ss ps, Forall sums ss -> Forall2 fits ss ps -> total (map (probs ss ps) (choices (map elements ss))) = 1.
Proof.
  intros ss ps F. revert ps. induction F as [|s ss H F IH]; intros ps G; inversion G; subst; [unfold total; cbn; lra|]. cbn [map]. rewrite (@choices_total _ (prob s y) (probs ss l')) by reflexivity. rewrite H, IH by auto. lra.
Qed.
Lemma elements_total : forall sp, supported sp -> countable sp -> sums sp.
Proof.
  induction sp as [n s|bs|nv|n|l IH|l IH|] using pspace_ind2; intros HS HC p HF; try contradiction.
  - cbn in HC. subst s. cbn [elements]. rewrite map_map. cbn [prob Z.add]. now apply discrete_total.
  - destruct HS as [_ HS]. destruct HF as (ps & -> & F). cbn [elements]. rewrite map_map. cbn [prob]. clear HC. revert ps F. induction nv as [|n nv IH]; intros ps F; inversion F as [|? q ? ps' Hq F']; subst; [unfold total; cbn; lra|].
    cbn [map]. rewrite (@choices_total _ (prob_int n q) (fun zs => product (map (fun t => prob_int (fst (fst t)) (snd (fst t)) (snd t)) (combine (combine nv ps') zs)))) by reflexivity. rewrite map_map, discrete_total; auto; [|apply HS; now left]. rewrite IH; auto; [lra|]. intros m Hm. apply HS. now right.
  - destruct HF as (ps & -> & L & F). cbn [elements]. rewrite map_map. cbn [prob]. subst n. clear HS HC. induction ps as [|q ps IH]; [unfold total; cbn; lra|]. cbn [length repeat].
    rewrite (@choices_total _ (prob_int 2 q) (fun zs => product (map (fun t => prob_int 2 (fst t) (snd t)) (combine ps zs)))) by reflexivity. rewrite IH by (intros X HX; apply F; now right). change [0; 1]%Z with (map Z.of_nat (seq 0 2)). rewrite map_map, discrete_total; [lra|lia|apply F; now left].
  - apply supported_tuple in HS. apply countable_tuple in HC. apply fits_tuple in HF. destruct HF as (ps & -> & F). cbn [elements]. rewrite map_map. rewrite (map_ext _ (probs l ps)) by (intros; apply prob_tuple). apply sums_list; auto. clear -IH HS HC. induction IH; inversion HS; inversion HC; subst; constructor; auto.
  - apply supported_dict in HS. destruct HS as [ND HS]. apply countable_dict in HC. apply fits_dict in HF. destruct HF as (ps & -> & K & F). cbn [elements]. rewrite map_map.
    rewrite (map_ext_in _ (probs (map snd l) (map snd ps))).
    + rewrite <- map_map with (f := snd) (g := elements). apply sums_list; auto. clear -IH HS HC. induction IH as [|x l H F IHF]; [constructor|]. cbn in *. apply Forall_cons_iff in HS. apply Forall_cons_iff in HC. destruct HS, HC. constructor; auto.
    + intros cs Hc. rewrite prob_dict, map_snd_combine; auto. apply choices_in, Forall2_len in Hc. rewrite map_length in *. auto.
Qed.

(** * Construction *)
Lemma n_bounds_ok : forall lo hi, (exists b, n_bounds lo hi (-256) 256 = Ok b) <-> proper (lo, hi).
Proof.
  intros lo hi. unfold n_bounds, proper. cbn [fst snd].
  assert (G : (match lo with Some l => Rmax l (-256) | None => -256 end < match hi with Some h => Rmin h 256 | None => 256 end) <-> (match lo with Some l => l < 256 | None => True end /\ match hi with Some h => -256 < h | None => True end /\ match lo, hi with Some l, Some h => l < h | _, _ => True end)).
  { destruct lo as [l|], hi as [h|]; unfold Rmax, Rmin; repeat destruct (Rle_dec _ _); split; intros H; repeat split; try lra; destruct H as (? & ? & ?); lra. }
  rewrite <- G. destruct (Rlt_dec _ _) as [H|H]; split; intros E; auto; [eexists; reflexivity|destruct E; discriminate|contradiction].
Qed.
Lemma n_bounds_err : forall lo hi e, n_bounds lo hi (-256) 256 = Err e -> e = EAssertion.
Proof. intros lo hi e. unfold n_bounds. destruct (Rlt_dec _ _); [discriminate|]. congruence. Qed.
Lemma map_outcome_ok : forall {A B} (f : A -> outcome B) l ys, map_outcome f l = Ok ys <-> Forall2 (fun x y => f x = Ok y) l ys.
Proof.
  intros A B f l. induction l as [|x l IH]; intros ys; cbn; split; intros H.
  - injection H as <-. constructor.
  - inversion H. reflexivity.
  - destruct (f x) eqn:E; [|discriminate]. cbn in H. destruct (map_outcome f l) eqn:E2; [|discriminate]. injection H as <-. constructor; auto. now apply IH.
  - inversion H; subst. rewrite H2. cbn. assert (E : map_outcome f l = Ok l') by now apply IH. now rewrite E.
Qed.
Lemma map_outcome_err : forall {A B} (f : A -> outcome B) l e, map_outcome f l = Err e -> exists x, In x l /\ f x = Err e.
Proof.
  intros A B f l e. induction l as [|x l IH]; cbn; [discriminate|]. destruct (f x) eqn:E; cbn; [|intros H; injection H as <-; eauto]. destruct (map_outcome f l); cbn; [discriminate|]. intros H. destruct IH as (y & ? & ?); auto. eauto.
Qed.
Lemma mk_box : forall bs, (exists d, mk (SpBox bs) = Ok d) <-> forall b, In b bs -> proper b.
Proof.
  intros bs. cbn [mk]. split.
  - intros (d & E) [lo hi] Hb. destruct (map_outcome _ bs) as [ys|] eqn:E1; [|discriminate]. apply map_outcome_ok in E1. apply n_bounds_ok. clear E. induction E1 as [|x y l ys H F IH]; [destruct Hb|]. destruct Hb as [->|Hb]; auto. cbn [fst snd] in H. eauto.
  - intros H. assert (exists ys, Forall2 (fun b y => n_bounds (fst b) (snd b) (-256) 256 = Ok y) bs ys) as (ys & F).
    { induction bs as [|[lo hi] bs IH]; [exists []; constructor|]. destruct IH as (ys & F); [intros b Hb; apply H; now right|]. destruct (proj2 (n_bounds_ok lo hi) (H _ (or_introl eq_refl))) as (y & E). exists (y :: ys). constructor; auto. }
    exists (PNorm ys). apply map_outcome_ok in F. now rewrite F.
Qed.
Lemma mk_box_err : forall bs e, mk (SpBox bs) = Err e -> e = EAssertion.
Proof. intros bs e. cbn [mk]. destruct (map_outcome _ bs) as [ys|] eqn:E1; [discriminate|]. cbn. intros H. injection H as <-. apply map_outcome_err in E1. destruct E1 as (x & _ & E). now apply n_bounds_err in E. Qed.

(** Every failure comes from a leaf. *)
Lemma mk_err : forall sp e, mk sp = Err e -> exists s, contains sp s /\ ((s = SpOther /\ e = EType) \/ (exists bs b, s = SpBox bs /\ In b bs /\ ~ proper b /\ e = EAssertion)).
Proof.
  induction sp as [n s|bs|nv|n|l IH|l IH|] using pspace_ind2; intros e E; try discriminate.
  - exists (SpBox bs). split; [constructor|]. right. pose proof (@mk_box_err bs e E) as ->. cbn [mk] in E. destruct (map_outcome _ bs) as [ys|] eqn:E1; [discriminate|]. apply map_outcome_err in E1. destruct E1 as ([lo hi] & Hb & E1). exists bs, (lo, hi). repeat split; auto. intros C. apply n_bounds_ok in C. destruct C as (b & C). cbn [fst snd] in E1. congruence.
  - rewrite mk_tuple_eq in E. destruct (mk_list l) as [ds|e'] eqn:E1; [discriminate|]. injection E as ->. assert (exists t, In t l /\ mk t = Err e) as (t & Ht & Et).
    { clear IH. induction l as [|s l IHl]; [discriminate|]. cbn [mk_list] in E1. destruct (mk s) eqn:Es; cbn in E1; [|injection E1 as ->; exists s; split; [now left|auto]]. destruct (mk_list l); [discriminate|]. injection E1 as ->. destruct IHl as (t & ? & ?); auto. exists t. split; [now right|auto]. }
    rewrite Forall_forall in IH. destruct (IH t Ht e Et) as (s & Hs & H). exists s. split; auto. now apply in_tuple with t.
  - rewrite mk_dict_eq in E. destruct (mk_dict l) as [ds|e'] eqn:E1; [discriminate|]. injection E as ->. assert (exists k t, In (k, t) l /\ mk t = Err e) as (k & t & Ht & Et).
    { clear IH. induction l as [|[k s] l IHl]; [discriminate|]. cbn [mk_dict] in E1. destruct (mk s) eqn:Es; cbn in E1; [|injection E1 as ->; exists k, s; split; [now left|auto]]. destruct (mk_dict l); [discriminate|]. injection E1 as ->. destruct IHl as (k' & t & ? & ?); auto. exists k', t. split; [now right|auto]. }
    rewrite Forall_forall in IH. destruct (IH (k, t) Ht e Et) as (s & Hs & H). exists s. split; auto. now apply in_dict with k t.
  - injection E as <-. exists SpOther. split; [constructor|auto].
Qed.
Lemma mk_part : forall sp s, contains sp s -> forall d, mk sp = Ok d -> exists d', mk s = Ok d'.
Proof.
  induction 1 as [s|s t l Ht Hc IH|s k t l Ht Hc IH]; intros d E; [eauto| |].
  - rewrite mk_tuple_eq in E. destruct (mk_list l) as [ds|] eqn:E1; [|discriminate]. apply mk_list_ok in E1. clear E. assert (exists d', mk t = Ok d') as (d' & E); [|eauto]. induction E1; [destruct Ht|]. destruct Ht as [<-|Ht]; eauto.
  - rewrite mk_dict_eq in E. destruct (mk_dict l) as [ds|] eqn:E1; [|discriminate]. apply mk_dict_ok in E1. destruct E1 as [_ E1]. clear E. apply (in_map snd) in Ht. cbn in Ht. assert (exists d', mk t = Ok d') as (d' & E); [|eauto]. induction E1; [destruct Ht|]. destruct Ht as [<-|Ht]; eauto.
Qed.
