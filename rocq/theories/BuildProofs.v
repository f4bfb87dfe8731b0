(** Constructors: what passes the checks. *)
From Coq Require Import List ZArith Lia Bool Reals Lra.
From Verif Require Import PyCommon CommonProofs DistModel PolicySpec CompModel CompSpec CompProofs CompProofs3 CompProofs5 CompProofs7 BuildModel BuildSpec.
Import ListNotations.
Set Implicit Arguments.
Local Open Scope R_scope.

Section Ind.
Variable P : otree -> Prop.
Hypothesis HA : forall f s x, P (OArr f s x).
Hypothesis HT : forall l, Forall P l -> P (OTuple l).
Hypothesis HL : forall l, Forall P l -> P (OLst l).
Hypothesis HD : forall l, Forall (fun kx => P (snd kx)) l -> P (ODict l).
Fixpoint otree_ind2 (o : otree) : P o :=
  match o with
  | OArr f s x => HA f s x
  | OTuple l => HT ((fix go (l : list otree) : Forall P l := match l with [] => Forall_nil _ | x :: r => Forall_cons x (otree_ind2 x) (go r) end) l)
  | OLst l => HL ((fix go (l : list otree) : Forall P l := match l with [] => Forall_nil _ | x :: r => Forall_cons x (otree_ind2 x) (go r) end) l)
  | ODict l => HD ((fix go (l : list (nat * otree)) : Forall (fun kx => P (snd kx)) l := match l with [] => Forall_nil _ | kx :: r => Forall_cons kx (otree_ind2 (snd kx)) (go r) end) l)
  end.
End Ind.

(** * Comparisons *)
Lemma shape_eqb_iff : forall a b, shape_eqb a b = true <-> a = b.
Proof.
  induction a as [|x a IH]; intros [|y b]; cbn; split; intros H; try discriminate; auto.
  - apply andb_prop in H. destruct H as [H1 H2]. apply Nat.eqb_eq in H1. apply IH in H2. now subst.
  - injection H as -> ->. rewrite Nat.eqb_refl. now apply IH.
Qed.
Lemma pname_eqb_iff : forall a b, pname_eqb a b = true <-> a = b.
Proof. intros [| | |i] [| | |j]; cbn; split; intros H; try discriminate; auto; [apply Nat.eqb_eq in H; now subst|injection H as ->; apply Nat.eqb_refl]. Qed.
Lemma sig_eqb_iff : forall a b, sig_eqb a b = true <-> a = b.
Proof.
  induction a as [|x a IH]; intros [|y b]; cbn; split; intros H; try discriminate; auto.
  - apply andb_prop in H. destruct H as [H1 H2]. apply pname_eqb_iff in H1. apply IH in H2. now subst.
  - injection H as -> ->. apply andb_true_intro. split; [now apply pname_eqb_iff|now apply IH].
Qed.
Lemma sig_eqb_no : forall a b, a <> b -> sig_eqb a b = false.
Proof. intros a b H. destruct (sig_eqb a b) eqn:E; auto. apply sig_eqb_iff in E. contradiction. Qed.
Lemma check_array_iff : forall sh o, (check_array sh o = Ok tt /\ exists x, o = OArr true sh x) \/ (check_array sh o = Err EType /\ forall x, o <> OArr true sh x).
Proof.
  intros sh [[|] s x| | |]; cbn; try (right; split; [reflexivity|discriminate]). destruct (shape_eqb s sh) eqn:E.
  - apply shape_eqb_iff in E. subst. left. split; eauto.
  - right. split; auto. intros y H. injection H as -> ->. assert (shape_eqb sh sh = true) by now apply shape_eqb_iff. congruence.
Qed.

(** The loops of [same_tree]. *)
Fixpoint same_list_b (l l' : list otree) : bool := match l, l' with [], [] => true | x :: r, y :: r' => same_tree x y && same_list_b r r' | _, _ => false end.
Fixpoint same_dict_b (l l' : list (nat * otree)) : bool := match l, l' with [], [] => true | (k, x) :: r, (j, y) :: r' => Nat.eqb k j && same_tree x y && same_dict_b r r' | _, _ => false end.
Lemma same_tuple_eq : forall l l', same_tree (OTuple l) (OTuple l') = same_list_b l l'. Proof. induction l as [|x l IH]; intros [|y l']; cbn; auto; now rewrite <- IH. Qed.
Lemma same_list_eq : forall l l', same_tree (OLst l) (OLst l') = same_list_b l l'. Proof. induction l as [|x l IH]; intros [|y l']; cbn; auto; now rewrite <- IH. Qed.
Lemma same_dict_eq : forall l l', same_tree (ODict l) (ODict l') = same_dict_b l l'. Proof. induction l as [|[k x] l IH]; intros [|[j y] l']; cbn; auto; now rewrite <- IH. Qed.
Lemma same_list_b_iff : forall l l', same_list_b l l' = true <-> Forall2 (fun x y => same_tree x y = true) l l'.
Proof.
  induction l as [|x l IH]; intros [|y l']; cbn; split; intros H; try discriminate; try (now inversion H); auto.
  - apply andb_prop in H. destruct H. constructor; auto. now apply IH.
  - inversion H; subst. apply andb_true_intro. split; auto. now apply IH.
Qed.
Lemma same_dict_b_iff : forall l l', same_dict_b l l' = true <-> map fst l' = map fst l /\ Forall2 (fun x y => same_tree x y = true) (map snd l) (map snd l').
Proof.
  induction l as [|[k x] l IH]; intros [|[j y] l']; cbn; split; intros H; try discriminate; try (now destruct H); auto.
  - apply andb_prop in H. destruct H as [H H2]. apply andb_prop in H. destruct H as [H0 H1]. apply Nat.eqb_eq in H0. subst. apply IH in H2. destruct H2 as [H2 H3]. rewrite H2. split; auto.
  - destruct H as [H1 H2]. injection H1 as -> H1. inversion H2; subst. rewrite Nat.eqb_refl. cbn. apply andb_true_intro. split; auto. apply IH. auto.
Qed.

Lemma same_form_tree : forall e o o', same_form o o' -> same_tree e o = true -> same_tree e o' = true.
Proof.
  induction e as [f s x|l IH|l IH|l IH] using otree_ind2; intros o o' HF H; inversion HF as [fl s' x' y'|m m' HM|m m' HM|ks m m' HM HK]; subst; try discriminate H; auto.
  - rewrite same_tuple_eq in *. apply same_list_b_iff in H. apply same_list_b_iff. clear HF. revert m m' HM H. induction IH as [|e l He IH IHl]; intros m m' HM H; inversion H; subst; inversion HM; subst; constructor; eauto.
  - rewrite same_list_eq in *. apply same_list_b_iff in H. apply same_list_b_iff. clear HF. revert m m' HM H. induction IH as [|e l He IH IHl]; intros m m' HM H; inversion H; subst; inversion HM; subst; constructor; eauto.
  - rewrite same_dict_eq in *. apply same_dict_b_iff in H. apply same_dict_b_iff. destruct H as [H1 H2]. pose proof (Forall2_len HM) as L. rewrite fst_combine in H1 by lia. rewrite map_snd_combine in H2 by lia. rewrite fst_combine by lia. rewrite map_snd_combine by lia. split; auto.
    clear HF H1 HK L. revert m m' HM H2. induction IH as [|e l He IH IHl]; intros m m' HM H; inversion H; subst; inversion HM; subst; constructor; eauto.
Qed.

(** * Expected trees and spaces *)
Definition asks (e : otree) (P : otree -> Prop) : Prop := forall o, same_tree e o = true <-> P o.
Lemma asks_arr : forall ax f n x, asks (widen ax (OArr f [1%nat; n] x)) (arr ax n).
Proof.
  intros ax f n x [fl s y| | |]; cbn; split; intros H; try discriminate; try (destruct H as (? & ? & ?); discriminate).
  - destruct s as [|b s]; [discriminate|]. apply andb_prop in H. destruct H as [H1 H2]. apply Nat.eqb_eq in H1. apply shape_eqb_iff in H2. subst. exists fl, y. reflexivity.
  - destruct H as (g & z & H). injection H as -> -> ->. cbn. now apply shape_eqb_iff.
Qed.
Lemma asks_seq : forall es (Ps : list (otree -> Prop)), Forall2 asks es Ps -> forall l, same_list_b es l = true <-> Forall2 (fun (P : otree -> Prop) o => P o) Ps l.
Proof.
  intros es Ps F l. rewrite same_list_b_iff. revert l. induction F as [|e P es Ps H F IH]; intros l; split; intros G; inversion G; subst; constructor; try apply H; auto; now apply IH.
Qed.
Lemma asks_tuple : forall es Ps, Forall2 asks es Ps -> asks (OTuple es) (fun o => exists l, o = OTuple l /\ Forall2 (fun (P : otree -> Prop) o => P o) Ps l).
Proof. intros es Ps F o. split. - intros H. destruct o as [| l| |]; try discriminate. rewrite same_tuple_eq in H. exists l. split; auto. now apply (asks_seq F). - intros (l & -> & H). rewrite same_tuple_eq. now apply (asks_seq F). Qed.
Lemma asks_list : forall es Ps, Forall2 asks es Ps -> asks (OLst es) (fun o => exists l, o = OLst l /\ Forall2 (fun (P : otree -> Prop) o => P o) Ps l).
Proof. intros es Ps F o. split. - intros H. destruct o as [| |l|]; try discriminate. rewrite same_list_eq in H. exists l. split; auto. now apply (asks_seq F). - intros (l & -> & H). rewrite same_list_eq. now apply (asks_seq F). Qed.
Lemma asks_dict : forall ks es Ps, Forall2 asks es Ps -> length ks = length es -> asks (ODict (combine ks es)) (fun o => exists l, o = ODict l /\ map fst l = ks /\ Forall2 (fun (P : otree -> Prop) o => P o) Ps (map snd l)).
Proof.
  intros ks es Ps F L o. split.
  - intros H. destruct o as [| | |l]; try discriminate. rewrite same_dict_eq in H. apply same_dict_b_iff in H. rewrite fst_combine, map_snd_combine in H by lia. exists l. destruct H as [H1 H2]. split; auto. split; auto. apply (asks_seq F). now apply same_list_b_iff.
  - intros (l & -> & H1 & H2). rewrite same_dict_eq. apply same_dict_b_iff. rewrite fst_combine, map_snd_combine by lia. split; auto. apply same_list_b_iff. now apply (asks_seq F).
Qed.
Lemma asks_ext : forall e (P Q : otree -> Prop), asks e P -> (forall o, P o <-> Q o) -> asks e Q.
Proof. intros e P Q H E o. rewrite <- E. apply H. Qed.

Lemma Forall2_map_l : forall {A B C} (f : A -> B) (P : B -> C -> Prop) l m, Forall2 P (map f l) m <-> Forall2 (fun x y => P (f x) y) l m.
Proof. intros A B C f P l. induction l as [|x l IH]; intros m; split; intros H; inversion H; subst; constructor; auto; now apply IH. Qed.
Lemma Forall2_map_r : forall {A B C} (f : A -> B) (P : C -> B -> Prop) l m, Forall2 P l (map f m) <-> Forall2 (fun x y => P x (f y)) l m.
Proof. intros A B C f P l. induction l as [|x l IH]; intros [|y m]; split; intros H; inversion H; subst; constructor; auto; now apply IH. Qed.
Lemma Forall2_repeat : forall {A B} (P : A -> B -> Prop) x n l, Forall2 P (repeat x n) l <-> length l = n /\ forall y, In y l -> P x y.
Proof.
  intros A B P x n. induction n as [|n IH]; intros l; cbn; split; intros H.
  - inversion H; subst. split; auto. intros y [].
  - destruct l; [constructor|]. destruct H; discriminate.
  - inversion H; subst. apply IH in H4. destruct H4 as [<- H4]. split; auto. intros z [<-|Hz]; auto.
  - destruct l as [|y l]; [destruct H; discriminate|]. destruct H as [H1 H2]. constructor; [apply H2; now left|]. apply IH. split; [now injection H1|]. intros; apply H2; now right.
Qed.
Lemma map_const : forall {A B} (c : B) (l : list A), map (fun _ => c) l = repeat c (length l).
Proof. induction l as [|x l IH]; cbn; auto. now rewrite IH. Qed.
Lemma map_snd_pair : forall {A B C} (f : B -> C) (l : list (A * B)), map (fun kx => (fst kx, f (snd kx))) l = combine (map fst l) (map f (map snd l)).
Proof. induction l as [|[a b] l IH]; cbn; auto. now rewrite IH. Qed.

Section Laid.
Variables (cat box : nat -> otree -> Prop) (seqn : list otree -> otree).
Lemma laid_tuple : forall ss o, laid cat box seqn (SpTuple ss) o <-> exists l, o = seqn l /\ Forall2 (laid cat box seqn) ss l.
Proof. intros ss o. cbn [laid]. split; intros (l & E & H); exists l; (split; [exact E|]); now apply (both_list (laid cat box seqn)). Qed.
Lemma laid_dict : forall ss o, laid cat box seqn (SpDict ss) o <-> exists l, o = ODict l /\ map fst l = map fst ss /\ Forall2 (laid cat box seqn) (map snd ss) (map snd l).
Proof. intros ss o. cbn [laid]. split; intros (l & E & H); exists l; (split; [exact E|]); now apply (both_dict (laid cat box seqn)). Qed.
End Laid.

(** Parameters. *)
Lemma asks_cat : forall ax n, asks (widen ax (priors (PCat n))) (fun o => exists z, o = ODict [(0%nat, z)] /\ arr ax n z).
Proof.
  intros ax n. change (widen ax (priors (PCat n))) with (ODict (combine [0%nat] [widen ax (OArr true [1%nat; n] (repeat 0 n))])). eapply asks_ext; [apply asks_dict with (Ps := [arr ax n]); [constructor; [apply asks_arr|constructor]|reflexivity]|].
  intros o. split.
  - intros (l & -> & H1 & H2). destruct l as [|[k x] [|]]; try discriminate. injection H1 as ->. inversion H2; subst. eauto.
  - intros (z & -> & H). eexists. split; [reflexivity|]. split; [reflexivity|]. constructor; auto.
Qed.
Lemma asks_norm : forall ax bs, asks (widen ax (priors (PNorm bs))) (fun o => exists mu lv, o = ODict [(1%nat, mu); (2%nat, lv)] /\ arr ax (length bs) mu /\ arr ax (length bs) lv).
Proof.
  intros ax bs. set (e := OArr true [1%nat; length bs] (repeat 0 (length bs))). change (widen ax (priors (PNorm bs))) with (ODict (combine [1%nat; 2%nat] [widen ax e; widen ax e])). eapply asks_ext; [apply asks_dict with (Ps := [arr ax (length bs); arr ax (length bs)]); [constructor; [apply asks_arr|constructor; [apply asks_arr|constructor]]|reflexivity]|].
  intros o. split.
  - intros (l & -> & H1 & H2). destruct l as [|[k x] [|[j y] [|]]]; try discriminate. injection H1 as -> ->. inversion H2 as [|? ? ? ? A1 A2]; subst. inversion A2; subst. cbn in *. eauto 6.
  - intros (mu & lv & -> & H1 & H2). eexists. split; [reflexivity|]. split; [reflexivity|]. repeat constructor; auto.
Qed.
Lemma priors_seq : forall ax kd l, kd <> KDict -> widen ax (priors (PNode kd l)) = OTuple (map (fun d => widen ax (priors d)) (map snd l)).
Proof. intros ax kd l H. destruct kd; try congruence; cbn; now rewrite !map_map. Qed.
Lemma priors_dict : forall ax l, widen ax (priors (PNode KDict l)) = ODict (combine (map fst l) (map (fun d => widen ax (priors d)) (map snd l))).
Proof. intros ax l. cbn. rewrite map_map. cbn. rewrite <- map_snd_pair with (f := fun d => widen ax (priors d)). reflexivity. Qed.
Lemma asks_params : forall ax sp d, mk sp = Ok d -> asks (widen ax (priors d)) (param_tree ax sp).
Proof.
  intros ax. induction sp as [n s|bs|nv|n|l IH|l IH|] using pspace_ind2; intros d E.
  - injection E as <-. apply asks_cat.
  - cbn [mk] in E. destruct (map_outcome _ bs) as [bs'|] eqn:E1; [|discriminate]. injection E as <-. assert (L : length bs' = length bs). { clear -E1. revert bs' E1. induction bs as [|b bs IH]; intros bs' E; cbn in E; [injection E as <-; reflexivity|]. destruct (n_bounds _ _ _ _) as [x|]; [|discriminate]. cbn in E. destruct (map_outcome _ bs) as [r|]; [|discriminate]. injection E as <-. cbn. now rewrite (IH r). }
    unfold param_tree. cbn [laid]. rewrite <- L. apply asks_norm.
  - injection E as <-. rewrite priors_seq by discriminate. rewrite enum_snd, map_map. eapply asks_ext; [apply asks_tuple with (Ps := map (fun n o => exists z, o = ODict [(0%nat, z)] /\ arr ax n z) nv); apply Forall2_map_l, Forall2_map_r; induction nv; constructor; auto; apply asks_cat|].
    intros o. unfold param_tree. cbn [laid]. split; intros (l & -> & H); exists l; (split; [reflexivity|]); first [exact (proj1 (Forall2_map_l _ _ _ _) H)|exact (proj2 (Forall2_map_l _ (fun (P : otree -> Prop) o => P o) _ _) H)].
  - injection E as <-. rewrite priors_seq by discriminate. rewrite enum_snd, map_map. rewrite map_const, seq_length. eapply asks_ext; [apply asks_tuple with (Ps := repeat (fun o => exists z, o = ODict [(0%nat, z)] /\ arr ax 2 z) n); induction n; cbn [repeat]; constructor; auto; apply asks_cat|].
    intros o. unfold param_tree. cbn [laid]. split; intros (l & -> & H); exists l; (split; [reflexivity|]); first [exact (proj1 (Forall2_repeat _ _ _ _) H)|exact (proj2 (Forall2_repeat (fun (P : otree -> Prop) o => P o) _ _ _) H)].
  - rewrite mk_tuple_eq in E. destruct (mk_list l) as [ds|] eqn:E1; [|discriminate]. injection E as <-. apply mk_list_ok in E1. rewrite priors_seq by discriminate. rewrite enum_snd. eapply asks_ext; [apply asks_tuple with (Ps := map (param_tree ax) l); apply Forall2_map_l, Forall2_map_r|].
    + clear -IH E1. induction E1; constructor; inversion IH; subst; auto.
    + intros o. unfold param_tree at 2. rewrite laid_tuple. split; intros (m & -> & H); exists m; (split; [reflexivity|]); first [exact (proj1 (Forall2_map_l _ _ _ _) H)|exact (proj2 (Forall2_map_l _ (fun (P : otree -> Prop) o => P o) _ _) H)].
  - rewrite mk_dict_eq in E. destruct (mk_dict l) as [ds|] eqn:E1; [|discriminate]. injection E as <-. apply mk_dict_ok in E1. destruct E1 as [EK E1]. rewrite priors_dict. pose proof (Forall2_len E1) as L. rewrite !map_length in L. eapply asks_ext; [apply asks_dict with (Ps := map (param_tree ax) (map snd l)); [apply Forall2_map_l, Forall2_map_r|now rewrite !map_length]|].
    + clear -IH E1. assert (IH' : Forall (fun sp => forall d, mk sp = Ok d -> asks (widen ax (priors d)) (param_tree ax sp)) (map snd l)) by (clear -IH; induction IH; cbn; constructor; auto). clear IH. induction E1; constructor; inversion IH'; subst; auto.
    + intros o. unfold param_tree at 2. rewrite laid_dict, EK. split; intros (m & -> & H1 & H); exists m; (split; [reflexivity|]); (split; [exact H1|]); first [exact (proj1 (Forall2_map_l _ _ _ _) H)|exact (proj2 (Forall2_map_l _ (fun (P : otree -> Prop) o => P o) _ _) H)].
  - discriminate.
Qed.
