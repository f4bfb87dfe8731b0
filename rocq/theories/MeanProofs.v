(** Integration lemmas for MeanSpec.v. *)
From Coq Require Import List Reals Lia Lra Permutation.
From Verif Require Import MeanSpec.
Import ListNotations.
Open Scope R_scope.
Set Implicit Arguments.

Lemma integral_unique : forall f a b m m', integral f a b m -> integral f a b m' -> m = m'.
Proof. intros f a b m m' [p <-] [q <-]. apply RiemannInt_P5. Qed.

Definition patch (a b : R) (f g : R -> R) (t : R) : R :=
  if Rlt_dec a t then if Rlt_dec t b then f t else g t else g t.
Lemma patch_in : forall a b f g t, a < t < b -> patch a b f g t = f t.
Proof. intros a b f g t [H1 H2]. unfold patch. destruct (Rlt_dec a t); [|contradiction]. destruct (Rlt_dec t b); [reflexivity|contradiction]. Qed.
Lemma patch_out : forall a b f g t, a <= t <= b -> ~ a < t < b -> patch a b f g t = g t.
Proof. intros a b f g t H1 H2. unfold patch. destruct (Rlt_dec a t); [|reflexivity]. destruct (Rlt_dec t b); [tauto|reflexivity]. Qed.

Lemma pos_ordered_ge : forall l i, RList.ordered_Rlist l -> (i < length l)%nat -> RList.pos_Rl l 0 <= RList.pos_Rl l i.
Proof. intros l i O H. apply RList.RList_P5; auto. apply RList.RList_P3. eauto. Qed.
Lemma pos_ordered_le : forall l i, RList.ordered_Rlist l -> (i < length l)%nat -> RList.pos_Rl l i <= RList.pos_Rl l (pred (length l)).
Proof. intros l i O H. apply RList.RList_P7; auto. apply RList.RList_P3. eauto. Qed.

(** A step function may be changed at the end points. *)
Lemma step_patch : forall a b (s : StepFun a b) g, a <= b -> {s' : StepFun a b | (forall t, s' t = patch a b s g t) /\ RiemannInt_SF s' = RiemannInt_SF s}.
Proof.
  intros a b [f [l [lf A]]] g Hab. assert (A' : adapted_couple (patch a b f g) a b l lf).
  { destruct A as (O & S0 & S1 & L & C). repeat split; auto. intros i Hi x Hx. rewrite patch_in; [now apply C|]. unfold open_interval in Hx.
    pose proof (@pos_ordered_ge l i O ltac:(lia)) as G1. pose proof (@pos_ordered_le l (S i) O ltac:(lia)) as G2. rewrite S0 in G1. rewrite S1 in G2. rewrite Rmin_left in G1 by auto. rewrite Rmax_right in G2 by auto. lra. }
  exists (mkStepFun (existT _ l (existT _ lf A') : IsStepFun (patch a b f g) a b)). split; reflexivity.
Qed.

Lemma integrable_ext : forall f g a b, a <= b -> (forall x, a < x < b -> f x = g x) -> Riemann_integrable f a b -> Riemann_integrable g a b.
Proof.
  intros f g a b Hab E I eps. destruct (I eps) as (phi & psi & B & S). destruct (@step_patch a b phi g Hab) as (phi' & P1 & _). destruct (@step_patch a b psi (fun _ => 0) Hab) as (psi' & P2 & P3).
  exists phi', psi'. split; [|now rewrite P3]. intros t Ht. rewrite P1, P2. rewrite Rmin_left, Rmax_right in * by auto. destruct (Rlt_dec a t) as [L|L]; [destruct (Rlt_dec t b) as [L'|L']|].
  - rewrite !patch_in, <- E by auto. now apply B.
  - rewrite !patch_out by (tauto || lra). rewrite Rminus_diag_eq, Rabs_R0 by reflexivity. lra.
  - rewrite !patch_out by (tauto || lra). rewrite Rminus_diag_eq, Rabs_R0 by reflexivity. lra.
Qed.

Lemma integral_ext : forall f g a b m, a <= b -> (forall x, a < x < b -> f x = g x) -> integral f a b m -> integral g a b m.
Proof. intros f g a b m Hab E [pr <-]. exists (@integrable_ext f g a b Hab E pr). symmetry. apply RiemannInt_P18; auto. Qed.

Lemma integral_const : forall c a b, integral (fun _ => c) a b (c * (b - a)).
Proof. intros c a b. exists (RiemannInt_P14 a b c). apply RiemannInt_P15. Qed.

Lemma integral_point : forall f a, integral f a a 0.
Proof. intros f a. exists (RiemannInt_P7 f a). apply RiemannInt_P9. Qed.

Lemma integral_chasles : forall f a b c m n, integral f a b m -> integral f b c n -> integral f a c (m + n).
Proof. intros f a b c m n [p <-] [q <-]. exists (RiemannInt_P24 p q). symmetry. apply RiemannInt_P26. Qed.

Lemma integral_lin : forall f g a b l m n, integral f a b m -> integral g a b n -> integral (fun x => f x + l * g x) a b (m + l * n).
Proof. intros f g a b l m n [p <-] [q <-]. exists (RiemannInt_P10 l p q). apply RiemannInt_P13. Qed.

Lemma integral_scal : forall f a b l m, a <= b -> integral f a b m -> integral (fun x => l * f x) a b (l * m).
Proof.
  intros f a b l m L H. pose proof (@integral_lin _ _ a b l _ _ (integral_const 0 a b) H) as E. rewrite Rmult_0_l, Rplus_0_l in E.
  apply (@integral_ext (fun x => 0 + l * f x)); auto. intros; ring.
Qed.

Lemma integral_le : forall f g a b m n, a <= b -> (forall x, a < x < b -> f x <= g x) -> integral f a b m -> integral g a b n -> m <= n.
Proof. intros f g a b m n Hab H [p <-] [q <-]. now apply RiemannInt_P19. Qed.

(** The fundamental theorem, for a derivative that is continuous everywhere. *)
Lemma integral_ftc : forall F f a b, (forall x, derivable_pt_lim F x (f x)) -> continuity f -> a <= b -> integral f a b (F b - F a).
Proof.
  intros F f a b D C Hab. pose (d := (fun x => exist _ (f x) (D x)) : derivable F). assert (E : forall x, derive F d x = f x) by (intros x; unfold derive; now apply derive_pt_eq_0).
  assert (C' : continuity (derive F d)). { intros x. refine (continuity_pt_locally_ext f _ 1 x Rlt_0_1 _ (C x)). intros y _. symmetry. apply E. }
  pose (c := @mkC1 F d C'). apply (@integral_ext (derive c (diff0 c))); [exact Hab|intros x _; apply E|]. exists (RiemannInt_P32 c a b). apply (FTC_Riemann c).
Qed.

(** Means over several uniform numbers. *)
Lemma mean_units_unique : forall n F F' m m', (forall us, length us = n -> (forall u, In u us -> 0 < u < 1) -> F us = F' us) -> mean_units n F m -> mean_units n F' m' -> m = m'.
Proof.
  induction n as [|n IH]; intros F F' m m' E H H'; cbn in *; [rewrite <- H, <- H'; apply E; auto; intros ? []|].
  destruct H as (G & HG & HM). destruct H' as (G' & HG' & HM'). apply (@integral_unique G' 0 1); auto. apply (@integral_ext G); auto; [lra|]. intros u Hu.
  apply (IH (fun us => F (u :: us)) (fun us => F' (u :: us))); auto. intros us L U. apply E; [cbn; lia|]. intros x [<-|I]; auto.
Qed.

Lemma mean_units_ext : forall n F F' m, (forall us, length us = n -> (forall u, In u us -> 0 < u < 1) -> F us = F' us) -> mean_units n F m -> mean_units n F' m.
Proof.
  induction n as [|n IH]; intros F F' m E H; cbn in *; [rewrite <- E; auto; intros ? []|].
  destruct H as (G & HG & HM). exists G. split; auto. intros u Hu. apply (IH (fun us => F (u :: us))); auto. intros us L U. apply E; [cbn; lia|]. intros x [<-|I]; auto.
Qed.

Lemma mean_units_scal : forall n F l m, mean_units n F m -> mean_units n (fun us => l * F us) (l * m).
Proof.
  induction n as [|n IH]; intros F l m H; cbn in *; [now rewrite H|]. destruct H as (G & HG & HM). exists (fun u => l * G u). split; [|apply integral_scal; auto; lra].
  intros u Hu. now apply (IH (fun us => F (u :: us))), HG.
Qed.

(** Finite sums. *)
Lemma sum_nil : forall A (f : A -> R), sum_over [] f = 0.
Proof. reflexivity. Qed.
Lemma sum_cons : forall A x l (f : A -> R), sum_over (x :: l) f = f x + sum_over l f.
Proof. reflexivity. Qed.
Global Arguments sum_over : simpl never.
Ltac sums := rewrite ?sum_nil, ?sum_cons, ?sum_nil.
Section Sums.
Variable A : Type.
Lemma sum_over_ext : forall (l : list A) f g, (forall x, In x l -> f x = g x) -> sum_over l f = sum_over l g.
Proof. induction l as [|x l IH]; intros f g H; sums; auto. rewrite (H x), (IH f g); auto; [|now left]. intros y Hy. apply H. now right. Qed.
Lemma sum_over_scal : forall (l : list A) c f, sum_over l (fun x => c * f x) = c * sum_over l f.
Proof. induction l as [|x l IH]; intros c f; sums; [ring|]. rewrite IH. ring. Qed.
Lemma sum_over_plus : forall (l : list A) f g, sum_over l (fun x => f x + g x) = sum_over l f + sum_over l g.
Proof. induction l as [|x l IH]; intros f g; sums; [ring|]. rewrite IH. ring. Qed.
Lemma sum_over_le : forall (l : list A) f g, (forall x, In x l -> f x <= g x) -> sum_over l f <= sum_over l g.
Proof. induction l as [|x l IH]; intros f g H; sums; [lra|]. apply Rplus_le_compat; [apply H; now left|]. apply IH. intros y Hy. apply H. now right. Qed.
Lemma sum_over_nonneg : forall (l : list A) f, (forall x, In x l -> 0 <= f x) -> 0 <= sum_over l f.
Proof. induction l as [|x l IH]; intros f H; sums; [lra|]. pose proof (H x (or_introl eq_refl)). assert (0 <= sum_over l f) by (apply IH; intros y Hy; apply H; now right). lra. Qed.
Lemma sum_over_const : forall (l : list A) c, sum_over l (fun _ => c) = INR (length l) * c.
Proof. induction l as [|x l IH]; intros c; [sums; cbn; ring|]. rewrite sum_cons. cbn [length]. rewrite IH, S_INR. ring. Qed.
Lemma sum_over_app : forall (l l' : list A) f, sum_over (l ++ l') f = sum_over l f + sum_over l' f.
Proof. induction l as [|x l IH]; intros l' f; cbn [app]; sums; [ring|]. rewrite IH. ring. Qed.
End Sums.
Lemma sum_over_map : forall A B (h : A -> B) l f, sum_over (map h l) f = sum_over l (fun x => f (h x)).
Proof. induction l as [|x l IH]; intros f; cbn [map]; sums; auto. now rewrite IH. Qed.
Lemma sum_over_perm : forall A (l l' : list A) f, Permutation l l' -> sum_over l f = sum_over l' f.
Proof. intros A l l' f H. induction H; sums; lra. Qed.

(** Expectations over finite distributions. *)
Section Expect.
Variables (A : Type) (keys : list A) (p : A -> R).
Lemma expect_ext : forall n g g', (forall l, length l = n -> (forall k, In k l -> In k keys) -> g l = g' l) -> expect keys p n g = expect keys p n g'.
Proof.
  induction n as [|n IH]; intros g g' H; cbn; [apply H; auto; intros ? []|]. apply sum_over_ext. intros k Hk. f_equal. apply IH. intros l L I. apply H; [cbn; lia|]. intros x [<-|Hx]; auto.
Qed.
Lemma expect_scal : forall n c g, expect keys p n (fun l => c * g l) = c * expect keys p n g.
Proof.
  induction n as [|n IH]; intros c g; cbn; auto. rewrite <- sum_over_scal. apply sum_over_ext. intros k Hk. rewrite (IH c (fun l => g (k :: l))). ring.
Qed.
Lemma expect_plus : forall n g g', expect keys p n (fun l => g l + g' l) = expect keys p n g + expect keys p n g'.
Proof.
  induction n as [|n IH]; intros g g'; cbn; auto. rewrite <- sum_over_plus. apply sum_over_ext. intros k Hk. rewrite (IH (fun l => g (k :: l)) (fun l => g' (k :: l))). ring.
Qed.
Lemma expect_le : forall n g g', (forall k, In k keys -> 0 <= p k) -> (forall l, length l = n -> (forall k, In k l -> In k keys) -> g l <= g' l) -> expect keys p n g <= expect keys p n g'.
Proof.
  induction n as [|n IH]; intros g g' P H; cbn; [apply H; auto; intros ? []|]. apply sum_over_le. intros k Hk. apply Rmult_le_compat_l; auto. apply IH; auto. intros l L I. apply H; [cbn; lia|]. intros x [<-|Hx]; auto.
Qed.
Hypothesis total : sum_over keys p = 1.
Lemma expect_const : forall n c, expect keys p n (fun _ => c) = c.
Proof.
  induction n as [|n IH]; intros c; cbn; auto. rewrite (sum_over_ext _ _ (fun k => c * p k)) by (intros; rewrite IH; ring). rewrite sum_over_scal, total. ring.
Qed.
(** Linearity: the expected sum over a batch is n times the expectation of one draw. *)
Lemma expect_sum : forall n f, expect keys p n (fun l => sum_over l f) = INR n * sum_over keys (fun k => p k * f k).
Proof.
  induction n as [|n IH]; intros f; [cbn [expect INR]; rewrite sum_nil; ring|]. cbn [expect]. rewrite (sum_over_ext _ _ (fun k => p k * f k + (INR n * sum_over keys (fun k => p k * f k)) * p k)).
  - rewrite sum_over_plus, sum_over_scal, total, S_INR. ring.
  - intros k Hk. change (fun l => sum_over (k :: l) f) with (fun l => f k + sum_over l f); rewrite (expect_plus n (fun _ => f k) (fun l => sum_over l f)), expect_const, IH. ring.
Qed.
End Expect.
