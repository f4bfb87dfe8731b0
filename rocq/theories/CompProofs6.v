(** Composite distributions: the default priors, and the statements about spaces of integers. *)
From Coq Require Import List ZArith Lia Bool Reals Lra.
From Verif Require Import PyCommon CommonProofs UtilsModel UtilsSpec UtilsProofs2 UtilsProofs3 TDSpec TDProofs DistModel DistSpec DistProofs DistProofs2 PolicySpec PolicyProofs3 MeanSpec MeanProofs CompModel CompSpec CompProofs CompProofs2 CompProofs3 CompProofs4 CompProofs5.
Import ListNotations.
Set Implicit Arguments.
Local Open Scope R_scope.

Lemma boltzmann_zero : forall n a, (1 <= n)%nat -> boltzmann n (repeat 0 n) a = / INR n.
Proof.
  intros n a Hn. unfold boltzmann. assert (Z : forall k, nth k (repeat 0 n) 0 = 0) by (intros k; apply nth_repeat). rewrite Z, exp_0. assert (E : total (map (fun c => exp (nth c (repeat 0 n) 0)) (seq 0 n)) = INR n).
  { rewrite (map_ext _ (fun _ => 1)) by (intros; rewrite Z; apply exp_0). clear. generalize 0%nat. unfold total. induction n as [|n IH]; intros s; [reflexivity|]. cbn [seq map fold_right]. rewrite IH, S_INR. lra. }
  rewrite E. unfold Rdiv. lra.
Qed.
Definition flat (s : pspace) (d : pdist) : Prop := forall x, inside s x -> prob s (c_priors d) x = / INR (cardinality s).
Lemma flat_list : forall ss ds, Forall2 flat ss ds -> forall xs, Forall2 inside ss xs -> probs ss (map c_priors ds) xs = / INR (nprod (map cardinality ss)).
Proof.
  intros ss ds F. induction F as [|s d ss ds H F IH]; intros xs G; inversion G; subst; [cbn; lra|]. cbn [map probs nprod fold_right]. rewrite H, IH by auto. unfold nprod. now rewrite mult_INR, Rinv_mult.
Qed.
Lemma flat_cat : forall n, (1 <= n)%nat -> flat (SpDiscrete n 0) (PCat n).
Proof. intros n Hn x HI. destruct x as [z| | | |]; try contradiction. cbn [prob c_priors prob_int cardinality]. now apply boltzmann_zero. Qed.
Lemma flat_multi : forall nvec, (forall n, In n nvec -> (1 <= n)%nat) -> flat (SpMultiDiscrete nvec) (PNode KMulti (enum (map PCat nvec))).
Proof.
  intros nvec Hn x HI. destruct x as [| |zs| |]; try contradiction. cbn [inside] in HI. cbn [prob c_priors build cardinality]. rewrite map_map. cbn [snd]. rewrite <- map_map with (f := snd) (g := c_priors). rewrite enum_snd, map_map.
  revert zs HI. induction nvec as [|n nvec IH]; intros zs HI; inversion HI; subst; [cbn; lra|]. cbn [map combine product fold_right fst snd nprod c_priors prob_int]. rewrite boltzmann_zero by (apply Hn; now left). rewrite mult_INR, Rinv_mult. f_equal. apply IH; auto. intros; apply Hn; now right.
Qed.
Lemma flat_all : forall sp, supported sp -> countable sp -> forall d, mk sp = Ok d -> flat sp d.
Proof.
  induction sp as [n s|bs|nv|n|l IH|l IH|] using pspace_ind2; intros HS HC d E; try contradiction.
  - injection E as <-. cbn in HC. subst s. now apply flat_cat.
  - injection E as <-. destruct HS. now apply flat_multi.
  - injection E as <-. assert (E : map (fun _ => PCat 2) (seq 0 n) = map PCat (repeat 2%nat n)). { assert (G : forall s, map (fun _ => PCat 2) (seq s n) = map PCat (repeat 2%nat n)); [|apply G]. clear. induction n; intros s; cbn; [reflexivity|]. now rewrite IHn. }
    rewrite E. intros x HI. destruct x as [| |zs| |]; try contradiction. destruct HI as [L HI]. assert (H2 : forall m, In m (repeat 2%nat n) -> (1 <= m)%nat) by (intros m Hm; apply repeat_spec in Hm; lia).
    pose proof (@flat_multi (repeat 2%nat n) H2 (CInts zs)) as F. cbn [inside prob c_priors build cardinality] in *. assert (I2 : Forall2 (fun n z => (0 <= z < Z.of_nat n)%Z) (repeat 2%nat n) zs) by (apply repeat_F2; split; auto; intros z Hz; destruct (HI z Hz); subst; lia).
    specialize (F I2). assert (EC : nprod (repeat 2%nat n) = (2 ^ n)%nat) by (clear; induction n as [|n IH]; [reflexivity|]; cbn [repeat nprod fold_right Nat.pow]; unfold nprod in IH; rewrite IH; reflexivity). rewrite EC in F. rewrite <- F. f_equal. rewrite map_map. cbn [snd]. rewrite <- map_map with (f := snd) (g := c_priors). rewrite enum_snd, map_map. cbn [c_priors]. clear. revert zs. induction n as [|n IH]; intros [|z zs]; cbn; try reflexivity. now rewrite IH.
  - apply supported_tuple in HS. apply countable_tuple in HC. rewrite mk_tuple_eq in E. destruct (mk_list l) as [ds|] eqn:E1; [|discriminate]. injection E as <-. apply mk_list_ok in E1. assert (F : Forall2 flat l ds). { clear -IH HS HC E1. induction E1; constructor; inversion IH; inversion HS; inversion HC; subst; auto. }
    intros x HI. destruct x as [| | |cs|]; try contradiction. apply inside_tuple in HI. cbn [c_priors build]. rewrite prob_tuple, map_map. cbn [snd]. rewrite <- map_map with (f := snd) (g := c_priors). rewrite enum_snd. cbn [cardinality]. now apply flat_list.
  - apply supported_dict in HS. destruct HS as [ND HS]. apply countable_dict in HC. rewrite mk_dict_eq in E. destruct (mk_dict l) as [ds|] eqn:E1; [|discriminate]. injection E as <-. apply mk_dict_ok in E1. destruct E1 as [EK E1]. assert (F : Forall2 flat (map snd l) (map snd ds)).
    { assert (IH' : Forall (fun sp => supported sp -> countable sp -> forall d, mk sp = Ok d -> flat sp d) (map snd l)) by (clear -IH; induction IH; cbn; constructor; auto). clear IH EK ND. generalize dependent (map snd ds). generalize dependent (map snd l). intros ll H1 H2 H3 dd F. induction F; constructor; inversion H1; inversion H2; inversion H3; subst; auto. }
    intros x HI. destruct x as [| | | |cs]; try contradiction. apply inside_dict in HI. destruct HI as [_ HI]. cbn [c_priors build]. rewrite prob_dict, map_map. cbn [snd]. rewrite <- map_map with (f := snd) (g := c_priors). cbn [cardinality]. rewrite <- map_map with (f := snd) (g := cardinality). now apply flat_list.
Qed.

Section Integers.
Variables (sp : pspace) (d : pdist) (p : pv).
Hypothesis HS : supported sp.
Hypothesis HC : countable sp.
Hypothesis HM : mk sp = Ok d.
Hypothesis HF : fits sp p.
Lemma to_rel : forall x, inside sp x -> rel d p x (prob sp p x) (size sp).
Proof. intros x HI. destruct (made_all sp HS HC) as (d' & E & M). assert (d' = d) by congruence. subst d'. destruct (M p) as [M1 M2]. destruct (M1 HF x HI) as (r & m & HR). destruct (M2 _ _ _ HR) as (_ & <- & <-). exact HR. Qed.
Lemma of_rel : forall x r m, rel d p x r m -> inside sp x /\ r = prob sp p x /\ m = size sp.
Proof. intros x r m HR. destruct (made_all sp HS HC) as (d' & E & M). assert (d' = d) by congruence. subst d'. destruct (M p) as [M1 M2]. auto. Qed.

Lemma draw_prob : forall x gs, inside sp x -> length gs = size sp -> quiet gs -> exists I, mean_units (size sp) I (prob sp p x) /\
  forall us, length us = size sp -> units us -> exists c, c_draw d p us gs = Ok c /\ inside sp c /\ ((c = x /\ I us = 1) \/ (c <> x /\ I us = 0)).
Proof.
  intros x gs HI Lg Hg. destruct rel_draws as [RD _]. destruct (RD _ _ _ _ _ (to_rel x HI) gs Lg Hg) as (I & M & H). exists I. split; auto. intros us Lu HU. destruct (H us [] [] Lu HU) as (X & c & E1 & E2 & _ & (r' & HR) & Hc). rewrite !app_nil_r in *. exists c. unfold c_draw. rewrite E1. cbn [bind fst]. rewrite E2. split; [reflexivity|]. split; auto. now apply of_rel in HR.
Qed.
Lemma pre_logp : forall x gs, inside sp x -> length gs = size sp -> quiet gs -> 0 < prob sp p x /\ exists X, c_pre d x = Ok X /\ c_log_proba d p X = Ok (ln (prob sp p x)) /\ c_post d X gs = Ok (x, []).
Proof.
  intros x gs HI Lg Hg. destruct rel_pres as [RP _]. destruct (RP _ _ _ _ _ (to_rel x HI)) as (H0 & X & E1 & E2 & E3). split; auto. exists X. split; auto. split; auto. specialize (E3 gs [] Lg Hg). now rewrite app_nil_r in E3.
Qed.
Lemma mode_best : forall gs, length gs = size sp -> quiet gs -> (exists x, inside sp x) -> exists y, c_best d p gs = Ok y /\ inside sp y /\ forall x, inside sp x -> prob sp p x <= prob sp p y.
Proof.
  intros gs Lg Hg [x0 H0]. destruct rel_modal as [RM _].
  assert (G : forall x, inside sp x -> exists y, c_best d p gs = Ok y /\ inside sp y /\ prob sp p x <= prob sp p y).
  { intros x HI. destruct (RM _ _ _ _ _ (to_rel x HI)) as (X & E1 & H). destruct (H gs [] Lg Hg) as (y & r' & E2 & HR & Hle & _). rewrite app_nil_r in E2. apply of_rel in HR. destruct HR as (HI' & -> & _). exists y. unfold c_best. rewrite E1. cbn [bind]. rewrite E2. auto. }
  destruct (G x0 H0) as (y & E & HI & _). exists y. split; auto. split; auto. intros x Hx. destruct (G x Hx) as (y' & E' & _ & Hle). congruence.
Qed.
End Integers.

Lemma some_element : forall sp, supported sp -> countable sp -> exists x, inside sp x.
Proof.
  intros sp HS HC. destruct (elements sp) as [|x l] eqn:E.
  - exfalso. destruct (good_all (zb := true) sp HS) as (d & E1 & G).
    + intros _. clear - HC. induction sp as [n s|bs|nv|n|l IH|l IH|] using pspace_ind2; try exact I; auto; try contradiction.
      * apply zero_tuple. apply countable_tuple in HC. clear -IH HC. induction IH; inversion HC; subst; constructor; auto.
      * apply zero_dict. apply countable_dict in HC. clear -IH HC. induction IH as [|x l H F IHF]; cbn in *; [constructor|]. apply Forall_cons_iff in HC. destruct HC. constructor; auto.
    + pose proof (elements_total sp HS HC (c_priors d) (g_prior G)) as T. rewrite E in T. unfold total in T. cbn in T. lra.
  - exists x. apply elements_in; auto. rewrite E. now left.
Qed.
