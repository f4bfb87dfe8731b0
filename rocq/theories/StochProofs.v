(** Lemmas for stochastic value functions. *)
From Coq Require Import List Lia Bool Arith Reals Lra.
From Verif Require Import PyCommon CommonProofs UtilsModel UtilsSpec UtilsProofs2 UtilsProofs3 WrappersProofs DistModel DistSpec DistProofs DistProofs2 DistProofs3 LossModel LossSpec LossProofs QModel QProofs TDModel TDSpec TDProofs TDProofs2 TDProofs3 PolicySpec PolicyProofs StochModel StochSpec.
Import ListNotations.
Set Implicit Arguments.
Local Open Scope R_scope.

Lemma atom_centre : forall n lo hi k, (1 <= n)%nat -> atom n lo hi k = centre n lo hi k.
Proof. intros n lo hi k Hn. unfold atom, centre. assert (0 < INR n) by (apply lt_0_INR; lia). field. lra. Qed.
Lemma centre_in : forall n lo hi k, (k < n)%nat -> lo < hi -> lo < centre n lo hi k < hi.
Proof.
  intros n lo hi k Hk Hl. unfold centre. assert (N : 0 < INR n) by (apply lt_0_INR; lia). assert (K : INR k + 1 <= INR n) by (rewrite <- S_INR; apply le_INR; lia). pose proof (pos_INR k) as P.
  set (w := (hi - lo) / (2 * INR n)). assert (W : 0 < w) by (unfold w; apply Rmult_lt_0_compat; [lra|apply Rinv_0_lt_compat; lra]). assert (E : hi - lo = 2 * INR n * w) by (unfold w; field; lra). nra.
Qed.
Lemma expect_ext : forall p u v, (forall k, (k < length p)%nat -> u k = v k) -> expect p u = expect p v.
Proof. intros p u v H. unfold expect. apply total_ext. intros k Hk. apply in_seq in Hk. rewrite H by lia. reflexivity. Qed.
Lemma post_dist : forall n lo hi p, (1 <= n)%nat -> length p = n -> di_post n lo hi p = Ok (expect p (centre n lo hi)).
Proof.
  intros n lo hi p Hn L. unfold di_post. rewrite L, Nat.eqb_refl. f_equal. rewrite dot_expect by (unfold atoms; rewrite map_length, seq_length; auto). apply expect_ext. intros k Hk. unfold atoms. rewrite (@nth_map_any _ _ _ (seq 0 n) k 0 0%nat) by (rewrite seq_length; lia). rewrite seq_nth by lia. cbn [Nat.add]. now apply atom_centre.
Qed.
Lemma expect_inside : forall p w lo hi, pos_distribution p -> p <> [] -> (forall k, (k < length p)%nat -> lo < w k < hi) -> lo < expect p w < hi.
Proof.
  intros p w lo hi [P S] NE B. assert (T : forall a, total (map (fun k => nth k p 0 * a) (seq 0 (length p))) = a).
  { intros a. rewrite (@total_ext _ _ (fun k => a * nth k p 0)) by (intros; lra). rewrite (@total_scal nat), map_nth_seq, S. lra. }
  assert (L0 : (0 < length p)%nat) by (destruct p; [congruence|cbn; lia]).
  split.
  - destruct (Rle_lt_or_eq_dec lo (expect p w)) as [|E]; auto.
    + unfold expect. rewrite <- (T lo) at 1. apply total_le. intros k Hk. apply in_seq in Hk. pose proof (@nth_pos p k P). specialize (B k). assert ((k < length p)%nat) by lia. intuition nra.
    + exfalso. assert (D : nth 0 p 0 * lo = nth 0 p 0 * w 0%nat).
      { apply (@total_le_eq _ (fun k => nth k p 0 * lo) (fun k => nth k p 0 * w k) (seq 0 (length p))).
        - intros k Hk. apply in_seq in Hk. pose proof (@nth_pos p k P). specialize (B k). assert ((k < length p)%nat) by lia. intuition nra.
        - rewrite T. exact E.
        - apply in_seq. lia. }
      pose proof (@nth_pos p 0%nat P L0). specialize (B _ L0). nra.
  - destruct (Rle_lt_or_eq_dec (expect p w) hi) as [|E]; auto.
    + unfold expect. rewrite <- (T hi) at 1. apply total_le. intros k Hk. apply in_seq in Hk. pose proof (@nth_pos p k P). specialize (B k). assert ((k < length p)%nat) by lia. intuition nra.
    + exfalso. assert (D : nth 0 p 0 * w 0%nat = nth 0 p 0 * hi).
      { apply (@total_le_eq _ (fun k => nth k p 0 * w k) (fun k => nth k p 0 * hi) (seq 0 (length p))).
        - intros k Hk. apply in_seq in Hk. pose proof (@nth_pos p k P). specialize (B k). assert ((k < length p)%nat) by lia. intuition nra.
        - rewrite T. exact E.
        - apply in_seq. lia. }
      pose proof (@nth_pos p 0%nat P L0). specialize (B _ L0). nra.
Qed.
Lemma post_inside : forall n lo hi p, (1 <= n)%nat -> lo < hi -> length p = n -> pos_distribution p -> exists x, di_post n lo hi p = Ok x /\ lo < x < hi.
Proof.
  intros n lo hi p Hn Hl L D. eexists. split; [now apply post_dist|]. apply expect_inside; auto; [now apply nonempty with n|]. intros k Hk. apply centre_in; lia || auto.
Qed.
Lemma interval_outputs : forall n lo hi z tau us, (1 <= n)%nat -> lo < hi -> length z = n -> length us = n -> 0 < tau ->
  exists m md x, sv_mean (DInterval n lo hi) z = Ok m /\ sv_mode tau (DInterval n lo hi) z = Ok md /\ sv_sample tau us n lo hi z = Ok x /\ lo < m < hi /\ lo < md < hi /\ lo < x < hi /\ m = expect (softmax z) (centre n lo hi).
Proof.
  intros n lo hi z tau us Hn Hl Hz Hu Ht. pose proof (nonempty Hn Hz) as NE. cbn [sv_mean sv_mode]. unfold sv_sample.
  destruct (@mode_spec n tau z Hn Hz Ht) as (q & Eq & Lq & Dq & _). destruct (@sample_spec n tau z us Hn Hz Hu Ht) as (r & Er & Lr & Dr & _). rewrite Eq, Er. unfold cat_mean. rewrite (check_ok _ Hz). cbn [bind].
  assert (Ls : length (softmax z) = n) by (now rewrite softmax_length). destruct (@post_inside n lo hi q Hn Hl Lq Dq) as (md & E1 & B1). destruct (@post_inside n lo hi r Hn Hl Lr Dr) as (x & E2 & B2). destruct (@post_inside n lo hi (softmax z) Hn Hl Ls (@softmax_dist z NE)) as (m & E3 & B3).
  exists m, md, x. repeat (split; auto). rewrite (@post_dist n lo hi (softmax z)) in E3 by auto. congruence.
Qed.

(** ** Views *)
Lemma type1_at : forall (St V : Type) (d : V) sh n enc mix (q : qfun St V) s a, picks d sh n enc mix -> per_action sh n q -> (a < n)%nat ->
  function_type1 (Some n) mix q [s] [enc a] = Ok [at_action d enc q s a].
Proof.
  intros St V d sh n enc mix [f|f] s a [Pl Pm] Hq Ha; cbn [function_type1 at_action]; auto. cbn [forallb]. rewrite (Pl a Ha), Nat.eqb_refl. cbn [andb vmap2 map bind]. rewrite Pm; auto; apply Hq.
Qed.
Lemma type2_at : forall (St V : Type) (d : V) sh n enc (q : qfun St V) S, (1 <= n)%nat -> per_action sh n q ->
  function_type2 (Some n) enc q S = Ok (map (fun s => map (at_action d enc q s) (seq 0 n)) S).
Proof.
  intros St V d sh n enc [f|f] S Hn Hq; [now apply type2_of_type1|]. cbn [function_type2]. f_equal. apply map_ext. intros s. cbn [at_action]. cbn [per_action] in Hq. destruct (Hq s) as [Hs _]. rewrite <- Hs. clear. set (l := f s). apply (@nth_ext V l _ d d).
  - now rewrite map_length, seq_length.
  - intros k Hk. rewrite (@nth_map_any _ _ _ (seq 0 (length l)) k d 0%nat) by (now rewrite seq_length). now rewrite seq_nth.
Qed.
Lemma collect_means_ok : forall d g zs, (forall z, In z zs -> sv_mean d z = Ok (g z)) -> collect_means d zs = Ok (map g zs).
Proof. intros d g zs. induction zs as [|z zs IH]; intros H; auto. cbn [collect_means map]. rewrite H by now left. cbn [bind]. rewrite IH by (intros; apply H; now right). reflexivity. Qed.
Lemma collect_all : forall (A B : Type) (h : A -> outcome B) g l, (forall x, In x l -> h x = Ok (g x)) -> collect h l = Ok (map g l).
Proof. intros A B h g l. induction l as [|x l IH]; intros H; auto. cbn [collect map]. rewrite H by now left. cbn [bind]. rewrite IH by (intros; apply H; now right). reflexivity. Qed.
Lemma nth_error_map_seq : forall (A : Type) (g : nat -> A) n i, (i < n)%nat -> nth_error (map g (seq 0 n)) i = Some (g i).
Proof. intros A g n i Hi. rewrite nth_error_map. rewrite (nth_error_nth' (seq 0 n) 0%nat) by (now rewrite seq_length). cbn. now rewrite seq_nth. Qed.
Lemma mean_s_ok : forall (St : Type) sh d n enc (q : qfun St (list R)) s g, (1 <= n)%nat -> per_action sh n q -> (forall a, (a < n)%nat -> sv_mean d (at_action [] enc q s a) = Ok (g a)) ->
  sq_mean_s d (Some n) enc q s = Ok (map (fun i => g (match d with DInterval _ _ _ => i | DQuantile _ => 0%nat end)) (seq 0 n)).
Proof.
  intros St sh d n enc q s g Hn Hq Hg. unfold sq_mean_s. rewrite (@type2_at _ _ [] sh n enc q [s]) by auto. cbn [map bind].
  assert (E : collect_means d (map (at_action [] enc q s) (seq 0 n)) = Ok (map g (seq 0 n))).
  { clear Hq. assert (H : forall a, In a (seq 0 n) -> sv_mean d (at_action [] enc q s a) = Ok (g a)) by (intros a Ha; apply in_seq in Ha; apply Hg; lia). clear Hg Hn. induction (seq 0 n) as [|a l IH]; auto. cbn [map collect_means]. rewrite H by now left. cbn [bind]. rewrite IH by (intros; apply H; now right). reflexivity. }
  rewrite E. cbn [bind]. apply collect_all. intros i Hi. apply in_seq in Hi. unfold post_index. destruct d as [b lo hi|b]; rewrite nth_error_map_seq by lia; reflexivity.
Qed.

(** ** SuccessorStateQ *)
Section Succ.
Variables St P Q' : Type.
Variables (dP : P) (dQ : Q') (shP : P -> Prop) (shQ : Q' -> Prop) (n : nat) (enc : nat -> list R).
Variables (mixP : list R -> list P -> P) (mixQ : list R -> list Q' -> Q') (pmean : P -> St) (rmean : Q' -> R) (v : St -> R) (f f_inv : R -> R) (gamma : R).
Hypotheses (Hn : (1 <= n)%nat) (HP : picks dP shP n enc mixP) (HQ : picks dQ shQ n enc mixQ) (Hf : forall x, f_inv (f x) = x).
Variables (p : qfun St P) (r : qfun St Q').
Hypotheses (Hp : per_action shP n p) (Hr : per_action shQ n r).
Definition succ_value (s : St) (a : nat) : R := rmean (at_action dQ enc r s a) + gamma * f_inv (v (pmean (at_action dP enc p s a))).
Lemma ssq_type1_at : forall s a, (a < n)%nat -> ssq_type1 (Some n) mixP mixQ pmean rmean v f f_inv gamma p r [s] [enc a] = Ok [f (succ_value s a)].
Proof. intros s a Ha. unfold ssq_type1. rewrite (@type1_at _ _ dP shP n enc mixP p s a) by auto. cbn [bind]. rewrite (@type1_at _ _ dQ shQ n enc mixQ r s a) by auto. reflexivity. Qed.
Lemma forallb_len : forall (A B : Type) (g : nat -> B) (S : list A), forallb (fun x => Nat.eqb (length x) n) (map (fun _ : A => map g (seq 0 n)) S) = true.
Proof. intros A B g S. induction S; auto. cbn [map forallb]. now rewrite map_length, seq_length, Nat.eqb_refl. Qed.
Lemma to_replicas_ok : forall (A B : Type) (g : A -> nat -> B) (S : list A), to_replicas n (map (fun s => map (g s) (seq 0 n)) S) = Ok (concat (map (fun s => map (g s) (seq 0 n)) S)).
Proof. intros A B g S. unfold to_replicas. assert (E : forallb (fun x => Nat.eqb (length x) n) (map (fun s => map (g s) (seq 0 n)) S) = true) by (induction S; auto; cbn [map forallb]; now rewrite map_length, seq_length, Nat.eqb_refl). now rewrite E. Qed.
Lemma combine_map2 : forall (A B C : Type) (g : A -> B) (h : A -> C) l, combine (map g l) (map h l) = map (fun x => (g x, h x)) l.
Proof. intros A B C g h l. induction l; cbn; congruence. Qed.
Lemma ssq_type2_at : forall S, ssq_type2 (Some n) enc pmean rmean v f f_inv gamma p r S = Ok (map (fun s => map (fun a => f (succ_value s a)) (seq 0 n)) S).
Proof.
  intros S. unfold ssq_type2. rewrite (@type2_at _ _ dP shP n enc p S) by auto. cbn [bind]. rewrite to_replicas_ok. cbn [bind]. rewrite (@type2_at _ _ dQ shQ n enc r S) by auto. cbn [bind]. rewrite to_replicas_ok. cbn [bind].
  rewrite !concat_map, !map_map. rewrite (@map_ext _ _ (fun x => map rmean (map (at_action dQ enc r x) (seq 0 n))) (fun x => map (fun a => rmean (at_action dQ enc r x a)) (seq 0 n))) by (intros; apply map_map). rewrite (@map_ext _ _ (fun x => map pmean (map (at_action dP enc p x) (seq 0 n))) (fun x => map (fun a => pmean (at_action dP enc p x a)) (seq 0 n))) by (intros; apply map_map).
  assert (L : forall (B : Type) (g : St -> nat -> B), length (concat (map (fun s => map (g s) (seq 0 n)) S)) = (length S * n)%nat).
  { intros B g. rewrite (@length_concat_const _ _ n); [now rewrite map_length|]. intros x Hx. apply in_map_iff in Hx. destruct Hx as (s & <- & _). now rewrite map_length, seq_length. }
  rewrite vmap2_ok by (rewrite !L; auto). cbn [bind].
  assert (E : map (fun xy => ssq_row v f f_inv gamma (fst xy) (snd xy)) (combine (concat (map (fun x => map (fun a => rmean (at_action dQ enc r x a)) (seq 0 n)) S)) (concat (map (fun x => map (fun a => pmean (at_action dP enc p x a)) (seq 0 n)) S))) = concat (map (fun s => map (fun a => f (succ_value s a)) (seq 0 n)) S)).
  { clear L. induction S as [|s S IH]; auto. cbn [map concat]. rewrite combine_app by (now rewrite !map_length). rewrite map_app, IH. f_equal. rewrite combine_map2, map_map. apply map_ext. reflexivity. }
  rewrite E. apply jreshape_concat; auto. intros x Hx. apply in_map_iff in Hx. destruct Hx as (s & <- & _). now rewrite map_length, seq_length.
Qed.
Lemma ssq_calls : forall s, ssq_call_s (Some n) enc pmean rmean v f f_inv gamma p r s = Ok (map (succ_value s) (seq 0 n)) /\ forall a, (a < n)%nat -> ssq_call_a (Some n) mixP mixQ pmean rmean v f f_inv gamma p r s (enc a) = Ok (succ_value s a).
Proof.
  intros s. split.
  - unfold ssq_call_s. rewrite ssq_type2_at. cbn [bind map]. rewrite map_map. f_equal. apply map_ext. intros. apply Hf.
  - intros a Ha. unfold ssq_call_a. rewrite ssq_type1_at by auto. cbn [bind map]. now rewrite Hf.
Qed.
End Succ.
