(** Property C50: type-1 and type-2 views of q-functions and dynamics models. *)
From Coq Require Import List Lia Bool Arith Reals Lra.
From Verif Require Import PyCommon CommonProofs UtilsModel UtilsSpec UtilsProofs2 DistModel DistSpec DistProofs DistProofs2 LossProofs QModel QProofs.
Import ListNotations.
Local Open Scope R_scope.

(** C50: entry [b][a] of the type-2 view of a type-1 function is its value at (s_b, preprocessed a): any batch, any number of
    actions, any output type (scalars for Q, distribution parameters for stochastic functions). *)
Theorem C50_type2_view : forall (St V : Type) enc n (f : St -> list R -> V) S, (1 <= n)%nat ->
  exists Q, function_type2 (Some n) enc (Type1 f) S = Ok Q /\ length Q = length S /\
  forall b s d, nth_error S b = Some s -> length (nth b Q []) = n /\ forall a, (a < n)%nat -> nth a (nth b Q []) d = f s (enc a).
Proof.
  intros St V enc n f S Hn. eexists. split; [now apply type2_of_type1|]. split; [now rewrite map_length|]. intros b s d Hb. assert (L : (b < length S)%nat) by (apply nth_error_Some; congruence).
  rewrite (@nth_map_any _ _ _ S b [] s) by auto. rewrite (nth_error_nth S b s Hb). split; [now rewrite map_length, seq_length|]. intros a Ha. rewrite (@nth_map_any _ _ _ (seq 0 n) a d 0%nat) by (now rewrite seq_length). now rewrite seq_nth.
Qed.
Print Assumptions C50_type2_view.
Example C50_type2_view_ex : function_type2 (Some 2%nat) (fun a => [INR a]) (Type1 (fun (s : R) v => s * 10 + nth 0 v 0)) [7; 5] = Ok [[7 * 10 + INR 0; 7 * 10 + INR 1]; [5 * 10 + INR 0; 5 * 10 + INR 1]].
Proof. rewrite type2_of_type1 by lia. reflexivity. Qed.

(** C50: the type-1 view of a type-2 q-function at one-hot actions picks the entries. *)
Theorem C50_type1_view : forall (St : Type) n (f : St -> list R) S acts, length acts = length S -> (forall a, In a acts -> (a < n)%nat) -> (forall s, length (f s) = n) ->
  function_type1 (Some n) dot (Type2 f) S (map (one_hot n) acts) = Ok (map (fun sa => nth (snd sa) (f (fst sa)) 0) (combine S acts)).
Proof.
  intros St n f S acts E Ha Hf. rewrite type1_of_type2.
  - f_equal. revert acts E Ha. induction S as [|s S IH]; intros [|a acts] E Ha; cbn in E; try lia; auto. cbn [map combine fst snd]. f_equal; [apply dot_one_hot_l; auto; apply Ha; now left|apply IH; [lia|intros; apply Ha; now right]].
  - now rewrite map_length.
  - intros v Hv. apply in_map_iff in Hv. destruct Hv as (a & <- & _). apply one_hot_length.
Qed.
Print Assumptions C50_type1_view.
Example C50_type1_view_ex : (forall a, In a [1; 0]%nat -> (a < 2)%nat) /\ (forall s : R, length [s; 2 * s] = 2%nat).
Proof. split; [intros a [<-|[<-|[]]]; lia|auto]. Qed.
(** C50: likewise for the distribution parameters of a stochastic type-2 function. *)
Theorem C50_type1_view_dist : forall (St : Type) n k (f : St -> list (list R)) S acts, length acts = length S -> (forall a, In a acts -> (a < n)%nat) -> (forall s, length (f s) = n /\ forall p, In p (f s) -> length p = k) ->
  function_type1 (Some n) (vmix k) (Type2 f) S (map (one_hot n) acts) = Ok (map (fun sa => nth (snd sa) (f (fst sa)) []) (combine S acts)).
Proof.
  intros St n k f S acts E Ha Hf. rewrite type1_of_type2.
  - f_equal. revert acts E Ha. induction S as [|s S IH]; intros [|a acts] E Ha; cbn in E; try lia; auto. cbn [map combine fst snd]. f_equal; [destruct (Hf s); apply vmix_one_hot; auto; apply Ha; now left|apply IH; [lia|intros; apply Ha; now right]].
  - now rewrite map_length.
  - intros v Hv. apply in_map_iff in Hv. destruct Hv as (a & <- & _). apply one_hot_length.
Qed.
Print Assumptions C50_type1_view_dist.
Example C50_type1_view_dist_ex : forall s : R, length [[s; 1; 2]; [0; s; 3]] = 2%nat /\ forall p, In p [[s; 1; 2]; [0; s; 3]] -> length p = 3%nat.
Proof. intros s. split; auto. intros p [<-|[<-|[]]]; auto. Qed.

(** C50: converting back and forth: the type-2 view of the type-1 view of a type-2 function is the function; the type-1 view of the
    type-2 view of a type-1 function agrees with it on all actions. *)
Theorem C50_back_and_forth : forall (St : Type) n S, (1 <= n)%nat ->
  (forall f : St -> list R, (forall s, length (f s) = n) ->
     forall g, (forall s a, (a < n)%nat -> function_type1 (Some n) dot (Type2 f) [s] [one_hot n a] = Ok [g s (one_hot n a)]) ->
     function_type2 (Some n) (one_hot n) (Type1 g) S = function_type2 (Some n) (one_hot n) (Type2 f) S) /\
  (forall f : St -> list R -> R, forall g, (forall s, function_type2 (Some n) (one_hot n) (Type1 f) [s] = Ok [g s]) ->
     forall acts, length acts = length S -> (forall a, In a acts -> (a < n)%nat) ->
     function_type1 (Some n) dot (Type2 g) S (map (one_hot n) acts) = function_type1 (Some n) dot (Type1 f) S (map (one_hot n) acts)).
Proof.
  intros St n S Hn. split.
  - intros f Hf g Hg. rewrite type2_of_type1 by auto. cbn [function_type2]. f_equal. apply map_ext. intros s. apply (@list_eq_nth _ 0).
    + now rewrite map_length, seq_length.
    + intros a Ha. rewrite map_length, seq_length in Ha. rewrite (@nth_map_any _ _ _ (seq 0 n) a 0 0%nat) by (now rewrite seq_length). rewrite seq_nth by auto. cbn [Nat.add]. specialize (Hg s a Ha). change [one_hot n a] with (map (one_hot n) [a]) in Hg.
      rewrite C50_type1_view in Hg; auto; [|intros x [<-|[]]; auto]. cbn [combine map fst snd] in Hg. congruence.
  - intros f g Hg acts E Ha. assert (G : forall s, g s = map (fun a => f s (one_hot n a)) (seq 0 n)) by (intros s; specialize (Hg s); rewrite type2_of_type1 in Hg by auto; cbn in Hg; congruence).
    rewrite C50_type1_view; auto; [|intros s; rewrite G, map_length, seq_length; auto]. cbn [function_type1]. rewrite vmap2_ok by (now rewrite map_length). f_equal.
    revert acts E Ha. induction S as [|s S IH]; intros [|a acts] E Ha; cbn in E; try lia; auto. cbn [map combine fst snd]. f_equal; [|apply IH; [lia|intros; apply Ha; now right]].
    assert (La : (a < n)%nat) by (apply Ha; now left). rewrite G, (@nth_map_any _ _ _ (seq 0 n) a 0 0%nat) by (now rewrite seq_length). now rewrite seq_nth.
Qed.
Print Assumptions C50_back_and_forth.
Example C50_back_and_forth_ex : (forall (s : R) a, (a < 2)%nat -> function_type1 (Some 2%nat) dot (Type2 (fun s => [s; 2 * s])) [s] [one_hot 2 a] = Ok [dot (one_hot 2 a) [s; 2 * s]]) /\
  (forall s : R, function_type2 (Some 2%nat) (one_hot 2) (Type1 (fun s a => s * nth 0 a 0)) [s] = Ok [[s * 1; s * 0]]).
Proof. split; reflexivity. Qed.

(** C50: calling q(s) and q(s, a) agree, for both model types, and both undo the value transform. *)
Theorem C50_call : forall (St : Type) n (f_inv : R -> R) (q : qfun St R) s, (1 <= n)%nat -> match q with Type2 f => forall s, length (f s) = n | Type1 _ => True end ->
  exists v, q_call_s (Some n) (one_hot n) f_inv q s = Ok v /\ length v = n /\ (forall a, (a < n)%nat -> q_call_a (Some n) (one_hot n) f_inv q s a = Ok (nth a v 0)) /\
  (forall a, (a < n)%nat -> nth a v 0 = f_inv (match q with Type1 f => f s (one_hot n a) | Type2 f => nth a (f s) 0 end)).
Proof.
  intros St n f_inv q s Hn Hq. unfold q_call_s, q_call_a. destruct q as [f|f].
  - rewrite type2_of_type1 by auto. cbn [bind map]. eexists. split; [reflexivity|]. rewrite map_map. split; [now rewrite map_length, seq_length|]. assert (N : forall a, (a < n)%nat -> nth a (map (fun x => f_inv (f s (one_hot n x))) (seq 0 n)) 0 = f_inv (f s (one_hot n a))).
    { intros a Ha. rewrite (@nth_map_any _ _ _ (seq 0 n) a 0 0%nat) by (now rewrite seq_length). now rewrite seq_nth. }
    split; auto. intros a Ha. cbn [function_type1 vmap2 bind map]. now rewrite N.
  - cbn [function_type2 map bind]. eexists. split; [reflexivity|]. split; [rewrite map_length; auto|]. assert (N : forall a, (a < n)%nat -> nth a (map f_inv (f s)) 0 = f_inv (nth a (f s) 0)) by (intros a Ha; apply nth_map_any; now rewrite Hq).
    split; auto. intros a Ha. change [one_hot n a] with (map (one_hot n) [a]). rewrite C50_type1_view; auto; [|intros x [<-|[]]; auto]. cbn [bind combine map fst snd]. now rewrite N.
Qed.
Print Assumptions C50_call.
Example C50_call_ex : forall s : R, length [s; s + 1; s * s] = 3%nat. Proof. reflexivity. Qed.

(** C50: outside discrete action spaces, and for actions of the wrong width, the views are refused. *)
Theorem C50_rejects : forall (St V : Type) enc (mix : list R -> list V -> V) (f1 : St -> list R -> V) (f2 : St -> list V) S A n,
  function_type2 None enc (Type1 f1) S = Err EValue /\ function_type1 None mix (Type2 f2) S A = Err EAssertion /\
  ((exists a, In a A /\ length a <> n) -> function_type1 (Some n) mix (Type2 f2) S A = Err EAssertion).
Proof.
  intros. split; [reflexivity|]. split; [reflexivity|]. intros (a & Ha & L). cbn [function_type1]. destruct (forallb _ A) eqn:F; auto. rewrite forallb_forall in F. specialize (F a Ha). apply Nat.eqb_eq in F. congruence.
Qed.
Print Assumptions C50_rejects.
Example C50_rejects_ex : exists a, In a [[0; 1; 0]] /\ length a <> 2%nat. Proof. exists [0; 1; 0]. cbn. split; [auto|lia]. Qed.

(** C50: a type-2 q-function evaluated with different numbers of observations and actions raises. *)
Theorem C50_batch_sizes : forall (St : Type) n (f : St -> list R) S A, (forall a, In a A -> length a = n) -> length A <> length S ->
  function_type1 (Some n) dot (Type2 f) S A = Err EValue.
Proof.
  intros St n f S A H L. cbn [function_type1]. assert (F : forallb (fun a => length a =? n)%nat A = true) by (apply forallb_forall; intros a Ha; apply Nat.eqb_eq; auto). rewrite F.
  apply vmap2_bad. now rewrite map_length.
Qed.
Print Assumptions C50_batch_sizes.
Example C50_batch_sizes_ex : (forall a, In a [[0; 1]; [1; 0]] -> length a = 2%nat) /\ length [[0; 1]; [1; 0]] <> length [5; 6; 7].
Proof. split; [intros a [<-|[<-|[]]]; reflexivity|discriminate]. Qed.

(** C50: mean_func_type2 and its siblings evaluate each action's parameters separately. *)
Theorem C50_replicas : forall (A B : Type) n (f : A -> B) l, (1 <= n)%nat -> (forall x, In x l -> length x = n) -> on_replicas n (map f) l = Ok (map (map f) l).
Proof.
  intros A B n f l Hn H. unfold on_replicas. rewrite concat_map. apply jreshape_concat; auto. intros x Hx. apply in_map_iff in Hx. destruct Hx as (y & <- & Hy). rewrite map_length. auto.
Qed.
Print Assumptions C50_replicas.
Example C50_replicas_ex : forall x, In x [[1; 2]; [3; 4]; [5; 6]] -> length x = 2%nat.
Proof. intros x [<-|[<-|[<-|[]]]]; reflexivity. Qed.

(** For mixed actions the type-1 view of a stochastic type-2 function averages the distribution parameters, which is not the mixture
    of the distributions: an equal mixture of two categorical distributions on three values gets other probabilities. *)
Theorem C68_projection_refuted : exists p1 p2 : list R, length p1 = 3%nat /\ length p2 = 3%nat /\
  exists r, function_type1 (Some 2%nat) (vmix 3) (Type2 (fun _ : unit => [p1; p2])) [tt] [[1/2; 1/2]] = Ok [r] /\
  nth 2 (softmax r) 0 <> 1/2 * nth 2 (softmax p1) 0 + 1/2 * nth 2 (softmax p2) 0.
Proof.
  exists [ln 9; 0; 0], [0; ln 9; 0]. split; auto. split; auto. exists [ln 3; ln 3; 0]. assert (L9 : ln 9 = ln 3 + ln 3) by (rewrite <- ln_mult by lra; f_equal; lra). split.
  - cbn [function_type1 forallb length Nat.eqb andb map vmap2 bind]. f_equal. f_equal. unfold vmix, dot. cbn [map seq nth zipw rsum]. repeat f_equal; lra.
  - unfold softmax, sumexp. cbn [map nth rsum]. rewrite !exp_ln, exp_0 by lra. lra.
Qed.
Print Assumptions C68_projection_refuted.
