From Coq Require Import List Lia Bool Arith Reals Lra.
From Verif Require Import PyCommon CommonProofs UtilsModel UtilsSpec UtilsProofs2 UtilsProofs3 DistModel DistSpec DistProofs LossProofs QModel.
Import ListNotations.
Set Implicit Arguments.
Local Open Scope R_scope.

Lemma vmap2_ok : forall (A B C : Type) (f : A -> B -> C) a b, length a = length b -> vmap2 f a b = Ok (map (fun xy => f (fst xy) (snd xy)) (combine a b)).
Proof. intros A B C f a. induction a as [|x a IH]; intros [|y b] E; cbn in E; try lia; auto. cbn [vmap2 combine map fst snd]. rewrite IH by lia. reflexivity. Qed.
Lemma vmap2_bad : forall (A B C : Type) (f : A -> B -> C) a b, length a <> length b -> vmap2 f a b = Err EValue.
Proof. intros A B C f a. induction a as [|x a IH]; intros [|y b] E; cbn in E; try lia; auto. cbn [vmap2]. rewrite IH by lia. reflexivity. Qed.
Lemma vmap2_inv : forall (A B C : Type) (f : A -> B -> C) a b r, vmap2 f a b = Ok r -> length a = length b /\ r = map (fun xy => f (fst xy) (snd xy)) (combine a b).
Proof.
  intros A B C f a b r H. destruct (Nat.eq_dec (length a) (length b)) as [E|E]; [|rewrite (vmap2_bad f a b E) in H; discriminate]. split; auto. rewrite (vmap2_ok f a b E) in H. congruence.
Qed.
Lemma jreshape_concat : forall (A : Type) n (l : list (list A)), (1 <= n)%nat -> (forall x, In x l -> length x = n) -> jreshape n (concat l) = Ok l.
Proof.
  intros A n l Hn H. unfold jreshape. destruct (Nat.eqb_spec n 0); [lia|]. rewrite (length_concat_const l H), Nat.mod_mul by lia. cbn [Nat.eqb]. rewrite Nat.div_mul by lia. f_equal.
  induction l as [|x l IH]; auto. cbn [length seq map]. rewrite <- seq_shift, map_map. rewrite Nat.mul_0_l. cbn [skipn concat]. assert (Lx : length x = n) by (apply H; now left). f_equal.
  - rewrite firstn_app, Lx, Nat.sub_diag. cbn [firstn]. rewrite app_nil_r, <- Lx. apply firstn_all.
  - rewrite <- IH at 2 by (intros; apply H; now right). apply map_ext. intros i. f_equal. replace (S i * n)%nat with (length x + i * n)%nat by (rewrite Lx; lia). rewrite skipn_app, skipn_all2 by lia. cbn [app]. f_equal. lia.
Qed.
Lemma jrepeat_length : forall (A : Type) n (l : list A), length (jrepeat n l) = (length l * n)%nat.
Proof. intros A n l. unfold jrepeat. induction l as [|x l IH]; auto. cbn [flat_map length]. rewrite app_length, repeat_length, IH. lia. Qed.
Lemma jtile_length : forall (A : Type) n (l : list A), length (jtile n l) = (n * length l)%nat.
Proof. intros A n l. unfold jtile. induction n as [|n IH]; auto. cbn [repeat concat]. rewrite app_length, IH. lia. Qed.
Lemma combine_app : forall (A B : Type) (a a' : list A) (b b' : list B), length a = length b -> combine (a ++ a') (b ++ b') = combine a b ++ combine a' b'.
Proof. intros A B a a'. induction a as [|x a IH]; intros [|y b] b' E; cbn in E; try lia; auto. cbn [app combine]. now rewrite IH by lia. Qed.
Lemma combine_repeat : forall (A B : Type) (x : A) (b : list B), combine (repeat x (length b)) b = map (pair x) b.
Proof. intros A B x b. induction b as [|y b IH]; auto. cbn. now rewrite IH. Qed.

Section V.
Variables St V : Type.
Variable enc : nat -> list R.
Variable mix : list R -> list V -> V.
Lemma type2_of_type1 : forall n (f : St -> list R -> V) S, (1 <= n)%nat -> function_type2 (Some n) enc (Type1 f) S = Ok (map (fun s => map (fun a => f s (enc a)) (seq 0 n)) S).
Proof.
  intros n f S Hn. cbn [function_type2]. rewrite vmap2_ok by (rewrite jrepeat_length, map_length, jtile_length, seq_length; lia). cbn [bind].
  assert (E : map (fun xy => f (fst xy) (snd xy)) (combine (jrepeat n S) (map enc (jtile (length S) (seq 0 n)))) = concat (map (fun s => map (fun a => f s (enc a)) (seq 0 n)) S)).
  { unfold jrepeat, jtile. induction S as [|s S IH]; auto. cbn [flat_map length repeat concat map]. rewrite map_app, combine_app by (now rewrite repeat_length, map_length, seq_length). rewrite map_app, IH. f_equal.
    replace n with (length (map enc (seq 0 n))) at 1 by (now rewrite map_length, seq_length). rewrite combine_repeat, !map_map. apply map_ext. reflexivity. }
  rewrite E. apply jreshape_concat; auto. intros x Hx. apply in_map_iff in Hx. destruct Hx as (s & <- & _). now rewrite map_length, seq_length.
Qed.
Lemma type1_of_type2 : forall n (f : St -> list V) S A, length S = length A -> (forall a, In a A -> length a = n) ->
  function_type1 (Some n) mix (Type2 f) S A = Ok (map (fun sa => mix (snd sa) (f (fst sa))) (combine S A)).
Proof.
  intros n f S A E H. cbn [function_type1]. assert (F : forallb (fun a => length a =? n)%nat A = true) by (apply forallb_forall; intros a Ha; apply Nat.eqb_eq; auto). rewrite F. rewrite vmap2_ok by (rewrite map_length; lia). f_equal.
  clear F H. revert A E. induction S as [|s S IH]; intros [|a A] E; cbn in E; try lia; auto. cbn [map combine fst snd]. f_equal. apply IH. lia.
Qed.
End V.
Lemma dot_one_hot_l : forall n a l, (a < n)%nat -> length l = n -> dot (one_hot n a) l = nth a l 0.
Proof. intros. now apply dot_one_hot. Qed.
Lemma vmix_one_hot : forall n k a ps, (a < n)%nat -> length ps = n -> (forall p, In p ps -> length p = k) -> vmix k (one_hot n a) ps = nth a ps [].
Proof.
  intros n k a ps Ha E H. assert (L : length (nth a ps []) = k) by (apply H, nth_In; lia). apply (@list_eq_nth _ 0).
  - unfold vmix. now rewrite map_length, seq_length.
  - intros j Hj. unfold vmix in *. rewrite map_length, seq_length in Hj. rewrite (@nth_map_any _ _ _ (seq 0 k) j 0 0%nat) by (rewrite seq_length; lia). rewrite seq_nth by lia. rewrite dot_one_hot_l by (auto; now rewrite map_length). cbn [Nat.add].
    now rewrite (@nth_map_any _ _ _ ps a 0 []) by lia.
Qed.
