(** Proofs about MiscModel.v: noise, trees, environment helpers. *)
From Coq Require Import List ZArith Bool Reals Lra Lia Permutation Sorted.
From Verif Require Import PyCommon CommonProofs UtilsModel UtilsSpec UtilsProofs2 WrappersProofs LossProofs DistProofs2 MiscModel MiscSpec.
Import ListNotations.
Local Open Scope R_scope.
Set Implicit Arguments.

(** * Noise *)

Lemma clip_nonexpansive : forall x y lo hi, Rabs (clip x lo hi - clip y lo hi) <= Rabs (x - y).
Proof. intros. unfold clip, Rmin, Rmax, Rabs. repeat (destruct Rle_dec || destruct Rcase_abs); lra. Qed.

Definition ou_start (o : ou) (n : nat) : list R := match ou_noise o with None => repeat (ou_mu o) n | Some l => l end.
Definition ou_next (o : ou) (x w : R) : R := clip (x - ou_theta o * (x - ou_mu o) + ou_sigma o * w) (ou_min o) (ou_max o).
Definition with_noise (o : ou) (l : list R) : ou := mkOU (ou_mu o) (ou_sigma o) (ou_theta o) (ou_min o) (ou_max o) (Some l).

Lemma stretch_same : forall (l m : list R), length l = length m -> match l with [x] => repeat x (length m) | _ => l end = l.
Proof. intros [|x [|y l]] m H; simpl in *; auto. now rewrite <- H. Qed.

Lemma ou_call_float : forall o a ws n, length (ou_start o n) = n -> length a = n -> length ws = n ->
  ou_call o false a ws = (with_noise o (map (fun xw => ou_next o (fst xw) (snd xw)) (combine (ou_start o n) ws)),
    Ok (map (fun ax => fst ax + snd ax) (combine a (map (fun xw => ou_next o (fst xw) (snd xw)) (combine (ou_start o n) ws))))).
Proof.
  intros o a ws n H Ha Hw. unfold ou_call. cbv zeta. unfold ou_start in *. rewrite Ha.
  set (noise := match ou_noise o with Some n0 => n0 | None => repeat (ou_mu o) n end) in *.
  rewrite !stretch_same by congruence. rewrite Hw, H, Nat.eqb_refl.
  assert (E : map (fun xw => clip (fst xw + (ou_theta o * (ou_mu o - fst xw) + ou_sigma o * snd xw)) (ou_min o) (ou_max o)) (combine noise ws) =
    map (fun xw => ou_next o (fst xw) (snd xw)) (combine noise ws)).
  { apply map_ext. intros [x w]. unfold ou_next. simpl. f_equal. ring. }
  rewrite E. reflexivity.
Qed.

Fixpoint ou_path (o : ou) (x0 : R) (w : nat -> R) (k : nat) : R := match k with O => x0 | S k' => ou_next o (ou_path o x0 w k') (w k') end.

Lemma nth_repeat_lt : forall (x d : R) n i, (i < n)%nat -> nth i (repeat x n) d = x.
Proof. induction n; intros [|i] H; simpl; auto; try lia. apply IHn. lia. Qed.

Lemma ou_path_shift : forall o w x0 k, ou_path o x0 w (S k) = ou_path o (ou_next o x0 (w 0%nat)) (fun j => w (S j)) k.
Proof. induction k; simpl in *; auto. now rewrite IHk. Qed.
Lemma ou_path_ext : forall o w w' x0 k, (forall j, (j < k)%nat -> w j = w' j) -> ou_path o x0 w k = ou_path o x0 w' k.
Proof. induction k; intros H; simpl; auto. rewrite IHk by (intros; apply H; lia). now rewrite H by lia. Qed.
Lemma ou_path_params : forall o l w x0 k, ou_path (with_noise o l) x0 w k = ou_path o x0 w k.
Proof. induction k; simpl; auto. now rewrite IHk. Qed.

Lemma ou_run_path : forall calls o n, float_calls n calls -> length (ou_start o n) = n ->
  length (snd (ou_run o calls)) = length calls /\
  forall k, (k < length calls)%nat -> exists l, nth_error (snd (ou_run o calls)) k = Some (Ok l) /\ length l = n /\
    forall i, (i < n)%nat -> nth i l 0 = act calls k i + ou_path o (nth i (ou_start o n) 0) (fun j => draw calls j i) (S k).
Proof.
  induction calls as [|[[ints a] ws] r IH]; intros o n F H; [simpl; split; auto; intros; lia|].
  destruct (F _ (or_introl eq_refl)) as [Fi [Fa Fw]]. simpl in Fi, Fa, Fw. subst ints.
  cbn [ou_run]. rewrite (@ou_call_float o a ws n H Fa Fw).
  set (nz := map (fun xw => ou_next o (fst xw) (snd xw)) (combine (ou_start o n) ws)).
  assert (Hnz : length nz = n) by (unfold nz; rewrite map_length, combine_length; lia).
  assert (Nnz : forall i, (i < n)%nat -> nth i nz 0 = ou_next o (nth i (ou_start o n) 0) (nth i ws 0)).
  { intros i Hi. unfold nz. rewrite (@nth_map_any _ _ _ _ _ 0 (0, 0)) by (rewrite combine_length; lia). rewrite combine_nth by congruence. reflexivity. }
  destruct (IH (with_noise o nz) n) as [L P].
  { intros c Hc. apply F. now right. } { unfold ou_start, with_noise. simpl. exact Hnz. }
  destruct (ou_run (with_noise o nz) r) as [o2 ys] eqn:E. cbn [snd] in *. split; [simpl; lia|].
  intros [|k] Hk.
  - eexists. split; [reflexivity|]. split; [rewrite map_length, combine_length; lia|].
    intros i Hi. rewrite (@nth_map_any _ _ _ _ _ 0 (0, 0)) by (rewrite combine_length; lia). rewrite combine_nth by congruence. cbn [fst snd]. rewrite Nnz by auto. reflexivity.
  - destruct (P k ltac:(simpl in Hk; lia)) as [l [E1 [E2 E3]]]. exists l. split; [exact E1|]. split; [exact E2|].
    intros i Hi. rewrite E3 by auto. unfold act. cbn [nth]. f_equal. rewrite ou_path_params. rewrite (@ou_path_shift o (fun j => draw ((false, a, ws) :: r) j i) _ (S k)).
    assert (N0 : nth i (ou_start (with_noise o nz) n) 0 = ou_next o (nth i (ou_start o n) 0) (nth i ws 0)) by (unfold ou_start at 1, with_noise at 1; cbn [ou_noise]; apply Nnz; auto).
    rewrite N0. reflexivity.
Qed.

Lemma ou_start_fresh : forall o n, ou_noise o = None -> length (ou_start o n) = n /\ forall i, (i < n)%nat -> nth i (ou_start o n) 0 = ou_mu o.
Proof. intros o n H. unfold ou_start. rewrite H. split; [apply repeat_length|]. intros. now apply nth_repeat_lt. Qed.

Lemma ou_process : forall o n calls, ou_noise o = None -> float_calls n calls -> exists X : nat -> nat -> R,
  (forall i, X 0%nat i = ou_mu o) /\
  (forall k i, X (S k) i = clip (X k i - ou_theta o * (X k i - ou_mu o) + ou_sigma o * draw calls k i) (ou_min o) (ou_max o)) /\
  length (snd (ou_run o calls)) = length calls /\
  forall k, (k < length calls)%nat -> exists l, nth_error (snd (ou_run o calls)) k = Some (Ok l) /\ length l = n /\ forall i, (i < n)%nat -> nth i l 0 = act calls k i + X (S k) i.
Proof.
  intros o n calls H F. destruct (ou_start_fresh o n H) as [S0 S1]. destruct (@ou_run_path calls o n F S0) as [L P].
  exists (fun k i => ou_path o (ou_mu o) (fun j => draw calls j i) k). split; [reflexivity|]. split; [reflexivity|]. split; auto.
  intros k Hk. destruct (P k Hk) as [l [E1 [E2 E3]]]. exists l. repeat split; auto. intros i Hi. rewrite E3 by auto. now rewrite S1 by auto.
Qed.

Lemma ou_path_closed : forall o w k, (forall j, (1 <= j <= k)%nat -> ou_min o <= ou_mu o + ou_sigma o * discounted (1 - ou_theta o) w j <= ou_max o) ->
  ou_path o (ou_mu o) w k = ou_mu o + ou_sigma o * discounted (1 - ou_theta o) w k.
Proof.
  induction k; intros H; simpl; [ring|]. rewrite IHk by (intros; apply H; lia). unfold ou_next.
  assert (Q : ou_mu o + ou_sigma o * discounted (1 - ou_theta o) w k - ou_theta o * (ou_mu o + ou_sigma o * discounted (1 - ou_theta o) w k - ou_mu o) + ou_sigma o * w k =
    ou_mu o + ou_sigma o * discounted (1 - ou_theta o) w (S k)) by (simpl; ring).
  rewrite Q. rewrite clip_in; [reflexivity|]. apply H. lia.
Qed.

Lemma ou_closed : forall o n calls k i, ou_noise o = None -> float_calls n calls -> (k < length calls)%nat -> (i < n)%nat ->
  (forall j, (1 <= j <= S k)%nat -> ou_min o <= ou_mu o + ou_sigma o * discounted (1 - ou_theta o) (fun t => draw calls t i) j <= ou_max o) ->
  exists l, nth_error (snd (ou_run o calls)) k = Some (Ok l) /\ nth i l 0 = act calls k i + (ou_mu o + ou_sigma o * discounted (1 - ou_theta o) (fun t => draw calls t i) (S k)).
Proof.
  intros o n calls k i H F Hk Hi B. destruct (ou_start_fresh o n H) as [S0 S1]. destruct (@ou_run_path calls o n F S0) as [L P].
  destruct (P k Hk) as [l [E1 [E2 E3]]]. exists l. split; auto. rewrite E3, S1 by auto. now rewrite ou_path_closed.
Qed.

Lemma ou_path_bounds : forall o x0 w k, ou_min o <= ou_max o -> ou_min o <= ou_path o x0 w (S k) <= ou_max o.
Proof. intros. simpl. apply clip_between. auto. Qed.

Lemma ou_path_forget : forall o x0 y0 w k, Rabs (ou_path o x0 w k - ou_path o y0 w k) <= Rabs (1 - ou_theta o) ^ k * Rabs (x0 - y0).
Proof.
  induction k; simpl; [lra|]. unfold ou_next. eapply Rle_trans; [apply clip_nonexpansive|].
  set (x := ou_path o x0 w k) in *. set (y := ou_path o y0 w k) in *.
  replace (x - ou_theta o * (x - ou_mu o) + ou_sigma o * w k - (y - ou_theta o * (y - ou_mu o) + ou_sigma o * w k)) with ((1 - ou_theta o) * (x - y)) by ring.
  rewrite Rabs_mult, Rmult_assoc. apply Rmult_le_compat_l; [apply Rabs_pos|auto].
Qed.

(** The parameters never change. *)
Lemma ou_call_params : forall o ints a ws, ou_reset (fst (ou_call o ints a ws)) = ou_reset o.
Proof. intros. unfold ou_call. cbv zeta. destruct Nat.eqb; reflexivity. Qed.
Lemma ou_run_params : forall calls o, ou_reset (fst (ou_run o calls)) = ou_reset o.
Proof.
  induction calls as [|[[ints a] ws] r IH]; intros o; simpl; auto.
  destruct (ou_call o ints a ws) as [o1 y] eqn:E. destruct (ou_run o1 r) as [o2 ys] eqn:E2. simpl.
  specialize (IH o1). rewrite E2 in IH. simpl in IH. rewrite IH. rewrite <- (ou_call_params o ints a ws). now rewrite E.
Qed.

Lemma ou_outputs_bounded : forall o n calls k l, ou_noise o = None -> float_calls n calls -> ou_min o <= ou_max o ->
  nth_error (snd (ou_run o calls)) k = Some (Ok l) -> forall i, (i < n)%nat -> act calls k i + ou_min o <= nth i l 0 <= act calls k i + ou_max o.
Proof.
  intros o n calls k l H F B E i Hi. destruct (ou_start_fresh o n H) as [S0 S1]. destruct (@ou_run_path calls o n F S0) as [L P].
  assert (Hk : (k < length calls)%nat) by (rewrite <- L; apply nth_error_Some; congruence).
  destruct (P k Hk) as [l' [E1 [E2 E3]]]. rewrite E in E1. inversion E1; subst l'. rewrite E3 by auto.
  pose proof (@ou_path_bounds o (nth i (ou_start o n) 0) (fun j => draw calls j i) k B). lra.
Qed.

(** Integer actions. *)
Lemma rtrunc_small : forall w, -1 < w < 1 -> rtrunc w = 0.
Proof.
  intros w H. unfold rtrunc. destruct (Rle_dec 0 w).
  - assert (E : Int_part w = 0%Z) by (unfold Int_part; rewrite <- (tech_up w 1); [reflexivity|simpl; lra|simpl; lra]). now rewrite E.
  - assert (E : Int_part (- w) = 0%Z) by (unfold Int_part; rewrite <- (tech_up (- w) 1); [reflexivity|simpl; lra|simpl; lra]). rewrite E. simpl. lra.
Qed.

Lemma ou_int_call : forall o a ws, ou_noise o = None \/ ou_noise o = Some (repeat (ou_mu o) (length a)) -> ou_min o <= ou_mu o <= ou_max o -> length ws = length a -> (forall w, In w ws -> -1 < w < 1) ->
  ou_call o true a ws = (with_noise o (repeat (ou_mu o) (length a)), Ok (map (fun x => x + ou_mu o) a)).
Proof.
  intros o a ws Hn B L W. unfold ou_call. cbv zeta.
  assert (E : match ou_noise o with Some n0 => n0 | None => repeat (ou_mu o) (length a) end = repeat (ou_mu o) (length a)) by (destruct Hn as [-> | ->]; reflexivity).
  rewrite E. assert (Ew : map rtrunc ws = repeat 0 (length a)).
  { rewrite <- L. clear -W. induction ws; simpl; auto. rewrite rtrunc_small by (apply W; now left). f_equal. apply IHws. intros; apply W; now right. }
  rewrite Ew. rewrite !stretch_same by (rewrite ?repeat_length; auto). rewrite !repeat_length, Nat.eqb_refl.
  assert (En : map (fun xw => clip (fst xw + (ou_theta o * (ou_mu o - fst xw) + ou_sigma o * snd xw)) (ou_min o) (ou_max o)) (combine (repeat (ou_mu o) (length a)) (repeat 0 (length a))) = repeat (ou_mu o) (length a)).
  { clear -B. generalize (length a). intros n. induction n as [|n IH]; simpl; [reflexivity|]. rewrite IH. f_equal.
    replace (ou_mu o + (ou_theta o * (ou_mu o - ou_mu o) + ou_sigma o * 0)) with (ou_mu o) by ring. now apply clip_in. }
  rewrite En. unfold with_noise. f_equal. f_equal. clear. induction a; simpl; auto. now f_equal.
Qed.

Lemma ou_mismatch : forall o ints a ws noise, ou_noise o = Some noise -> length ws = length a -> length a <> length noise -> length a <> 1%nat ->
  ou_call o ints a ws = (o, Err EValue).
Proof.
  intros [mu sg th mn mx nz] ints a ws noise H L D1 D2. simpl in H. subst nz. unfold ou_call. cbv zeta. simpl.
  assert (E : forall l : list R, length l = length a -> match l with [x] => repeat x (length noise) | _ => l end = l) by (intros [|x [|y l]] Hl; simpl in *; auto; lia).
  rewrite E by (destruct ints; rewrite ?map_length; auto).
  destruct (Nat.eqb_spec (length (if ints then map rtrunc ws else ws)) (length noise)) as [Q|Q]; [|reflexivity].
  exfalso. apply D1. rewrite <- L, <- Q. destruct ints; rewrite ?map_length; auto.
Qed.

(** * Environment attributes *)

Lemma get_env_attr_spec : forall V (e : layers V) d max_depth,
  match get_env_attr e d max_depth with
  | Ok v => (exists i, (i < max_depth)%nat /\ nth_error e i = Some (Some v) /\ forall j, (j < i)%nat -> nth_error e j = Some None) \/ ((forall i, (i < max_depth)%nat -> forall x, nth_error e i <> Some (Some x)) /\ d = Some v)
  | Err x => x = EAttribute /\ d = None /\ forall i, (i < max_depth)%nat -> forall x, nth_error e i <> Some (Some x)
  end.
Proof.
  intros V e d m. revert e. induction m as [|m IH]; intros [|[v|] e]; simpl.
  - destruct d; [right; split; auto; intros; lia|repeat split; auto; intros; lia].
  - destruct d; [right; split; auto; intros; lia|repeat split; auto; intros; lia].
  - destruct d; [right; split; auto; intros; lia|repeat split; auto; intros; lia].
  - destruct d; [right; split; auto; intros [|i] ? ?; discriminate|repeat split; auto; intros [|i] ? ?; discriminate].
  - left. exists 0%nat. split; [lia|]. split; auto. intros. lia.
  - specialize (IH e). destruct (get_env_attr e d m) as [v|x].
    + destruct IH as [[i [A [B C]]]|[A B]].
      * left. exists (S i). split; [lia|]. split; auto. intros [|j] Hj; auto. simpl. apply C. lia.
      * right. split; auto. intros [|i] Hi x; simpl; [discriminate|]. apply A. lia.
    + destruct IH as [A [B C]]. repeat split; auto. intros [|i] Hi y; simpl; [discriminate|]. apply C. lia.
Qed.
Lemma has_get : forall V (e : layers V) m, has_env_attr e m = is_ok (get_env_attr e None m).
Proof. intros V e m. revert e. induction m; intros [|[v|] e]; simpl; auto. Qed.
Lemma has_env_attr_spec : forall V (e : layers V) m, has_env_attr e m = true <-> exists i v, (i < m)%nat /\ nth_error e i = Some (Some v) /\ forall j, (j < i)%nat -> nth_error e j = Some None.
Proof.
  intros V e m. rewrite has_get. pose proof (get_env_attr_spec e None m) as H. destruct (get_env_attr e None m) as [v|x]; simpl.
  - split; auto. intros _. destruct H as [[i [A [B C]]]|[_ D]]; [|discriminate]. exists i, v. auto.
  - split; [discriminate|]. intros [i [v [A [B _]]]]. destruct H as [_ [_ H]]. exfalso. exact (H i A v B).
Qed.

(** * Trees *)

Lemma collect_all_ok : forall A (l : list (outcome A)) r, collect_all l = Ok r <-> l = map Ok r.
Proof.
  induction l as [|x l IH]; intros r; simpl.
  - split; [intros H; inversion H; reflexivity|]. destruct r; simpl; [reflexivity|discriminate].
  - destruct x as [a|e]; simpl.
    + destruct (collect_all l) as [m|e] eqn:E; simpl.
      * split; [intros H; inversion H; subst; simpl; f_equal; now apply IH|].
        destruct r; simpl; [discriminate|]. intros H. inversion H; subst. f_equal. f_equal. pose proof (proj2 (IH r) eq_refl) as Q. now inversion Q.
      * split; [discriminate|]. destruct r; simpl; [discriminate|]. intros H. inversion H; subst. pose proof (proj2 (IH r) eq_refl) as Q. discriminate.
    + split; [discriminate|]. destruct r; simpl; discriminate.
Qed.
Lemma collect_all_map : forall A B (f : A -> outcome B) (g : A -> B) l, (forall x, In x l -> f x = Ok (g x)) -> collect_all (map f l) = Ok (map g l).
Proof. intros. apply collect_all_ok. rewrite map_map. apply map_ext_in. auto. Qed.

(** Induction principles for the nested types. *)
Section ArrInd.
Variable P : arr -> Prop.
Hypothesis HS : forall x, P (AScal x).
Hypothesis HA : forall l, (forall a, In a l -> P a) -> P (AArr l).
Fixpoint arr_ind' (a : arr) : P a :=
  match a with
  | AScal x => HS x
  | AArr l => HA l ((fix go (l : list arr) : forall a, In a l -> P a :=
      match l with
      | [] => fun a H => match H with end
      | b :: r => fun a H => match H with or_introl e => eq_ind b P (arr_ind' b) a e | or_intror H' => go r a H' end
      end) l)
  end.
End ArrInd.
Section TreeInd.
Variable P : tree -> Prop.
Hypothesis HL : forall a, P (TLeaf a).
Hypothesis HN : forall l, (forall t, In t l -> P t) -> P (TNode l).
Fixpoint tree_ind' (a : tree) : P a :=
  match a with
  | TLeaf x => HL x
  | TNode l => HN l ((fix go (l : list tree) : forall a, In a l -> P a :=
      match l with
      | [] => fun a H => match H with end
      | b :: r => fun a H => match H with or_introl e => eq_ind b P (tree_ind' b) a e | or_intror H' => go r a H' end
      end) l)
  end.
End TreeInd.

Lemma collect_all_inv : forall A B C (f : A -> outcome B) (g : B -> outcome C) (h : A -> C) l r,
  (forall x b, In x l -> f x = Ok b -> g b = Ok (h x)) -> collect_all (map f l) = Ok r -> collect_all (map g r) = Ok (map h l).
Proof.
  induction l as [|x l IH]; intros r H E; simpl in *; [inversion E; reflexivity|].
  destruct (f x) as [b|] eqn:Ef; simpl in E; [|discriminate]. destruct (collect_all (map f l)) as [m|] eqn:Em; simpl in E; [|discriminate].
  inversion E; subst. simpl. rewrite (H x b) by auto. simpl. rewrite (IH m) by auto. reflexivity.
Qed.

Lemma squeeze_expand : forall k x y, expand_dims k x = Ok y -> squeeze k y = Ok x.
Proof.
  induction k as [|k IH]; intros x y H; simpl in H; [inversion H; reflexivity|].
  destruct x as [v|l]; [discriminate|]. destruct (collect_all (map (expand_dims k) l)) as [m|] eqn:E; [|discriminate]. simpl in H. inversion H; subst. cbn [squeeze].
  rewrite (@collect_all_inv _ _ _ (expand_dims k) (squeeze k) (fun x => x) l m) by (auto; intros; now apply IH). simpl. now rewrite map_id.
Qed.

Lemma tree_map_inv : forall f g, (forall x y, f x = Ok y -> g y = Ok x) -> forall t u, tree_map f t = Ok u -> tree_map g u = Ok t.
Proof.
  intros f g H. induction t as [a|l IH] using tree_ind'; intros u E; simpl in E.
  - destruct (f a) as [b|] eqn:Ef; [|discriminate]. simpl in E. inversion E; subst. simpl. now rewrite (H _ _ Ef).
  - destruct (collect_all (map (tree_map f) l)) as [m|] eqn:Em; [|discriminate]. simpl in E. inversion E; subst. simpl.
    rewrite (@collect_all_inv _ _ _ (tree_map f) (tree_map g) (fun x => x) l m) by auto. simpl. now rewrite map_id.
Qed.

Lemma along_inv : forall a t u, along expand_dims a t = Ok u -> along squeeze a u = Ok t.
Proof. intros [k|] t u H; simpl in *; [|now inversion H]. revert H. apply tree_map_inv. apply squeeze_expand. Qed.
Lemma zip_along_inv : forall l ts us, length l = length ts -> zip_along expand_dims l ts = Ok us -> zip_along squeeze l us = Ok ts /\ length us = length ts.
Proof.
  induction l as [|a l IH]; intros [|t ts] us L H; simpl in *; try discriminate; [inversion H; auto|].
  destruct (along expand_dims a t) as [x|] eqn:E; [|discriminate]. simpl in H. destruct (zip_along expand_dims l ts) as [r|] eqn:E2; [|discriminate]. simpl in H. inversion H; subst.
  destruct (IH ts r ltac:(lia) E2) as [I1 I2]. cbn [zip_along]. rewrite (along_inv _ _ E). simpl. rewrite I1. simpl. split; auto.
Qed.

Lemma axes_for_length : forall ax n, (match ax with AxAll _ => True | AxEach l => length l = n end) -> length (axes_for ax n) = n.
Proof. intros [a|l] n H; simpl; auto. apply repeat_length. Qed.

Lemma unvectorize_inverts : forall g f ia oa, batched g ia oa f -> forall args vargs, length (axes_for ia (length args)) = length args ->
  zip_along expand_dims (axes_for ia (length args)) args = Ok vargs -> unvectorize f ia oa args = g args.
Proof.
  intros g f ia oa B args vargs L E. unfold unvectorize. cbv zeta. rewrite L, Nat.eqb_refl. simpl. rewrite E. simpl.
  specialize (B _ _ L E). destruct (g args) as [[t|l]|e].
  - destruct B as [a [b [-> [E1 E2]]]]. rewrite E2. simpl. now rewrite (along_inv _ _ E1).
  - destruct B as [L2 [m [E1 E2]]]. rewrite E2. simpl. destruct (@zip_along_inv (axes_for oa (length l)) l m (eq_sym L2) E1) as [I1 I2].
    rewrite I2. rewrite <- L2, Nat.eqb_refl. simpl. now rewrite I1.
  - now rewrite B.
Qed.

Lemma unvectorize_errors : forall f ia oa args,
  (forall l, ia = AxEach l -> length l <> length args -> unvectorize f ia oa args = Err EValue) /\
  (forall vargs t l, length (axes_for ia (length args)) = length args -> zip_along expand_dims (axes_for ia (length args)) args = Ok vargs -> f vargs = Ok (FOne t) -> oa = AxEach l -> unvectorize f ia oa args = Err EType) /\
  (forall vargs ts l, length (axes_for ia (length args)) = length args -> zip_along expand_dims (axes_for ia (length args)) args = Ok vargs -> f vargs = Ok (FTuple ts) -> oa = AxEach l -> length l <> length ts -> unvectorize f ia oa args = Err EValue).
Proof.
  intros f ia oa args. split; [|split].
  - intros l -> H. unfold unvectorize. simpl. destruct (Nat.eqb_spec (length args) (length l)); [congruence|reflexivity].
  - intros vargs t l L E F ->. unfold unvectorize. cbv zeta. rewrite L, Nat.eqb_refl. simpl. rewrite E. simpl. now rewrite F.
  - intros vargs ts l L E F -> H. unfold unvectorize. cbv zeta. rewrite L, Nat.eqb_refl. simpl. rewrite E. simpl. rewrite F. simpl. destruct (Nat.eqb_spec (length ts) (length l)); [congruence|reflexivity].
Qed.

Lemma tree_map_total : forall f, (forall a, exists b, f a = Ok b) -> forall t, exists u, tree_map f t = Ok u.
Proof.
  intros f H. induction t as [a|l IH] using tree_ind'.
  - destruct (H a) as [b E]. exists (TLeaf b). simpl. now rewrite E.
  - assert (Q : exists m, collect_all (map (tree_map f) l) = Ok m).
    { induction l as [|x l IHl]; [exists []; reflexivity|]. destruct (IH x (or_introl eq_refl)) as [u E]. destruct IHl as [m E2]; [intros; apply IH; now right|].
      exists (u :: m). cbn [map collect_all]. rewrite E. cbn [bind]. rewrite E2. reflexivity. }
    destruct Q as [m E]. exists (TNode m). cbn [tree_map]. now rewrite E.
Qed.
Lemma single_batch : forall jaxarr t, exists u, single_to_batch t = Ok u /\ batch_to_single jaxarr 0 u = Ok t.
Proof.
  intros jx t. destruct (@tree_map_total (expand_dims 0)) with (t := t) as [u E]; [intros a; eexists; reflexivity|].
  exists u. split; auto. revert E. apply tree_map_inv. intros x y H. simpl in H. inversion H; subst. destruct jx; reflexivity.
Qed.

(** Stacking. *)
Lemma shape_eqb_iff : forall x y, shape_eqb x y = true <-> same_shape x y.
Proof.
  induction x as [v|l IH] using arr_ind'; intros [w|m]; simpl; try (split; [discriminate|tauto]); [tauto|].
  revert m. induction l as [|a l IHl]; intros [|b m]; simpl; try (split; [discriminate|tauto]); [tauto|].
  rewrite andb_true_iff. rewrite IH by now left. rewrite IHl by (intros; apply IH; now right). tauto.
Qed.

Lemma arr_index_in : forall jx l i a, nth_error l i = Some a -> arr_index jx (Z.of_nat i) (AArr l) = Ok a.
Proof.
  intros jx l i a H. assert (i < length l)%nat by (apply nth_error_Some; congruence).
  unfold arr_index. destruct (Z.ltb_spec (Z.of_nat i) 0); [lia|].
  assert (E : (if jx then Z.max 0 (Z.min (Z.of_nat i) (Z.of_nat (length l) - 1)) else Z.of_nat i) = Z.of_nat i) by (destruct jx; lia).
  rewrite E. destruct (Z.leb_spec 0 (Z.of_nat i)); [|lia]. destruct (Z.ltb_spec (Z.of_nat i) (Z.of_nat (length l))); [|lia]. simpl. rewrite Nat2Z.id, H. reflexivity.
Qed.
Lemma arr_index_negative : forall jx l i, (1 <= i <= length l)%nat -> arr_index jx (- Z.of_nat i) (AArr l) = arr_index jx (Z.of_nat (length l - i)) (AArr l).
Proof.
  intros jx l i H. unfold arr_index. destruct (Z.ltb_spec (- Z.of_nat i) 0); [|lia]. destruct (Z.ltb_spec (Z.of_nat (length l - i)) 0); [lia|].
  replace (- Z.of_nat i + Z.of_nat (length l))%Z with (Z.of_nat (length l - i)) by lia. reflexivity.
Qed.
Lemma arr_index_out : forall l i, l <> [] -> (Z.of_nat (length l) <= i)%Z -> arr_index false i (AArr l) = Err EIndex /\ arr_index true i (AArr l) = arr_index true (Z.of_nat (length l - 1)) (AArr l).
Proof.
  intros l i N H. assert (length l <> 0)%nat by (destruct l; simpl; [congruence|lia]). unfold arr_index.
  destruct (Z.ltb_spec i 0); [lia|]. destruct (Z.ltb_spec (Z.of_nat (length l - 1)) 0); [lia|]. split.
  - destruct (Z.leb_spec 0 i); [|lia]. destruct (Z.ltb_spec i (Z.of_nat (length l))); [lia|]. reflexivity.
  - replace (Z.max 0 (Z.min i (Z.of_nat (length l) - 1))) with (Z.max 0 (Z.min (Z.of_nat (length l - 1)) (Z.of_nat (length l) - 1))) by lia. reflexivity.
Qed.

Lemma jstack_ok : forall x r, (forall y, In y r -> same_shape x y) -> jstack (x :: r) = Ok (AArr (x :: r)).
Proof. intros x r H. unfold jstack. rewrite (proj2 (forallb_forall _ _)); auto. intros y Hy. apply shape_eqb_iff. auto. Qed.
Lemma jstack_bad : forall x r y, In y r -> ~ same_shape x y -> jstack (x :: r) = Err EValue.
Proof. intros x r y Hy H. unfold jstack. destruct (forallb (shape_eqb x) r) eqn:E; auto. rewrite forallb_forall in E. apply E in Hy. apply shape_eqb_iff in Hy. tauto. Qed.

(** Rows of the stack of trees of the same structure are the trees. *)
Lemma same_tree_leaf : forall x t, same_tree (TLeaf x) t -> exists y, t = TLeaf y /\ same_shape x y.
Proof. intros x [y|l] H; simpl in H; [eauto|tauto]. Qed.
Lemma same_tree_node : forall l t, same_tree (TNode l) t -> exists m, t = TNode m /\ length m = length l /\ forall i a b, nth_error l i = Some a -> nth_error m i = Some b -> same_tree a b.
Proof.
  intros l [y|m] H; [simpl in H; tauto|]. exists m. split; auto. revert m H. induction l as [|a l IH]; intros [|b m] H; simpl in H; try tauto.
  - split; auto. intros [|i] ? ? ?; discriminate.
  - destruct H as [H1 H2]. destruct (IH m H2) as [E1 E2]. split; [simpl; lia|]. intros [|i] x y Hx Hy; simpl in *; [congruence|eauto].
Qed.
Lemma tree_heads_ok : forall x rest, (forall t, In t rest -> same_tree (TLeaf x) t) -> exists l, tree_heads rest = Some l /\ rest = map TLeaf l /\ forall y, In y l -> same_shape x y.
Proof.
  induction rest as [|t rest IH]; intros H; simpl; [exists []; split; [reflexivity|split; [reflexivity|intros ? []]]|].
  destruct (@same_tree_leaf x t) as [y [-> Hy]]; [apply H; now left|]. destruct IH as [l [-> [-> E]]]; [intros; apply H; now right|].
  exists (y :: l). repeat split; auto. intros z [<-|Hz]; auto.
Qed.
Lemma tree_kids_ok : forall l rest, (forall t, In t rest -> same_tree (TNode l) t) -> exists rows, tree_kids (length l) rest = Some rows /\ rest = map TNode rows /\ forall r, In r rows -> length r = length l /\ forall i a b, nth_error l i = Some a -> nth_error r i = Some b -> same_tree a b.
Proof.
  induction rest as [|t rest IH]; intros H; simpl; [exists []; split; [reflexivity|split; [reflexivity|intros ? []]]|].
  destruct (@same_tree_node l t) as [m [-> [Hm Hs]]]; [apply H; now left|]. destruct IH as [rows [E1 [-> E]]]; [intros; apply H; now right|].
  rewrite Hm, Nat.eqb_refl, E1. exists (m :: rows). split; [reflexivity|]. split; [reflexivity|]. intros r [<-|Hr]; auto.
Qed.

Lemma stack_rows : forall t rest jx, (forall u, In u rest -> same_tree t u) -> exists s, tree_map_list jstack t rest = Ok s /\
  forall i u, nth_error (t :: rest) i = Some u -> batch_to_single jx (Z.of_nat i) s = Ok u.
Proof.
  induction t as [x|l IH] using tree_ind'; intros rest jx H.
  - destruct (@tree_heads_ok x rest H) as [m [E1 [-> E2]]]. cbn [tree_map_list]. rewrite E1, (@jstack_ok x m E2). cbn [bind]. eexists. split; [reflexivity|].
    intros i u Hu. unfold batch_to_single. cbn [tree_map]. change (TLeaf x :: map TLeaf m) with (map TLeaf (x :: m)) in Hu. rewrite nth_error_map in Hu.
    destruct (nth_error (x :: m) i) as [a|] eqn:Ea; [|discriminate]. simpl in Hu. inversion Hu; subst. rewrite (arr_index_in jx _ _ Ea). reflexivity.
  - destruct (@tree_kids_ok l rest H) as [rows [E1 [-> E2]]]. cbn [tree_map_list]. rewrite E1. clear H E1.
    set (go := fix go (i : nat) (l : list tree) : outcome (list tree) :=
             match l with
             | [] => Ok []
             | t' :: l' => bind (tree_map_list jstack t' (map (fun r => nth i r (TNode [])) rows)) (fun x => bind (go (S i) l') (fun r => Ok (x :: r)))
             end).
    assert (Q : forall l2 l1, l = l1 ++ l2 -> exists m, go (length l1) l2 = Ok m /\ length m = length l2 /\
      forall j s, nth_error m j = Some s -> (forall t, nth_error l2 j = Some t -> batch_to_single jx 0 s = Ok t) /\ forall i r t, nth_error rows i = Some r -> nth_error r (length l1 + j) = Some t -> batch_to_single jx (Z.of_nat (S i)) s = Ok t).
    { induction l2 as [|t l2 IHl]; intros l1 El; simpl.
      - exists []. repeat split; auto; destruct j; discriminate.
      - destruct (IH t) with (rest := map (fun r => nth (length l1) r (TNode [])) rows) (jx := jx) as [s [Es Hs]].
        + rewrite El. apply in_or_app. right. now left.
        + intros u Hu. apply in_map_iff in Hu. destruct Hu as [r [<- Hr]]. destruct (E2 r Hr) as [Lr Sr]. apply (Sr (length l1)).
          * rewrite El, nth_error_app2, Nat.sub_diag by lia. reflexivity.
          * apply nth_error_nth'. rewrite Lr, El, app_length. simpl. lia.
        + rewrite Es. cbn [bind]. destruct (IHl (l1 ++ [t])) as [m [Em [Lm Hm]]]; [rewrite El, <- app_assoc; reflexivity|].
          rewrite app_length in Em, Hm. simpl in Em, Hm. replace (length l1 + 1)%nat with (S (length l1)) in Em by lia. rewrite Em. cbn [bind]. exists (s :: m). split; auto. split; [simpl; lia|].
          intros [|j] s' Hs'; cbn [nth_error] in Hs'.
          * inversion Hs'; subst s'. split; [intros t' Ht'; cbn [nth_error] in Ht'; inversion Ht'; subst; apply (Hs 0%nat); reflexivity|].
            intros i r t' Hr Ht'. apply (Hs (S i)). cbn [nth_error]. rewrite nth_error_map, Hr. cbn [option_map]. f_equal. rewrite Nat.add_0_r in Ht'. now apply nth_error_nth.
          * destruct (Hm j s' Hs') as [A B]. split; [exact A|]. intros i r t' Hr Ht'. apply (B i r t' Hr). now replace (length l1 + 1 + j)%nat with (length l1 + S j)%nat by lia. }
    destruct (Q l [] eq_refl) as [m [Em [Lm Hm]]]. simpl in Em. rewrite Em. cbn [bind]. exists (TNode m). split; auto.
    intros i u Hu. unfold batch_to_single. cbn [tree_map].
    assert (R : exists r, u = TNode r /\ length r = length l /\ forall j s t, nth_error m j = Some s -> nth_error r j = Some t -> batch_to_single jx (Z.of_nat i) s = Ok t).
    { destruct i as [|i]; cbn [nth_error] in Hu.
      - inversion Hu; subst. exists l. split; auto. split; auto. intros j s t Hs Ht. simpl. now apply (proj1 (Hm j s Hs)).
      - rewrite nth_error_map in Hu. destruct (nth_error rows i) as [r|] eqn:Er; [|discriminate]. simpl in Hu. inversion Hu; subst. exists r. split; auto.
        split; [apply E2; eapply nth_error_In; eauto|]. intros j s t Hs Ht. eapply (proj2 (Hm j s Hs)); eauto. }
    destruct R as [r [-> [Lr Hr]]]. replace (collect_all (map (tree_map (arr_index jx (Z.of_nat i))) m)) with (Ok r); [reflexivity|]. symmetry. apply collect_all_ok.
    clear -Hr Lr Lm. assert (L : length m = length r) by congruence. clear Lr Lm. revert r Hr L. induction m as [|s m IH]; intros [|t r] Hr L; simpl in *; try discriminate; auto.
    f_equal; [apply (Hr 0%nat); reflexivity|]. apply IH; [|lia]. intros j s' t' Hs Ht. apply (Hr (S j)); auto.
Qed.
