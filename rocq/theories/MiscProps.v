(** Properties C89-C101: action noise, environment helpers, preprocessors, pytree helpers, meta-policies, DeepMind Control. *)
From Coq Require Import List ZArith Bool Reals Lra Lia Permutation.
From Verif Require Import PyCommon CommonProofs UtilsModel UtilsSpec UtilsProofs2 WrappersProofs MiscModel MiscSpec MiscProofs MiscProofs2 MiscProofs4 MiscProofs3.
Import ListNotations.
Local Open Scope R_scope.
Set Implicit Arguments.

(** * C89: Ornstein-Uhlenbeck noise *)

(** Every call returns the action plus the process X of the documentation, which starts at mu. *)
Theorem C89_noise_follows_the_process : forall o n calls, ou_noise o = None -> float_calls n calls -> exists X : nat -> nat -> R,
  (forall i, X 0%nat i = ou_mu o) /\
  (forall k i, X (S k) i = clip (X k i - ou_theta o * (X k i - ou_mu o) + ou_sigma o * draw calls k i) (ou_min o) (ou_max o)) /\
  length (snd (ou_run o calls)) = length calls /\
  forall k, (k < length calls)%nat -> exists l, nth_error (snd (ou_run o calls)) k = Some (Ok l) /\ length l = n /\ forall i, (i < n)%nat -> nth i l 0 = act calls k i + X (S k) i.
Proof. exact ou_process. Qed.
Print Assumptions C89_noise_follows_the_process.
Example C89_noise_follows_the_process_ex : ou_noise (ou_new 0 1 (/ 2) None None) = None /\ float_calls 2 [(false, [1; 2], [3; 4]); (false, [0; 0], [1; -1])].
Proof. split; [reflexivity|]. intros c [<-|[<-|[]]]; auto. Qed.

(** As long as the bounds are not met, X is the discounted sum of the draws. *)
Theorem C89_noise_closed_form : forall o n calls k i, ou_noise o = None -> float_calls n calls -> (k < length calls)%nat -> (i < n)%nat ->
  (forall j, (1 <= j <= S k)%nat -> ou_min o <= ou_mu o + ou_sigma o * discounted (1 - ou_theta o) (fun t => draw calls t i) j <= ou_max o) ->
  exists l, nth_error (snd (ou_run o calls)) k = Some (Ok l) /\ nth i l 0 = act calls k i + (ou_mu o + ou_sigma o * discounted (1 - ou_theta o) (fun t => draw calls t i) (S k)).
Proof. exact ou_closed. Qed.
Print Assumptions C89_noise_closed_form.
Example C89_noise_closed_form_ex : let o := ou_new 0 1 (/ 2) None None in let calls := [(false, [1], [2]); (false, [1], [4])] in
  float_calls 1 calls /\ (forall j, (1 <= j <= 2)%nat -> ou_min o <= ou_mu o + ou_sigma o * discounted (1 - ou_theta o) (fun t => draw calls t 0%nat) j <= ou_max o).
Proof. cbv zeta. split; [intros c [<-|[<-|[]]]; auto|]. intros j Hj. destruct j as [|[|[|j]]]; try lia; unfold draw; simpl; lra. Qed.

(** The noise stays within the bounds, so the output stays within the shifted bounds. *)
Theorem C89_noise_bounded : forall o n calls k l, ou_noise o = None -> float_calls n calls -> ou_min o <= ou_max o ->
  nth_error (snd (ou_run o calls)) k = Some (Ok l) -> forall i, (i < n)%nat -> act calls k i + ou_min o <= nth i l 0 <= act calls k i + ou_max o.
Proof. exact ou_outputs_bounded. Qed.
Print Assumptions C89_noise_bounded.
Example C89_noise_bounded_ex : let o := ou_new 0 1 (/ 2) (Some (-1)) (Some 1) in ou_noise o = None /\ float_calls 1 [(false, [1], [2])] /\ ou_min o <= ou_max o.
Proof. cbv zeta. split; [reflexivity|]. split; [intros c [<-|[]]; auto|simpl; lra]. Qed.

(** The documentation says that the bounds are for clipping the output action: the output can be outside. *)
Theorem C89_output_clipped_refuted : exists o a w l, ou_noise o = None /\ snd (ou_call o false [a] [w]) = Ok [l] /\ ou_min o <= a <= ou_max o /\ l > ou_max o.
Proof.
  exists (ou_new 0 1 (/ 2) (Some (-1)) (Some 1)), 1, 1, 2. split; [reflexivity|]. split; [|split; simpl; lra].
  unfold ou_call. simpl. f_equal. f_equal. rewrite clip_in; lra.
Qed.
Print Assumptions C89_output_clipped_refuted.

(** The influence of the current noise dies out geometrically: same draws, different noise. *)
Theorem C89_noise_forgets : forall o o' n calls k l l', ou_mu o' = ou_mu o -> ou_sigma o' = ou_sigma o -> ou_theta o' = ou_theta o -> ou_min o' = ou_min o -> ou_max o' = ou_max o ->
  float_calls n calls -> length (ou_start o n) = n -> length (ou_start o' n) = n ->
  nth_error (snd (ou_run o calls)) k = Some (Ok l) -> nth_error (snd (ou_run o' calls)) k = Some (Ok l') ->
  forall i, (i < n)%nat -> Rabs (nth i l 0 - nth i l' 0) <= Rabs (1 - ou_theta o) ^ S k * Rabs (nth i (ou_start o n) 0 - nth i (ou_start o' n) 0).
Proof.
  intros o o' n calls k l l' P1 P2 P3 P4 P5 F S0 S0' H H' i Hi.
  destruct (@ou_run_path calls o n F S0) as [L P]. destruct (@ou_run_path calls o' n F S0') as [L' P'].
  assert (Hk : (k < length calls)%nat) by (rewrite <- L; apply nth_error_Some; congruence).
  destruct (P k Hk) as [m [E1 [_ E2]]]. destruct (P' k Hk) as [m' [E1' [_ E2']]]. rewrite H in E1. rewrite H' in E1'. inversion E1; inversion E1'; subst m m'. rewrite E2, E2' by auto.
  assert (Q : forall x w j, ou_path o' x w j = ou_path o x w j) by (intros x w j; induction j as [|j IH]; [reflexivity|simpl; rewrite IH; unfold ou_next; now rewrite P1, P2, P3, P4, P5]).
  rewrite Q. eapply Rle_trans; [|apply (@ou_path_forget o _ _ (fun j => draw calls j i) (S k))]. right. f_equal. ring.
Qed.
Print Assumptions C89_noise_forgets.
Example C89_noise_forgets_ex : let o := mkOU 0 1 (/ 2) (-5) 5 (Some [1]) in let o' := mkOU 0 1 (/ 2) (-5) 5 (Some [2]) in
  length (ou_start o 1) = 1%nat /\ length (ou_start o' 1) = 1%nat /\ float_calls 1 [(false, [0], [1])] /\ snd (ou_run o [(false, [0], [1])]) = [Ok [3 / 2]] /\ snd (ou_run o' [(false, [0], [1])]) = [Ok [2]].
Proof.
  cbv zeta. split; [reflexivity|]. split; [reflexivity|]. split; [intros c [<-|[]]; auto|]. unfold ou_run, ou_call. cbn -[clip]. rewrite !clip_in by lra. split; do 3 f_equal; lra.
Qed.

(** reset() restarts the process: whatever was called before, the same later calls give the same results as on a new object. *)
Theorem C89_reset_is_fresh : forall mu sigma theta lo hi before calls,
  ou_run (ou_reset (fst (ou_run (ou_new mu sigma theta lo hi) before))) calls = ou_run (ou_new mu sigma theta lo hi) calls.
Proof. intros. rewrite ou_run_params. reflexivity. Qed.
Print Assumptions C89_reset_is_fresh.
Example C89_reset_is_fresh_ex : ou_noise (fst (ou_run (ou_new 0 1 0 None None) [(false, [1], [1])])) <> None.
Proof. unfold ou_run, ou_call. simpl. discriminate. Qed.

(** Integer actions: draws below one in magnitude are cut to zero, so nothing is ever added but mu. *)
Theorem C89_integer_actions_get_no_small_noise : forall o a ws, ou_noise o = None \/ ou_noise o = Some (repeat (ou_mu o) (length a)) -> ou_min o <= ou_mu o <= ou_max o ->
  length ws = length a -> (forall w, In w ws -> -1 < w < 1) ->
  snd (ou_call o true a ws) = Ok (map (fun x => x + ou_mu o) a) /\ ou_noise (fst (ou_call o true a ws)) = Some (repeat (ou_mu o) (length a)).
Proof. intros. rewrite ou_int_call by auto. auto. Qed.
Print Assumptions C89_integer_actions_get_no_small_noise.
Example C89_integer_actions_get_no_small_noise_ex : let o := ou_new 0 1 (/ 2) None None in ou_min o <= ou_mu o <= ou_max o /\ (forall w, In w [/ 2; - / 2] -> -1 < w < 1).
Proof. cbv zeta. split; [simpl; lra|]. intros w [<-|[<-|[]]]; lra. Qed.

(** An action of another shape than the running noise is refused and does not disturb the process. *)
Theorem C89_shape_change_rejected : forall o ints a ws noise, ou_noise o = Some noise -> length ws = length a -> length a <> length noise -> length a <> 1%nat -> ou_call o ints a ws = (o, Err EValue).
Proof. exact ou_mismatch. Qed.
Print Assumptions C89_shape_change_rejected.
Example C89_shape_change_rejected_ex : ou_call (mkOU 0 1 1 (-1) 1 (Some [0])) false [1; 2] [0; 0] = (mkOU 0 1 1 (-1) 1 (Some [0]), Err EValue).
Proof. reflexivity. Qed.

(** * C90: attributes of wrapped environments *)

Theorem C90_get_env_attr_outermost : forall V (e : layers V) default max_depth,
  match get_env_attr e default max_depth with
  | Ok v => (exists i, (i < max_depth)%nat /\ nth_error e i = Some (Some v) /\ forall j, (j < i)%nat -> nth_error e j = Some None) \/ ((forall i, (i < max_depth)%nat -> forall x, nth_error e i <> Some (Some x)) /\ default = Some v)
  | Err x => x = EAttribute /\ default = None /\ forall i, (i < max_depth)%nat -> forall x, nth_error e i <> Some (Some x)
  end.
Proof. exact get_env_attr_spec. Qed.
Print Assumptions C90_get_env_attr_outermost.
Example C90_get_env_attr_outermost_ex : get_env_attr [None; Some 3%nat; Some 4%nat] None 100 = Ok 3%nat /\ get_env_attr [None; None] (Some 7%nat) 100 = Ok 7%nat /\ get_env_attr [None; None] (@None nat) 100 = Err EAttribute.
Proof. repeat split. Qed.

Theorem C90_has_iff_get : forall V (e : layers V) max_depth,
  (has_env_attr e max_depth = true <-> exists i v, (i < max_depth)%nat /\ nth_error e i = Some (Some v) /\ forall j, (j < i)%nat -> nth_error e j = Some None) /\
  (has_env_attr e max_depth = true <-> exists v, get_env_attr e None max_depth = Ok v) /\ (has_env_attr e max_depth = false <-> get_env_attr e None max_depth = Err EAttribute).
Proof.
  intros. split; [apply has_env_attr_spec|]. rewrite has_get. pose proof (get_env_attr_spec e None max_depth) as H. destruct (get_env_attr e None max_depth) as [v|x]; simpl.
  - split; split; try discriminate; eauto.
  - destruct H as [-> _]. split; split; auto; try discriminate. intros [v Q]. discriminate.
Qed.
Print Assumptions C90_has_iff_get.
Example C90_has_iff_get_ex : has_env_attr [None; Some 1%nat] 2 = true /\ has_env_attr [None; Some 1%nat] 1 = false.
Proof. split; reflexivity. Qed.

(** More wrappers than max_depth: the attribute is reported missing although the environment has it. *)
Theorem C90_found_at_any_depth_refuted : exists (e : layers nat) i, nth_error e i = Some (Some 1%nat) /\ has_env_attr e 100 = false /\ get_env_attr e None 100 = Err EAttribute.
Proof. exists (repeat None 100 ++ [Some 1%nat]), 100%nat. repeat split. Qed.
Print Assumptions C90_found_at_any_depth_refuted.

(** * C91: default_preprocessor *)

(** Preprocessing a batch gives, row by row, what preprocessing the elements one by one gives, for arbitrarily nested spaces. *)
Theorem C91_batch_is_rows : forall sp vs b, batch_of sp vs b -> exists o, preprocess sp (Many b) = Ok o /\ forall i v, nth_error vs i = Some v -> preprocess sp (One v) = Ok (row_of i o).
Proof. exact preprocess_batch. Qed.
Print Assumptions C91_batch_is_rows.
Example C91_batch_is_rows_ex : batch_of (GNode [(0%nat, GDiscrete 3 0); (1%nat, GMultiDiscrete [2; 2]%nat)])
  [VNode [(0%nat, VInt 2); (1%nat, VInts [0; 1]%Z)]; VNode [(0%nat, VInt 1); (1%nat, VInts [1; 1]%Z)]]
  (BNode [(0%nat, BInt [2; 1]%Z); (1%nat, BInts [[0; 1]; [1; 1]]%Z)]).
Proof.
  apply (@b_node _ [[(0%nat, VInt 2); (1%nat, VInts [0; 1]%Z)]; [(0%nat, VInt 1); (1%nat, VInts [1; 1]%Z)]]).
  apply (@bs_cons 0%nat _ _ [VInt 2; VInt 1] [[(1%nat, VInts [0; 1]%Z)]; [(1%nat, VInts [1; 1]%Z)]]); [simpl; intuition congruence|reflexivity|apply (b_discrete 3 0 [2; 1]%Z)|].
  apply (@bs_cons 1%nat _ _ [VInts [0; 1]%Z; VInts [1; 1]%Z] [[]; []]); [simpl; tauto|reflexivity| |apply (bs_nil 2)].
  apply (@b_multidiscrete [2; 2]%nat [[0; 1]; [1; 1]]%Z). intros v [<-|[<-|[]]]; reflexivity.
Qed.

(** On the elements of a space, preprocessing succeeds and loses no information. *)
Theorem C91_members_distinguished : forall sp v, member sp v -> (exists o, preprocess sp (One v) = Ok o) /\ (zero_based sp -> forall v', member sp v' -> preprocess sp (One v) = preprocess sp (One v') -> v = v').
Proof. exact preprocess_inj. Qed.
Print Assumptions C91_members_distinguished.
Example C91_members_distinguished_ex : let sp := GNode [(0%nat, GDiscrete 3 0); (1%nat, GBox [0] [1])] in member sp (VNode [(0%nat, VInt 2); (1%nat, VVec [/ 2])]) /\ zero_based sp.
Proof.
  cbv zeta. split.
  - apply m_node. apply ms_cons; [simpl; intuition congruence|apply m_discrete; lia|]. apply ms_cons; [simpl; tauto| |apply ms_nil]. apply m_box; [reflexivity|reflexivity|]. intros [|i] Hi; simpl in *; [lra|lia].
  - apply z_node. intros k sp [E|[E|[]]]; inversion E; constructor.
Qed.
(** Without [zero_based] it is false: the one-hot encoding ignores [start], so elements of Discrete(n, start=n) all become the zero vector. *)
Theorem C91_discrete_start_refuted : exists sp v v', member sp v /\ member sp v' /\ v <> v' /\ preprocess sp (One v) = preprocess sp (One v') /\ preprocess sp (One v) = Ok (OMat [[0; 0]]).
Proof.
  exists (GDiscrete 2 2), (VInt 2), (VInt 3). split; [apply m_discrete; lia|]. split; [apply m_discrete; lia|]. split; [discriminate|]. split; reflexivity.
Qed.
Print Assumptions C91_discrete_start_refuted.

(** Box: elements pass unchanged, and whatever comes in, the result lies within the bounds. *)
Theorem C91_box_clipped : forall low high v, length v = length low -> length high = length low ->
  ((forall i, (i < length v)%nat -> nth i low 0 <= nth i v 0 <= nth i high 0) -> preprocess (GBox low high) (One (VVec v)) = Ok (OMat [v])) /\
  ((forall i, (i < length low)%nat -> nth i low 0 <= nth i high 0) -> exists r, preprocess (GBox low high) (One (VVec v)) = Ok (OMat [r]) /\ length r = length low /\ forall i, (i < length low)%nat -> nth i low 0 <= nth i r 0 <= nth i high 0).
Proof.
  intros low high v L1 L2. cbn [preprocess]. rewrite L1, Nat.eqb_refl. split.
  - intros H. rewrite clip_row_in by (auto; rewrite L1 in *; auto). reflexivity.
  - intros H. eexists. split; [reflexivity|]. now apply clip_row_between.
Qed.
Print Assumptions C91_box_clipped.
Example C91_box_clipped_ex : length [5; 0] = length [0; -1] /\ (forall i, (i < 2)%nat -> nth i [0; -1] 0 <= nth i [1; 1] 0).
Proof. split; [reflexivity|]. intros [|[|i]] H; simpl; lra || lia. Qed.

(** A Discrete element becomes the unit vector of its index. *)
Theorem C91_discrete_one_hot : forall n z, (0 <= z < Z.of_nat n)%Z -> exists r, preprocess (GDiscrete n 0) (One (VInt z)) = Ok (OMat [r]) /\ length r = n /\ forall k, (k < n)%nat -> nth k r 0 = if (Z.of_nat k =? z)%Z then 1 else 0.
Proof. intros n z H. eexists. split; [reflexivity|]. split; [apply onehot_length|]. intros. now apply onehot_nth. Qed.
Print Assumptions C91_discrete_one_hot.
Example C91_discrete_one_hot_ex : preprocess (GDiscrete 3 0) (One (VInt 1)) = Ok (OMat [[0; 1; 0]]).
Proof. reflexivity. Qed.

(** Refusals: unsupported spaces (TypeError), a missing entry of a Dict (KeyError), vectors of the wrong length (ValueError). *)
Theorem C91_rejects : forall x k sp l vs bs low high n v zs,
  preprocess GOther x = Err EType /\
  (~ In k (map fst vs) -> preprocess (GNode ((k, sp) :: l)) (One (VNode vs)) = Err EKey) /\
  (~ In k (map fst bs) -> preprocess (GNode ((k, sp) :: l)) (Many (BNode bs)) = Err EKey) /\
  (length v <> length low -> preprocess (GBox low high) (One (VVec v)) = Err EValue) /\
  (length zs <> n -> preprocess (GMultiBinary n) (One (VInts zs)) = Err EValue).
Proof.
  intros x k sp l vs bs low high n v zs. split; [reflexivity|].
  assert (V : ~ In k (map fst vs) -> vget k vs = None).
  { induction vs as [|[j w] vs IH]; intros H; [reflexivity|]. cbn in *. destruct (Nat.eqb_spec k j); [subst; tauto|]. apply IH. tauto. }
  assert (B : ~ In k (map fst bs) -> bget k bs = None).
  { induction bs as [|[j w] bs IH]; intros H; [reflexivity|]. cbn in *. destruct (Nat.eqb_spec k j); [subst; tauto|]. apply IH. tauto. }
  split; [intros H; cbn [preprocess field]; now rewrite (V H)|]. split; [intros H; cbn [preprocess field]; now rewrite (B H)|].
  split; intros H; cbn [preprocess]; now rewrite (proj2 (Nat.eqb_neq _ _) H).
Qed.
Print Assumptions C91_rejects.
Example C91_rejects_ex : ~ In 2%nat (map fst [(0%nat, VInt 1); (1%nat, VInt 2)]) /\ length [1; 2; 3] <> length [0; 0].
Proof. split; [cbn; intuition discriminate|discriminate]. Qed.

(** * C92: unvectorize *)

(** If f does on batches of size one what g does on single instances (in particular if f is the vectorized version of g), then unvectorize gives g back. *)
Theorem C92_unvectorize_inverts : forall g f ia oa, batched g ia oa f -> forall args vargs, length (axes_for ia (length args)) = length args ->
  zip_along expand_dims (axes_for ia (length args)) args = Ok vargs -> unvectorize f ia oa args = g args.
Proof. exact unvectorize_inverts. Qed.
Print Assumptions C92_unvectorize_inverts.
(** A batched function that adds one to every component of its second argument, whatever the batch size; the first argument is not batched. *)
Definition plus_one (args : list tree) : outcome fout :=
  match args with
  | [_; TLeaf (AArr l)] => Ok (FOne (TLeaf (AArr (map (fun a => match a with AScal x => AScal (x + 1) | a => a end) l))))
  | _ => Err EType
  end.
Definition plus_one_single (args : list tree) : outcome fout :=
  match args with
  | [_; TLeaf (AScal x)] => Ok (FOne (TLeaf (AScal (x + 1))))
  | [_; TLeaf a] => Ok (FOne (TLeaf a))
  | _ => Err EType
  end.
Example C92_unvectorize_inverts_ex : batched plus_one_single (AxEach [None; Some 0%nat]) (AxAll (Some 0%nat)) plus_one /\
  unvectorize plus_one (AxEach [None; Some 0%nat]) (AxAll (Some 0%nat)) [TNode []; TLeaf (AScal 2)] = Ok (FOne (TLeaf (AScal (2 + 1)))).
Proof.
  split; [|reflexivity]. intros args vargs L H. destruct args as [|p [|t [|u rest]]]; simpl in L; try discriminate. cbn [axes_for length zip_along along] in H. destruct t as [a|l].
  - simpl in H. inversion H; subst. destruct a as [x|m]; exists (Some 0%nat); eexists; repeat split.
  - destruct (tree_map (expand_dims 0) (TNode l)) as [v|] eqn:E; [|discriminate]. cbn [bind] in H. inversion H; subst.
    cbn [tree_map] in E. destruct (collect_all (map (tree_map (expand_dims 0)) l)); [|discriminate]. simpl in E. inversion E. reflexivity.
Qed.

(** The documented errors: wrong number of in_axes or out_axes, several out_axes for a single output. *)
Theorem C92_unvectorize_errors : forall f ia oa args,
  (forall l, ia = AxEach l -> length l <> length args -> unvectorize f ia oa args = Err EValue) /\
  (forall vargs t l, length (axes_for ia (length args)) = length args -> zip_along expand_dims (axes_for ia (length args)) args = Ok vargs -> f vargs = Ok (FOne t) -> oa = AxEach l -> unvectorize f ia oa args = Err EType) /\
  (forall vargs ts l, length (axes_for ia (length args)) = length args -> zip_along expand_dims (axes_for ia (length args)) args = Ok vargs -> f vargs = Ok (FTuple ts) -> oa = AxEach l -> length l <> length ts -> unvectorize f ia oa args = Err EValue).
Proof. exact unvectorize_errors. Qed.
Print Assumptions C92_unvectorize_errors.
Example C92_unvectorize_errors_ex : unvectorize plus_one (AxEach [None]) (AxAll (Some 0%nat)) [TNode []; TLeaf (AScal 2)] = Err EValue /\
  unvectorize plus_one (AxEach [None; Some 0%nat]) (AxEach [Some 0%nat]) [TNode []; TLeaf (AScal 2)] = Err EType.
Proof. split; reflexivity. Qed.

(** Dropping the axis that expand_dims inserted gives the array back, at every axis. *)
Theorem C92_squeeze_expand : forall axis x y, expand_dims axis x = Ok y -> squeeze axis y = Ok x.
Proof. exact squeeze_expand. Qed.
Print Assumptions C92_squeeze_expand.
Example C92_squeeze_expand_ex : expand_dims 1 (AArr [AScal 1; AScal 2]) = Ok (AArr [AArr [AScal 1]; AArr [AScal 2]]).
Proof. reflexivity. Qed.

(** An axis beyond the rank cannot be inserted, and only an axis of size one can be dropped. *)
Theorem C92_axis_errors : forall k x, (shallower k x -> expand_dims k x = Err EValue) /\ (not_one k x -> squeeze k x = Err EValue).
Proof. intros. split; [apply expand_refused|apply squeeze_refused]. Qed.
Print Assumptions C92_axis_errors.
Example C92_axis_errors_ex : shallower 2 (AArr [AScal 1; AScal 2]) /\ not_one 0 (AArr [AScal 1; AScal 2]) /\ not_one 1 (AArr [AArr [AScal 1]; AArr []]).
Proof.
  split; [apply sh_inside with (AScal 2); [right; now left|constructor]|]. split; [constructor; discriminate|]. apply no_inside with (AArr []); [right; now left|]. constructor. discriminate.
Qed.

(** * C93: batches of trees *)

Theorem C93_single_batch_round_trip : forall jaxarr t, exists u, single_to_batch t = Ok u /\ batch_to_single jaxarr 0 u = Ok t.
Proof. exact single_batch. Qed.
Print Assumptions C93_single_batch_round_trip.
Example C93_single_batch_round_trip_ex : single_to_batch (TNode [TLeaf (AScal 1); TLeaf (AArr [AScal 2])]) = Ok (TNode [TLeaf (AArr [AScal 1]); TLeaf (AArr [AArr [AScal 2]])]).
Proof. reflexivity. Qed.

(** stack_trees of K lists of trees gives K trees whose i-th instance is the i-th tree of the list, up to the length of the shortest list. *)
Theorem C93_stack_trees_rows : forall ls N jaxarr, ls <> [] -> (1 <= N)%nat -> (forall l, In l ls -> (N <= length l)%nat) -> (exists l, In l ls /\ length l = N) ->
  (forall l i a b, In l ls -> (i < N)%nat -> nth_error l 0 = Some a -> nth_error l i = Some b -> same_tree a b) ->
  exists ss, stack_trees ls = Ok (TNode ss) /\ length ss = length ls /\
    forall j i l s t, nth_error ls j = Some l -> nth_error ss j = Some s -> (i < N)%nat -> nth_error l i = Some t -> batch_to_single jaxarr (Z.of_nat i) s = Ok t.
Proof. exact stack_trees_spec. Qed.
Print Assumptions C93_stack_trees_rows.
Example C93_stack_trees_rows_ex : stack_trees [[TLeaf (AScal 1); TLeaf (AScal 2)]; [TNode [TLeaf (AScal 3)]; TNode [TLeaf (AScal 4)]]] = Ok (TNode [TLeaf (AArr [AScal 1; AScal 2]); TNode [TLeaf (AArr [AScal 3; AScal 4])]]).
Proof. reflexivity. Qed.

(** Trees of different structure or shapes are refused, wherever they stand, and so is an empty list. *)
Theorem C93_stack_trees_errors : forall ls N l i a b, ls <> [] -> (forall l, In l ls -> (N <= length l)%nat) -> (exists l, In l ls /\ length l = N) ->
  (In l ls -> (i < N)%nat -> nth_error l 0 = Some a -> nth_error l i = Some b -> ~ same_tree a b -> stack_trees ls = Err EValue) /\
  (N = 0%nat -> stack_trees ls = Err EType) /\ stack_trees [] = Err EType.
Proof.
  intros ls N l i a b H1 H2 H3. split; [now apply stack_trees_differ|]. split; [|reflexivity].
  intros ->. unfold stack_trees. rewrite (@zip_lists_spec _ (TNode []) _ ls 0); [reflexivity|auto|auto|auto|lia].
Qed.
Print Assumptions C93_stack_trees_errors.
Example C93_stack_trees_errors_ex : ~ same_tree (TLeaf (AScal 1)) (TLeaf (AArr [AScal 1])) /\ ~ same_tree (TLeaf (AScal 1)) (TNode [TLeaf (AScal 1)]) /\
  stack_trees [[TLeaf (AScal 1); TLeaf (AScal 2); TNode []]] = Err EValue.
Proof. simpl. tauto. Qed.

(** Instances by index: from the end for negative numbers; beyond the last one numpy arrays raise and jax arrays give the last one. *)
Theorem C93_index_semantics : forall jaxarr l, 
  (forall i a, nth_error l i = Some a -> arr_index jaxarr (Z.of_nat i) (AArr l) = Ok a) /\
  (forall i, (1 <= i <= length l)%nat -> arr_index jaxarr (- Z.of_nat i) (AArr l) = arr_index jaxarr (Z.of_nat (length l - i)) (AArr l)) /\
  (forall i, l <> [] -> (Z.of_nat (length l) <= i)%Z -> arr_index false i (AArr l) = Err EIndex /\ arr_index true i (AArr l) = arr_index true (Z.of_nat (length l - 1)) (AArr l)) /\
  (forall i v, arr_index jaxarr i (AScal v) = Err EIndex).
Proof. intros. split; [intros; now apply arr_index_in|]. split; [intros; now apply arr_index_negative|]. split; [intros; now apply arr_index_out|reflexivity]. Qed.
Print Assumptions C93_index_semantics.
Example C93_index_semantics_ex : arr_index true 7 (AArr [AScal 1; AScal 2]) = Ok (AScal 2) /\ arr_index false (-1) (AArr [AScal 1; AScal 2]) = Ok (AScal 2) /\ arr_index false (-3) (AArr [AScal 1; AScal 2]) = Err EIndex.
Proof. repeat split. Qed.

(** * C94: double_relu *)

(** No signal is lost: the two halves add up to the input, and of every pair one is zero. *)
Theorem C94_double_relu_lossless : forall v, length (double_relu v) = (2 * length v)%nat /\ forall i, (i < length v)%nat ->
  let lo := nth i (double_relu v) 0 in let hi := nth (length v + i) (double_relu v) 0 in lo <= 0 <= hi /\ lo + hi = nth i v 0 /\ (lo = 0 \/ hi = 0).
Proof. exact double_relu_spec. Qed.
Print Assumptions C94_double_relu_lossless.
Example C94_double_relu_lossless_ex : double_relu [-11; 17] = [-11; 0; 0; 17].
Proof. unfold double_relu, relu, Rmax. simpl. repeat destruct Rle_dec; try lra; repeat f_equal; lra. Qed.

Theorem C94_double_relu_injective : forall v w, length v = length w -> double_relu v = double_relu w -> v = w.
Proof.
  intros v w L E. apply (@list_eq_nth _ 0); auto. intros i Hi. destruct (double_relu_spec v) as [_ A]. destruct (double_relu_spec w) as [_ B].
  specialize (A i Hi). rewrite L in Hi. specialize (B i Hi). cbv zeta in *. rewrite E, L in A. destruct A as [_ [A _]]. destruct B as [_ [B _]]. congruence.
Qed.
Print Assumptions C94_double_relu_injective.
Example C94_double_relu_injective_ex : length [1; 2] = length [3; 4]. Proof. reflexivity. Qed.

(** * C95: gradient diagnostics *)

(** The reported numbers are the largest magnitude of any component and the euclidean norm over all components of the whole tree. *)
Theorem C95_grads_diagnostics_global : forall t x, component t x -> exists mx norm, grads_diagnostics t = Ok (mx, norm) /\
  (forall y, component t y -> Rabs y <= mx) /\ (exists y, component t y /\ Rabs y = mx) /\ 0 <= norm /\ norm * norm = sumsq t.
Proof. exact diagnostics_spec. Qed.
Print Assumptions C95_grads_diagnostics_global.
Definition grads_ex : tree := TNode [TLeaf (AArr [AScal 3; AScal (-4)]); TNode [TLeaf (AScal 0)]].
Example C95_grads_diagnostics_global_ex : component grads_ex (-4) /\ sumsq grads_ex = 5 * 5.
Proof. split; [apply comp_node with (TLeaf (AArr [AScal 3; AScal (-4)])); [now left|]; constructor; simpl; auto|unfold grads_ex; simpl; ring]. Qed.

Theorem C95_grads_diagnostics_empty : forall t, (forall x, ~ component t x) -> grads_diagnostics t = Err EValue.
Proof. exact diagnostics_empty. Qed.
Print Assumptions C95_grads_diagnostics_empty.
Example C95_grads_diagnostics_empty_ex : forall x, ~ component (TNode []) x.
Proof. intros x H. inversion H as [|? ? ? Hi]. destruct Hi. Qed.

(** With keep_tree_structure: the diagnostics of every leaf, in the order of the leaves; a leaf without components raises ValueError. *)
Inductive leaf_list : tree -> list arr -> Prop :=
| ll_leaf : forall a, leaf_list (TLeaf a) [a]
| ll_nil : leaf_list (TNode []) []
| ll_cons : forall t ts a b, leaf_list t a -> leaf_list (TNode ts) b -> leaf_list (TNode (t :: ts)) (a ++ b).
Lemma leaf_list_leaves : forall t l, leaf_list t l -> tree_leaves t = l.
Proof. intros t l H. induction H as [a| |t ts a b _ IH1 _ IH2]; [reflexivity|reflexivity|]. cbn [tree_leaves flat_map] in *. now rewrite IH1, IH2. Qed.
Lemma leaf_diag : forall a, leaf_diagnostics (ravel a) = grads_diagnostics (TLeaf a).
Proof. intros a. unfold grads_diagnostics, tree_ravel. cbn [tree_leaves flat_map bind]. now rewrite app_nil_r. Qed.
Theorem C95_grads_diagnostics_leaves : forall t l, leaf_list t l ->
  ((forall a, In a l -> exists x, In x (arr_values a)) -> exists ds, grads_diagnostics_leaves t = Ok ds /\
     Forall2 (fun a d => (forall y, In y (arr_values a) -> Rabs y <= fst d) /\ (exists y, In y (arr_values a) /\ Rabs y = fst d) /\ 0 <= snd d /\ snd d * snd d = sumsq_arr a) l ds) /\
  ((exists a, In a l /\ arr_values a = []) -> grads_diagnostics_leaves t = Err EValue).
Proof.
  intros t l H. unfold grads_diagnostics_leaves. rewrite (leaf_list_leaves H). clear t H.
  assert (D : forall a x, In x (arr_values a) -> exists d, leaf_diagnostics (ravel a) = Ok d /\ (forall y, In y (arr_values a) -> Rabs y <= fst d) /\ (exists y, In y (arr_values a) /\ Rabs y = fst d) /\ 0 <= snd d /\ snd d * snd d = sumsq_arr a).
  { intros a x Hx. destruct (@diagnostics_spec (TLeaf a) x (@comp_leaf a x Hx)) as (mx & norm & E & M1 & (y & Hy & Ey) & N1 & N2). exists (mx, norm). rewrite leaf_diag. split; [exact E|]. cbn [fst snd]. split; [intros z Hz; apply M1; now constructor|]. split; [exists y; split; auto; now inversion Hy|]. auto. }
  induction l as [|a l [IH1 IH2]]; split.
  - intros _. exists []. split; constructor.
  - intros (a & [] & _).
  - intros HV. destruct (HV a (or_introl eq_refl)) as [x Hx]. destruct (D a x Hx) as (d & E & P). destruct IH1 as (ds & E' & P'); [intros b Hb; apply HV; now right|]. exists (d :: ds). cbn [map collect_all]. rewrite E, E'. split; [reflexivity|now constructor].
  - intros (b & [->|Hb] & Eb); cbn [map collect_all].
    + rewrite leaf_diag, diagnostics_empty; [reflexivity|]. intros x Hx. inversion Hx as [? ? Hi|]. subst. rewrite Eb in Hi. destruct Hi.
    + rewrite IH2 by (exists b; auto). destruct (arr_values a) as [|x v] eqn:Ea; [rewrite leaf_diag, diagnostics_empty; [reflexivity|]; intros x Hx; inversion Hx as [? ? Hi|]; subst; rewrite Ea in Hi; destruct Hi|].
      destruct (D a x) as (d & E & _); [rewrite Ea; now left|]. now rewrite E.
Qed.
Print Assumptions C95_grads_diagnostics_leaves.
Example C95_grads_diagnostics_leaves_ex : leaf_list grads_ex [AArr [AScal 3; AScal (-4)]; AScal 0].
Proof. unfold grads_ex. apply (@ll_cons _ _ [AArr [AScal 3; AScal (-4)]] [AScal 0]); [constructor|]. apply (@ll_cons _ _ [AScal 0] []); [|constructor]. apply (@ll_cons _ _ [AScal 0] []); constructor. Qed.

(** Per leaf, the norm is between the maximum and the maximum times the square root of the size. *)
Theorem C95_leaf_norm_bounds : forall v mx norm, leaf_diagnostics v = Ok (mx, norm) -> mx <= norm /\ norm <= sqrt (INR (length v)) * mx.
Proof. exact leaf_diag_bounds. Qed.
Print Assumptions C95_leaf_norm_bounds.
Example C95_leaf_norm_bounds_ex : exists p, leaf_diagnostics [3; -4] = Ok p. Proof. eexists. reflexivity. Qed.

(** get_magnitude_quantiles: ordered; the first and last are attained extremes; in between, enough components lie on either side. *)
Theorem C95_magnitude_quantiles : forall t x, component t x -> exists a b c d e, magnitude_quantiles t = Ok [a; b; c; d; e] /\ a <= b <= c /\ c <= d <= e /\
  (exists y, component t y /\ Rabs y = a) /\ (exists y, component t y /\ Rabs y = e) /\ (forall y, component t y -> a <= Rabs y <= e) /\
  forall q z, (q = / 4 /\ z = b) \/ (q = / 2 /\ z = c) \/ (q = 3 * / 4 /\ z = d) ->
    q * INR (length (values_of t) - 1) < INR (count_le (map Rabs (values_of t)) z) /\ (1 - q) * INR (length (values_of t) - 1) < INR (count_ge (map Rabs (values_of t)) z).
Proof. exact magnitude_quantiles_spec. Qed.
Print Assumptions C95_magnitude_quantiles.
Example C95_magnitude_quantiles_ex : component grads_ex 0.
Proof. apply comp_node with (TNode [TLeaf (AScal 0)]); [right; now left|]. apply comp_node with (TLeaf (AScal 0)); [now left|]. constructor. now left. Qed.

(** The quantiles only depend on the components, not on how they are spread over the tree. *)
Theorem C95_quantiles_order_free : forall t u, Permutation (values_of t) (values_of u) -> values_of t <> [] -> magnitude_quantiles t = magnitude_quantiles u.
Proof.
  intros t u P NE. assert (NE2 : values_of u <> []) by (intros E; rewrite E in P; apply Permutation_sym, Permutation_nil in P; congruence).
  assert (Q : forall t, values_of t <> [] -> tree_ravel t = Ok (values_of t)).
  { intros v Hv. unfold tree_ravel. rewrite <- leaves_values in *. destruct (tree_leaves v); [simpl in Hv; congruence|reflexivity]. }
  unfold magnitude_quantiles. rewrite !Q by auto. cbn [bind]. f_equal. apply map_ext. intros q. apply quantile_perm. now apply Permutation_map.
Qed.
Print Assumptions C95_quantiles_order_free.
Example C95_quantiles_order_free_ex : Permutation (values_of (TLeaf (AArr [AScal 1; AScal 2]))) (values_of (TNode [TLeaf (AScal 2); TLeaf (AScal 1)])).
Proof. simpl. apply perm_swap. Qed.

(** * C96: tree_sample *)

(** All leaves are sampled at the same indices. *)
Theorem C96_tree_sample_joint : forall t n replace axis ix b, check_batch_size t = Ok b -> (replace = true \/ (n <= b)%nat) -> (forall i, In i ix -> (i < b)%nat) ->
  exists u, tree_sample t n replace axis ix = Ok u /\ length (tree_leaves u) = length (tree_leaves t) /\
    forall j l, nth_error (tree_leaves t) j = Some (AArr l) -> nth_error (tree_leaves u) j = Some (AArr (map (fun i => nth i l (AArr [])) ix)).
Proof.
  intros t n replace axis ix b C R I. destruct (@tree_sample_spec t n replace axis ix b C R I) as [u [E1 E2]]. exists u. split; auto. rewrite E2, map_length. split; auto.
  intros j l Hj. rewrite nth_error_map, Hj. reflexivity.
Qed.
Print Assumptions C96_tree_sample_joint.
Example C96_tree_sample_joint_ex : check_batch_size (TNode [TLeaf (AArr [AScal 1; AScal 2]); TLeaf (AArr [AArr [AScal 3]; AArr [AScal 4]])]) = Ok 2%nat /\
  tree_sample (TNode [TLeaf (AArr [AScal 1; AScal 2]); TLeaf (AArr [AArr [AScal 3]; AArr [AScal 4]])]) 1 false 0 [1%nat] = Ok (TNode [TLeaf (AArr [AScal 2]); TLeaf (AArr [AArr [AScal 4]])]).
Proof. split; reflexivity. Qed.

(** Trees whose leaves have no common batch size are refused, and so are samples larger than the batch. *)
Theorem C96_tree_sample_checks : forall t n replace axis ix,
  (forall b, check_batch_size t = Ok b <-> tree_leaves t <> [] /\ forall a, In a (tree_leaves t) -> exists l, a = AArr l /\ length l = b) /\
  (forall e, check_batch_size t = Err e -> tree_sample t n replace axis ix = Err e /\ (e = EType \/ (e = EValue /\ tree_leaves t = []))) /\
  (forall b, check_batch_size t = Ok b -> (b < n)%nat -> tree_sample t n false axis ix = Err EValue).
Proof.
  intros. split; [intros; apply check_batch_size_spec|]. split.
  - intros e H. unfold tree_sample. rewrite H. split; [reflexivity|]. unfold check_batch_size in H. destruct (tree_leaves t) as [|[x|l] r]; [inversion H; auto|inversion H; auto|]. destruct forallb; [discriminate|inversion H; auto].
  - intros b H L. unfold tree_sample. rewrite H. cbn [bind negb andb]. apply Nat.ltb_lt in L. now rewrite L.
Qed.
Print Assumptions C96_tree_sample_checks.
Example C96_tree_sample_checks_ex : check_batch_size (TNode [TLeaf (AArr [AScal 1; AScal 2]); TLeaf (AArr [AScal 3])]) = Err EType. Proof. reflexivity. Qed.

(** The documented [axis] has no effect: asking for a column of a matrix gives a row. *)
Theorem C96_axis_respected_refuted : exists t n ix u, tree_sample t n false 1 ix = Ok u /\ tree_sample t n false 0 ix = Ok u /\
  t = TLeaf (AArr [AArr [AScal 1; AScal 2; AScal 3]; AArr [AScal 4; AScal 5; AScal 6]]) /\ ix = [1%nat] /\ u <> TLeaf (AArr [AArr [AScal 2]; AArr [AScal 5]]).
Proof. eexists. exists 1%nat, [1%nat]. eexists. split; [|split; [|split; [reflexivity|split; [reflexivity|]]]]; [reflexivity|reflexivity|discriminate]. Qed.
Print Assumptions C96_axis_respected_refuted.

(** * C97: MetaPolicyEnv *)

(** After reset, any sequence of valid meta-actions plays the wrapped environment with the selected policies, each fed the latest observation; info carries their actions and log-propensities. *)
Theorem C97_meta_policy_plays : forall Env Obs Act Info (env_reset : Env -> Env * (Obs * Info)) (env_step : Env -> Act -> Env * (Obs * R * bool * bool * Info)) m ks,
  (forall k, In k ks -> (k < length (me_arms m))%nat) ->
  exists rows, snd (meta_run env_step (fst (meta_reset env_reset m)) ks) = map Ok rows /\
    plays env_step (me_arms m) (fst (env_reset (me_env m))) (fst (snd (env_reset (me_env m)))) ks rows.
Proof.
  intros Env Obs Act Info env_reset env_step m ks H. unfold meta_reset. destruct (env_reset (me_env m)) as [e [o i]]. cbn [fst snd].
  exact (@meta_run_plays Env Obs Act Info env_step ks (mkME e (me_arms m) (Some o)) o eq_refl H).
Qed.
Print Assumptions C97_meta_policy_plays.
(** A counter environment: the observation is the sum of the actions so far. *)
Definition counter_step (e a : nat) : nat * (nat * R * bool * bool * unit) := ((e + a)%nat, ((e + a)%nat, 1, false, false, tt)).
Example C97_meta_policy_plays_ex : snd (meta_run counter_step (mkME 0%nat [ArmPlain (fun s => S s); ArmLogp (fun s => ((2 * s)%nat, -1))] (Some 0%nat)) [0; 1]%nat) =
  map Ok [(1%nat, 1, false, false, mkMI tt 1%nat 0); (3%nat, 1, false, false, mkMI tt 2%nat (-1))].
Proof. reflexivity. Qed.

(** Invalid meta-actions and steps before reset are refused without touching the environment. *)
Theorem C97_meta_policy_asserts : forall Env Obs Act Info (env_step : Env -> Act -> Env * (Obs * R * bool * bool * Info)) b m k,
  (k < 0 \/ Z.of_nat (length (me_arms m)) <= k)%Z \/ me_s m = None -> meta_step env_step b m k = (m, Err EAssertion).
Proof. exact meta_step_bad. Qed.
Print Assumptions C97_meta_policy_asserts.
Example C97_meta_policy_asserts_ex : meta_step counter_step true (mkME 0%nat [ArmPlain (fun s => S s)] (Some 0%nat)) 1 = (mkME 0%nat [ArmPlain (fun s => S s)] (Some 0%nat), Err EAssertion).
Proof. reflexivity. Qed.

(** setup.py admits every python from 3.6 on; from 3.11 on, inspect.getargspec is gone and every valid step fails. *)
Theorem C97_works_on_all_pythons_refuted : forall Env Obs Act Info (env_step : Env -> Act -> Env * (Obs * R * bool * bool * Info)) m s k, me_s m = Some s -> (k < length (me_arms m))%nat ->
  meta_step env_step false m (Z.of_nat k) = (m, Err EAttribute).
Proof.
  intros Env Obs Act Info env_step m s k Hs Hk. unfold meta_step. destruct (Z.leb_spec 0 (Z.of_nat k)); [|lia]. destruct (Z.ltb_spec (Z.of_nat k) (Z.of_nat (length (me_arms m)))); [|lia].
  cbn [andb negb]. rewrite Hs, Nat2Z.id. destruct (nth_error (me_arms m) k) eqn:E; [reflexivity|]. apply nth_error_None in E. lia.
Qed.
Print Assumptions C97_works_on_all_pythons_refuted.

(** * C98: render_episode *)

(** With the gymnasium interface no episode is ever rendered: the first step raises ValueError, and the policy is shown the pair (observation, info). *)
Theorem C98_render_episode_refuted : forall Env Obs Act Info (env_reset : Env -> Env * (Obs * Info)) (env_step : Env -> Act -> Env * (Obs * R * bool * bool * Info)) e policy,
  snd (render_episode env_reset env_step e policy) = Err EValue /\
  snd (fst (render_episode env_reset env_step e policy)) = [PTuple (fst (snd (env_reset e))) (snd (snd (env_reset e)))].
Proof. intros. unfold render_episode. destruct (env_reset e) as [e1 [o i]]. cbn [fst snd]. destruct (env_step e1 _). auto. Qed.
Print Assumptions C98_render_episode_refuted.

(** * C99: check_preprocessors *)

(** For preprocessors that do not use the random key, the answer is whether all agree with the first on all samples. *)
Theorem C99_check_preprocessors_deterministic : forall (K X Y : Type) (close : Y -> Y -> bool) (keys : nat -> K) (g0 : X -> Y) gs xs, gs <> [] ->
  exists b, check_preprocessors close keys (map (fun g (_ : K) x => g x) (g0 :: gs)) xs = Ok b /\ (b = true <-> forall x g, In x xs -> In g gs -> close (g x) (g0 x) = true).
Proof.
  intros K X Y close keys g0 gs xs NE. rewrite check_det. destruct gs as [|g1 gs]; [congruence|]. eexists. split; [reflexivity|]. rewrite forallb_forall. split.
  - intros H x g Hx Hg. specialize (H x Hx). rewrite forallb_forall in H. auto.
  - intros H x Hx. apply forallb_forall. auto.
Qed.
Print Assumptions C99_check_preprocessors_deterministic.
Example C99_check_preprocessors_deterministic_ex : check_preprocessors Nat.eqb (fun i => i) (map (fun g (_ : nat) x => g x) [S; (fun x => x + 1)%nat; (fun x => 1 + x)%nat]) [0; 5]%nat = Ok true /\
  check_preprocessors Nat.eqb (fun i => i) (map (fun g (_ : nat) x => g x) [S; (fun x => x + x)%nat]) [1; 5]%nat = Ok false.
Proof. split; reflexivity. Qed.

Theorem C99_check_preprocessors_needs_two : forall (K X Y : Type) (close : Y -> Y -> bool) (keys : nat -> K) (ps : list (K -> X -> Y)) xs, (length ps < 2)%nat -> check_preprocessors close keys ps xs = Err EValue.
Proof. intros K X Y close keys [|p [|q ps]] xs H; simpl in *; auto. lia. Qed.
Print Assumptions C99_check_preprocessors_needs_two.
Example C99_check_preprocessors_needs_two_ex : (length [fun (k x : nat) => x] < 2)%nat. Proof. simpl. lia. Qed.

(** "Check whether two preprocessors are the same" fails both ways: a preprocessor that uses its key differs from itself, and different ones pass if the samples miss the difference. *)
Theorem C99_same_means_match_refuted : exists (p : nat -> nat -> nat) xs, check_preprocessors Nat.eqb (fun i => i) [p; p] xs = Ok false.
Proof. exists (fun k x => k + x)%nat, [0%nat]. reflexivity. Qed.
Print Assumptions C99_same_means_match_refuted.
Theorem C99_match_means_same_refuted : exists (p q : nat -> nat -> nat) xs k x, check_preprocessors Nat.eqb (fun i => i) [p; q] xs = Ok true /\ p k x <> q k x.
Proof. exists (fun _ x => x), (fun _ x => Nat.min x 3), [1; 2; 3]%nat, 0%nat, 4%nat. split; [reflexivity|discriminate]. Qed.
Print Assumptions C99_match_means_same_refuted.

(** * C100, C101: DeepMind Control *)

(** The first environment of a task gets its parameters. *)
Theorem C100_make_dmc_first : forall Id P (eqb : Id -> Id -> bool) registry i (p : P), reg_get eqb i registry = None -> snd (make_dmc eqb registry i p) = p.
Proof. intros Id P eqb registry i p H. unfold make_dmc. now rewrite H. Qed.
Print Assumptions C100_make_dmc_first.
Example C100_make_dmc_first_ex : reg_get Nat.eqb 1%nat [(0, 5)]%nat = None. Proof. reflexivity. Qed.
(** Every later environment of the same task gets the parameters of the first one, so the requested seed, size or limit is ignored. *)
Theorem C100_make_dmc_parameters_refuted : forall Id P (eqb : Id -> Id -> bool) registry i (p q : P), (forall x, eqb x x = true) -> reg_get eqb i registry = None ->
  snd (make_dmc eqb (fst (make_dmc eqb registry i p)) i q) = p.
Proof. intros. now apply make_dmc_first. Qed.
Print Assumptions C100_make_dmc_parameters_refuted.
Example C100_make_dmc_parameters_refuted_ex : snd (make_dmc Nat.eqb (fst (make_dmc Nat.eqb [] 1%nat 42%nat)) 1%nat 43%nat) = 42%nat. Proof. reflexivity. Qed.

(** Flattened observations that conform to their specifications belong to the observation space. *)
Theorem C101_observations_in_space : forall specs obs, specs <> [] -> length obs = length specs -> (forall i s a, nth_error specs i = Some s -> nth_error obs i = Some a -> sp_float s = true /\ conforms s a) ->
  exists box v, spec_to_box specs = Ok box /\ flatten_obs obs = Ok v /\ v = concat (map arr_values obs) /\ inside box v.
Proof. exact spec_box_inside. Qed.
Print Assumptions C101_observations_in_space.
Example C101_observations_in_space_ex : conforms (mkSpec true 2 (Some (BOne (-1), BAll [1; 2]))) (AArr [AScal 0; AScal 2]) /\ conforms (mkSpec true 1 None) (AScal 7).
Proof. split; split; simpl; auto. split; auto. split; auto. intros [|[|i]] H; simpl; lra || lia. Qed.

(** Specs of a type that is not floating point are refused, and so is a task without observations. *)
Theorem C101_specs_rejected : forall specs, ((exists s, In s specs /\ sp_float s = false) -> spec_to_box specs = Err EAssertion) /\ spec_to_box [] = Err EValue.
Proof.
  intros specs. split; [|reflexivity]. intros [s [Hs Hf]]. unfold spec_to_box. destruct specs as [|s0 r]; [destruct Hs|].
  rewrite (@collect_all_err _ (map extract_min_max (s0 :: r)) EAssertion); [reflexivity| |].
  - intros x Hx. apply in_map_iff in Hx. destruct Hx as [a [<- _]]. unfold extract_min_max. destruct (negb (sp_float a)); eauto.
  - apply in_map_iff. exists s. split; auto. unfold extract_min_max. now rewrite Hf.
Qed.
Print Assumptions C101_specs_rejected.
Example C101_specs_rejected_ex : exists s, In s [mkSpec true 2 None; mkSpec false 1 None] /\ sp_float s = false.
Proof. exists (mkSpec false 1 None). cbn. auto. Qed.

(** step passes observation and reward on and reports the last time step as terminated, never as truncated. *)
Theorem C101_step : forall t, (ds_obs t <> [] -> dmc_step t = Ok (concat (map arr_values (ds_obs t)), ds_reward t, ds_last t, false)) /\
  (ds_obs t = [] -> dmc_step t = Err EValue).
Proof.
  intros t. split; intros H; unfold dmc_step, flatten_obs; [|now rewrite H]. destruct (ds_obs t) as [|a l]; [congruence|]. cbn [bind]. do 4 f_equal.
  rewrite flat_map_concat_map. f_equal. apply map_ext. apply ravel_values.
Qed.
Print Assumptions C101_step.
Example C101_step_ex : dmc_step (mkDS true 1 1 [AScal 2; AArr [AScal 3; AScal 4]]) = Ok ([2; 3; 4], 1, true, false). Proof. reflexivity. Qed.
(** dm_env: discount 0 is termination; a last step with discount 1 is a time limit.  It is reported as a termination. *)
Theorem C101_time_limit_truncates_refuted : exists t v, ds_last t = true /\ ds_discount t = 1 /\ dmc_step t = Ok (v, ds_reward t, true, false).
Proof. exists (mkDS true 0 1 [AScal 2]), [2]. repeat split. Qed.
Print Assumptions C101_time_limit_truncates_refuted.
