(** Properties C19-C20: TransitionBatch (coax/reward_tracing/_transition.py). *)
From Coq Require Import List ZArith Lia Bool Reals Lra.
From Verif Require Import PyCommon TracerModel TransModel TransSpec TransProofs TransProofs2.
Import ListNotations.

(** C19: singles and their concatenation. *)
Theorem C19_to_singles : forall O n (b : batch O), consistent n b -> 1 <= n ->
  length (singles b) = n /\ concat_batches (singles b) = Ok b /\
  forall i s, nth_error (singles b) i = Some s -> batch_size s = 1 /\ consistent 1 s /\ row_of i (batch_tree b) (batch_tree s).
Proof. exact (fun O n b => @singles_spec O n b). Qed.
Print Assumptions C19_to_singles.

(** C19: the batch built from a single. *)
Theorem C19_from_single : forall O (s a : tree (row O)) logp r done gamma s_next a_next logp_next w wnative idx extra,
  (logp <= 0)%R -> (0 <= gamma <= 1)%R -> (forall l, logp_next = Some l -> (l <= 0)%R) -> (0 < w)%R -> wnative = true ->
  exists b, batch_from_single s a logp r done gamma s_next a_next logp_next w wnative idx extra = Ok b /\
    batch_size b = 1 /\ consistent 1 b /\ b_Rn b = [RNum r] /\ b_logP b = TLeaf [RNum logp] /\
    b_W b = TLeaf [RNum w] /\ b_In b = TLeaf [RNum (if done then 0%R else gamma)] /\
    b_idx b = TLeaf [RNum (match idx with Some i => i | None => 0%R end)] /\
    b_S b = to_row s /\ b_A b = to_row a /\ b_S_next b = to_row s_next /\ b_A_next b = to_row a_next /\ b_extra b = to_row extra /\
    b_logP_next b = match logp_next with Some l => TLeaf [RNum l] | None => TNone end.
Proof. exact (fun O => @from_single_rows O). Qed.
Print Assumptions C19_from_single.

(** A batch of [rn], with the given optional fields. *)
Definition ex_batch (rn : list R) (a_next logp_next extra : tree (list (row nat))) : batch nat :=
  new_batch (TNode [TLeaf (map (fun _ => RObj 7) rn); TLeaf (map RNum rn)]) (TLeaf (map RNum rn)) (TLeaf (map RNum rn)) (map RNum rn)
    (TLeaf (map RNum rn)) (TLeaf (map RNum rn)) a_next logp_next TNone TNone extra.

Example C19_example : consistent 3 (ex_batch [1; 2; 3]%R TNone (TLeaf (map RNum [0; -1; -2]%R)) TNone) /\
  length (singles (ex_batch [1; 2; 3]%R TNone TNone TNone)) = 3.
Proof.
  split; [|reflexivity]. split; [|split; discriminate]. intros l. cbn. intuition (subst; reflexivity).
Qed.

(** C19: concatenating any batches with the same nesting joins their rows in order. *)
Theorem C19_concatenation : forall O (bs : list (batch O)) ns (b0 : batch O), Forall2 (fun b n => consistent n b) bs ns -> bs <> [] ->
  (forall b, In b bs -> nesting (batch_tree b) = nesting (batch_tree b0)) ->
  exists c, concat_batches bs = Ok c /\ consistent (fold_right Nat.add 0 ns) c /\ nesting (batch_tree c) = nesting (batch_tree b0) /\ rows_joined bs c.
Proof. exact (fun O => @concat_rows O). Qed.
Print Assumptions C19_concatenation.

(** C19: batches that differ in nesting (for instance extra_info present in one only) cannot be concatenated, wherever
    the odd one stands; nor can no batch at all. *)
Theorem C19_concatenation_rejected : forall O,
  (forall (a b : batch O) bs, b_W a <> TNone -> b_idx a <> TNone -> In b bs -> nesting (batch_tree b) <> nesting (batch_tree a) ->
     concat_batches (a :: bs) = Err EValue) /\
  concat_batches (@nil (batch O)) = Err EType.
Proof. intros O. split; [|reflexivity]. intros a b bs HW HI Hb N. apply concat_from_differ; eauto. Qed.
Print Assumptions C19_concatenation_rejected.

Example C19_concatenation_example :
  (exists c, concat_batches [ex_batch [1; 2]%R TNone TNone TNone; ex_batch [3]%R TNone TNone TNone; ex_batch [4; 5]%R TNone TNone TNone] = Ok c /\
     b_Rn c = map RNum [1; 2; 3; 4; 5]%R /\ nesting (batch_tree c) = nesting (batch_tree (ex_batch [3]%R TNone TNone TNone))) /\
  concat_batches [ex_batch [1; 2]%R TNone TNone TNone; ex_batch [3]%R TNone TNone TNone; ex_batch [4]%R TNone TNone (TLeaf [RNum 0%R])] = Err EValue /\
  b_W (ex_batch [1; 2]%R TNone TNone TNone) <> TNone /\ b_idx (ex_batch [1; 2]%R TNone TNone TNone) <> TNone /\
  nesting (batch_tree (ex_batch [4]%R TNone TNone (TLeaf [RNum 0%R]))) <> nesting (batch_tree (ex_batch [1; 2]%R TNone TNone TNone)).
Proof. split; [eexists; split; [reflexivity|split; reflexivity]|]. repeat split; discriminate. Qed.

(** C19: without weights and ids a batch gets weight 1 and ids 0, 1, ... in every row; given ones are kept. *)
Theorem C19_defaults : forall O (S A lp : tree (list (row O))) (rn : list (row O)) I Sn An lpn W ix ex,
  let b := new_batch S A lp rn I Sn An lpn W ix ex in
  (W = TNone -> exists ws, b_W b = TLeaf ws /\ length ws = length rn /\ forall k, k < length rn -> nth_error ws k = Some (RNum 1%R)) /\
  (ix = TNone -> exists is, b_idx b = TLeaf is /\ length is = length rn /\ forall k, k < length rn -> nth_error is k = Some (RNum (INR k))) /\
  (W <> TNone -> b_W b = W) /\ (ix <> TNone -> b_idx b = ix).
Proof.
  intros O S A lp rn I Sn An lpn W ix ex b. unfold b, new_batch. cbn [b_W b_idx]. split; [|split; [|split]].
  - intros ->. eexists. split; [reflexivity|]. split; [apply map_length|]. intros k Hk. rewrite nth_error_map.
    destruct (nth_error rn k) eqn:E; [reflexivity|]. apply nth_error_None in E. lia.
  - intros ->. eexists. split; [reflexivity|]. split; [now rewrite map_length, seq_length|]. intros k Hk. rewrite nth_error_map.
    rewrite (nth_error_nth' _ 0) by (now rewrite seq_length). rewrite seq_nth by auto. reflexivity.
  - destruct W; congruence.
  - destruct ix; congruence.
Qed.
Print Assumptions C19_defaults.

Example C19_defaults_example : b_W (ex_batch [1; 2]%R TNone TNone TNone) = TLeaf [RNum 1%R; RNum 1%R] /\
  b_idx (ex_batch [1; 2]%R TNone TNone TNone) = TLeaf [RNum (INR 0); RNum (INR 1)].
Proof. split; reflexivity. Qed.

(** C20: batches with different fields that compare equal. *)
Theorem C20_different_structure_refuted : forall oclose : nat -> nat -> bool, (forall o, oclose o o = true) ->
  (* extra_info missing / present *)
  batch_eq oclose (ex_batch [1%R] TNone TNone TNone) (ex_batch [1%R] TNone TNone (TLeaf [RNum 5%R])) = Ok true /\
  (* A_next missing in one, logP_next in the other *)
  batch_eq oclose (ex_batch [1%R] (TLeaf [RNum (-1)%R]) TNone TNone) (ex_batch [1%R] TNone (TLeaf [RNum (-1)%R]) TNone) = Ok true /\
  (* one row against three *)
  (let w n := TLeaf (repeat (@RNum nat 1%R) n) in
   batch_eq oclose (new_batch (w 1) (w 1) (w 1) [RNum 1%R] (w 1) (w 1) (w 1) (w 1) (w 1) (w 1) TNone)
                   (new_batch (w 3) (w 3) (w 3) [RNum 1%R; RNum 1%R; RNum 1%R] (w 3) (w 3) (w 3) (w 3) (w 3) (w 3) TNone) = Ok true).
Proof.
  intros oclose Ho.
  assert (C : forall x : R, row_close oclose (RNum x) (RNum x) = true).
  { intros x. cbn. destruct (Rle_dec _ _) as [|N]; auto. exfalso. apply N. rewrite Rminus_diag_eq, Rabs_R0 by auto.
    pose proof (Rabs_pos x). lra. }
  assert (D : forall o, row_close oclose (RObj o) (RObj o) = true) by (intros; cbn; auto).
  unfold batch_eq, ex_batch. split; [|split].
  - cbn -[row_close]. repeat (rewrite ?C, ?D; cbn -[row_close]). reflexivity.
  - cbn -[row_close]. repeat (rewrite ?C, ?D; cbn -[row_close]). reflexivity.
  - cbn -[row_close]. repeat (rewrite ?C, ?D; cbn -[row_close]). reflexivity.
Qed.
Print Assumptions C20_different_structure_refuted.

(** C20: == is not symmetric: the tolerance is relative to the right operand. *)
Theorem C20_symmetric_refuted : exists oclose, exists a b : batch nat, batch_eq oclose a b = Ok true /\ batch_eq oclose b a = Ok false.
Proof.
  exists Nat.eqb.
  set (d := (1 + / 100000 + / 100000000 + / 20000000000)%R).
  exists (ex_batch [1%R] TNone TNone TNone), (ex_batch [d] TNone TNone TNone).
  assert (C1 : row_close Nat.eqb (RNum 1%R) (RNum d) = true).
  { cbn. destruct (Rle_dec _ _) as [|N]; auto. exfalso. apply N. unfold d. rewrite Rabs_left, Rabs_right by lra. lra. }
  assert (C2 : row_close Nat.eqb (RNum d) (RNum 1%R) = false).
  { cbn. destruct (Rle_dec _ _) as [N|]; auto. exfalso. unfold d in N. rewrite !Rabs_right in N by lra. lra. }
  assert (C0 : forall x : R, row_close Nat.eqb (RNum x) (RNum x) = true).
  { intros x. cbn. destruct (Rle_dec _ _) as [|N]; auto. exfalso. apply N. rewrite Rminus_diag_eq, Rabs_R0 by auto.
    pose proof (Rabs_pos x). lra. }
  assert (D : forall o, row_close Nat.eqb (RObj o) (RObj o) = true) by (intros; cbn; apply Nat.eqb_refl).
  unfold batch_eq, ex_batch. clearbody d. split; cbn -[row_close]; repeat (rewrite ?C1, ?C2, ?C0, ?D; cbn -[row_close]); reflexivity.
Qed.
Print Assumptions C20_symmetric_refuted.

(** C20, the part that holds: for batches with the same present fields, nesting and batch size, == holds exactly when
    all entries are close; and == is reflexive. *)
Theorem C20_eq_same_shape_partial : forall O (oclose : O -> O -> bool) (a b : batch O),
  related (fun _ _ => True) (batch_tree a) (batch_tree b) ->
  batch_eq oclose a b = Ok true <-> related (rows_close oclose) (batch_tree a) (batch_tree b).
Proof. exact (fun O oclose a b => @batch_eq_same O oclose a b). Qed.
Print Assumptions C20_eq_same_shape_partial.

Theorem C20_refl_partial : forall O (oclose : O -> O -> bool), (forall o, oclose o o = true) -> forall a : batch O, batch_eq oclose a a = Ok true.
Proof. exact (fun O oclose => @batch_eq_refl O oclose). Qed.
Print Assumptions C20_refl_partial.

Example C20_example : related (fun _ _ => True) (batch_tree (ex_batch [1; 2]%R TNone TNone TNone)) (batch_tree (ex_batch [3; 4]%R TNone TNone TNone)).
Proof. cbn. repeat constructor. Qed.
