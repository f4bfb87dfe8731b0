(** TransitionBatch: splitting, concatenation, equality. *)
From Coq Require Import List ZArith Lia Bool Reals Lra.
From Verif Require Import PyCommon CommonProofs TracerModel TracerProofs TransModel TransSpec.
Import ListNotations.
Set Implicit Arguments.

Fixpoint tree_ind' (L : Type) (P : tree L -> Prop) (HN : P TNone) (HL : forall x, P (TLeaf x))
  (HT : forall ts, Forall P ts -> P (TNode ts)) (t : tree L) : P t :=
  match t with
  | TNone => HN
  | TLeaf x => HL x
  | TNode ts => HT ts ((fix go l : Forall P l := match l with
                                                 | [] => Forall_nil P
                                                 | u :: l' => Forall_cons u (tree_ind' HN HL HT u) (go l')
                                                 end) ts)
  end.

Lemma Forall2_length : forall A B (P : A -> B -> Prop) l m, Forall2 P l m -> length l = length m.
Proof. intros A B P l m F. induction F; cbn; auto. Qed.

Section T.
Variable O : Type.
Notation field := (tree (list (row O))).

Lemma leaves_have_node : forall n (ts : list field), leaves_have n (TNode ts) <-> Forall (leaves_have n) ts.
Proof.
  intros n ts. unfold leaves_have. cbn [leaves]. rewrite Forall_forall. split.
  - intros H t Ht l Hl. apply H. apply in_flat_map. eauto.
  - intros H l Hl. apply in_flat_map in Hl. destruct Hl as [t [Ht Hl]]. eapply H; eauto.
Qed.

Lemma slice_app : forall k (l : list (row O)), firstn k l ++ row_slice k l = firstn (S k) l.
Proof. induction k as [|k IH]; intros [|x l]; cbn; auto. f_equal. apply IH. Qed.

Lemma tmap2_prefix : forall k (t : field), tmap2 (@app (row O)) (tmap (firstn k) t) (tmap (row_slice k) t) = Ok (tmap (firstn (S k)) t).
Proof.
  intros k. apply tree_ind'; intros; auto.
  - cbn [tmap tmap2]. now rewrite slice_app.
  - cbn [tmap tmap2]. 
    assert (E : (fix go (ts us : list field) : outcome (list field) := match ts, us with
                             | [], [] => Ok []
                             | t :: ts', u :: us' => bind (tmap2 (@app (row O)) t u) (fun x => bind (go ts' us') (fun xs => Ok (x :: xs)))
                             | _, _ => Err EValue
                             end) (map (tmap (firstn k)) ts) (map (tmap (row_slice k)) ts) = Ok (map (tmap (firstn (S k))) ts)).
    { induction H as [|t ts Ht H IH]; [reflexivity|]. cbn [map]. rewrite Ht. cbn [bind]. rewrite IH. reflexivity. }
    rewrite E. reflexivity.
Qed.

Lemma tmap_firstn_all : forall n (t : field), leaves_have n t -> tmap (firstn n) t = t.
Proof.
  intros n. apply (tree_ind' (P := fun t => leaves_have n t -> tmap (firstn n) t = t)); intros; auto.
  - cbn. rewrite firstn_all2; auto. rewrite (H x); [auto|]. now left.
  - apply leaves_have_node in H0. cbn. f_equal. induction H as [|t ts Ht H IH]; auto. inversion H0; subst. cbn. f_equal; auto.
Qed.

Lemma tmap_row_of : forall n i (t : field), i < n -> leaves_have n t -> row_of i t (tmap (row_slice i) t).
Proof.
  intros n i t Hi. revert t. apply (tree_ind' (P := fun t => leaves_have n t -> row_of i t (tmap (row_slice i) t))); intros.
  - constructor.
  - cbn. destruct (nth_error x i) as [v|] eqn:E.
    + unfold row_slice. rewrite (skipn_cons _ _ E). cbn. now constructor.
    + apply nth_error_None in E. rewrite (H x) in E by now left. lia.
  - apply leaves_have_node in H0. cbn. constructor. induction H as [|t ts Ht H IH]; cbn; constructor; inversion H0; subst; auto.
Qed.

Definition prefix (k : nat) (b : batch O) : batch O :=
  let f := tmap (firstn k) in
  mkB (f (b_S b)) (f (b_A b)) (f (b_logP b)) (firstn k (b_Rn b)) (f (b_In b)) (f (b_S_next b))
    (f (b_A_next b)) (f (b_logP_next b)) (f (b_W b)) (f (b_idx b)) (f (b_extra b)).

Lemma new_batch_id : forall S A lp (Rn : list (row O)) I Sn An lpn W ix ex, W <> TNone -> ix <> TNone ->
  new_batch S A lp Rn I Sn An lpn W ix ex = mkB S A lp Rn I Sn An lpn W ix ex.
Proof. intros. unfold new_batch. destruct W, ix; congruence. Qed.

Lemma tmap_not_none : forall L M (f : L -> M) t, t <> TNone -> tmap f t <> TNone.
Proof. intros L M f [] H; cbn; congruence. Qed.

Lemma lookup_id : forall i (b : batch O), b_W b <> TNone -> b_idx b <> TNone ->
  lookup i b = (let f := tmap (row_slice i) in
   mkB (f (b_S b)) (f (b_A b)) (f (b_logP b)) (row_slice i (b_Rn b)) (f (b_In b)) (f (b_S_next b))
    (f (b_A_next b)) (f (b_logP_next b)) (f (b_W b)) (f (b_idx b)) (f (b_extra b))).
Proof. intros. unfold lookup. apply new_batch_id; now apply tmap_not_none. Qed.

Lemma concat2_prefix : forall k (b : batch O), b_W b <> TNone -> b_idx b <> TNone ->
  concat2 (prefix k b) (lookup k b) = Ok (prefix (S k) b).
Proof.
  intros k b HW HI. rewrite (lookup_id k b HW HI). unfold concat2, prefix.
  cbn [b_S b_A b_logP b_Rn b_In b_S_next b_A_next b_logP_next b_W b_idx b_extra].
  rewrite !tmap2_prefix. cbn [bind]. rewrite slice_app. f_equal. apply new_batch_id; now apply tmap_not_none.
Qed.

Lemma concat_lookups : forall (b : batch O), b_W b <> TNone -> b_idx b <> TNone -> forall m k,
  concat_from (prefix k b) (map (fun i => lookup i b) (seq k m)) = Ok (prefix (k + m) b).
Proof.
  intros b HW HI. induction m as [|m IH]; intros k; cbn [seq map concat_from]; [now rewrite Nat.add_0_r|].
  rewrite (concat2_prefix k b HW HI). cbn [bind]. rewrite IH. do 2 f_equal. lia.
Qed.

Lemma consistent_fields : forall n (b : batch O), consistent n b ->
  leaves_have n (b_S b) /\ leaves_have n (b_A b) /\ leaves_have n (b_logP b) /\ length (b_Rn b) = n /\ leaves_have n (b_In b) /\
  leaves_have n (b_S_next b) /\ leaves_have n (b_A_next b) /\ leaves_have n (b_logP_next b) /\ leaves_have n (b_W b) /\
  leaves_have n (b_idx b) /\ leaves_have n (b_extra b).
Proof.
  intros n b [H _]. unfold batch_tree in H. apply leaves_have_node in H.
  repeat match goal with H : Forall _ (_ :: _) |- _ => inversion H; subst; clear H end.
  repeat split; auto. match goal with H : leaves_have _ (TLeaf _) |- _ => apply H end. now left.
Qed.

Lemma prefix_all : forall n (b : batch O), consistent n b -> prefix n b = b.
Proof.
  intros n b H. destruct (consistent_fields H) as (F1 & F2 & F3 & F4 & F5 & F6 & F7 & F8 & F9 & F10 & F11).
  unfold prefix. rewrite !tmap_firstn_all by auto. rewrite <- F4, firstn_all. destruct b; reflexivity.
Qed.

Lemma prefix_one : forall (b : batch O), b_W b <> TNone -> b_idx b <> TNone -> lookup 0 b = prefix 1 b.
Proof. intros b HW HI. rewrite (lookup_id 0 b HW HI). reflexivity. Qed.

Lemma singles_nth : forall n (b : batch O), consistent n b -> 1 <= n ->
  singles b = map (fun i => lookup i b) (seq 0 n).
Proof.
  intros n b H Hn. destruct H as [H [HW HI]]. pose proof (conj H (conj HW HI)) as HC. destruct (consistent_fields HC) as (_ & _ & _ & F4 & _).
  unfold singles, batch_size. rewrite F4. destruct (Nat.eqb_spec n 1) as [->|]; auto. cbn [seq map]. rewrite prefix_one by auto.
  now rewrite prefix_all.
Qed.

Lemma singles_spec : forall n (b : batch O), consistent n b -> 1 <= n ->
  length (singles b) = n /\ concat_batches (singles b) = Ok b /\
  forall i s, nth_error (singles b) i = Some s -> batch_size s = 1 /\ consistent 1 s /\ row_of i (batch_tree b) (batch_tree s).
Proof.
  intros n b H Hn. pose proof H as [HL [HW HI]].
  destruct (consistent_fields H) as (F1 & F2 & F3 & F4 & F5 & F6 & F7 & F8 & F9 & F10 & F11).
  rewrite (singles_nth H Hn). split; [now rewrite map_length, seq_length|]. split.
  - destruct n as [|n]; [lia|]. cbn [seq map concat_batches]. rewrite prefix_one by auto. rewrite concat_lookups by auto.
    f_equal. now apply prefix_all.
  - intros i s Hs. assert (Hi : i < n). { rewrite <- (seq_length n 0), <- (map_length (fun i => lookup i b)). apply nth_error_Some. congruence. } 
    rewrite nth_error_map in Hs. rewrite (nth_error_nth' _ 0) in Hs by (rewrite seq_length; auto). rewrite seq_nth in Hs by auto.
    cbn in Hs. injection Hs as <-.
    assert (Hrow : row_of i (batch_tree b) (batch_tree (lookup i b))).
    { rewrite (lookup_id i b HW HI). unfold batch_tree. cbn [b_S b_A b_logP b_Rn b_In b_S_next b_A_next b_logP_next b_W b_idx b_extra].
      constructor. pose proof (@tmap_row_of n i (TLeaf (b_Rn b)) Hi) as HR. cbn [tmap] in HR.
      repeat constructor; try (now apply (@tmap_row_of n i)). apply HR. intros l [<-|[]]. auto. }
    assert (Hlv : forall t u : field, row_of i t u -> leaves_have 1 u).
    { clear. fix IH 3. intros t u [ |l x E|ts us F].
      - intros l [].
      - intros l' [<-|[]]. reflexivity.
      - apply leaves_have_node. induction F as [|t' u' ts' us' R F IHF]; constructor; [apply (IH t' u' R)|exact IHF]. }
    split; [|split; [|auto]].
    + rewrite (lookup_id i b HW HI). unfold batch_size. cbn [b_Rn]. unfold row_slice. rewrite firstn_length, skipn_length. lia.
    + split; [eapply Hlv; eauto|]. rewrite (lookup_id i b HW HI). cbn [b_W b_idx]. split; now apply tmap_not_none.
Qed.

(** from_single *)
Lemma from_single_rows : forall (s a : tree (row O)) logp r done gamma s_next a_next logp_next w wnative idx extra,
  (logp <= 0)%R -> (0 <= gamma <= 1)%R -> (forall l, logp_next = Some l -> (l <= 0)%R) -> (0 < w)%R -> wnative = true ->
  exists b, batch_from_single s a logp r done gamma s_next a_next logp_next w wnative idx extra = Ok b /\
    batch_size b = 1 /\ consistent 1 b /\ b_Rn b = [RNum r] /\ b_logP b = TLeaf [RNum logp] /\
    b_W b = TLeaf [RNum w] /\ b_In b = TLeaf [RNum (if done then 0%R else gamma)] /\
    b_idx b = TLeaf [RNum (match idx with Some i => i | None => 0%R end)] /\
    b_S b = to_row s /\ b_A b = to_row a /\ b_S_next b = to_row s_next /\ b_A_next b = to_row a_next /\ b_extra b = to_row extra /\
    b_logP_next b = match logp_next with Some l => TLeaf [RNum l] | None => TNone end.
Proof.
  intros s a logp r done gamma s_next a_next logp_next w wnative idx extra H1 H2 H3 H4 ->.
  assert (Hnext : (match logp_next with Some l => l | None => 0 end <= 0)%R). { destruct logp_next as [l|]; [now apply H3|lra]. }
  unfold batch_from_single. rewrite from_single_ok by auto. cbn [bind x_in]. eexists. split; [reflexivity|].
  assert (Hrow : forall t : tree (row O), leaves_have 1 (to_row t)).
  { unfold to_row. apply (tree_ind' (P := fun t : tree (row O) => leaves_have 1 (tmap (fun r0 => [r0]) t))).
    - intros l [].
    - intros x l [<-|[]]. reflexivity.
    - intros ts H. cbn [tmap]. apply leaves_have_node. induction H; cbn; constructor; auto. }
  assert (Hnum : forall x : row O, leaves_have 1 (TLeaf [x])) by (intros x l [<-|[]]; reflexivity).
  assert (Hnone : leaves_have 1 (@TNone (list (row O)))) by (intros l []).
  split; [reflexivity|]. split.
  { split; [|split; [discriminate|unfold new_batch; cbn [b_idx]; destruct idx; discriminate]].
    unfold batch_tree. apply leaves_have_node. cbn [new_batch b_S b_A b_logP b_Rn b_In b_S_next b_A_next b_logP_next b_W b_idx b_extra].
    repeat constructor; auto; [destruct logp_next; auto|destruct idx; cbn; auto]. }
  cbn [new_batch b_S b_A b_logP b_Rn b_In b_S_next b_A_next b_logP_next b_W b_idx b_extra].
  repeat split; auto; [do 3 f_equal; destruct done; ring|destruct idx; reflexivity].
Qed.

(** Equality. *)
Variable oclose : O -> O -> bool.

Lemma row_close_iff : forall x y, row_close oclose x y = true <-> rows_close oclose x y.
Proof.
  intros [a|a] [b|b]; cbn; try tauto; try (split; [discriminate|tauto]).
  unfold num_close. destruct (Rle_dec _ _); split; intros; try lra; auto; try discriminate; try contradiction.
Qed.

Lemma allclose_same : forall l m, length l = length m -> allclose oclose l m = Ok true <-> length l = length m /\ Forall2 (rows_close oclose) l m.
Proof.
  intros l m H. unfold allclose. rewrite (proj2 (Nat.eqb_eq _ _) H). split.
  - intros E. injection E as E. split; auto. revert m H E. induction l as [|x l IH]; intros [|y m] H E; try discriminate; constructor.
    + cbn in E. apply andb_true_iff in E. apply row_close_iff. tauto.
    + cbn in E. apply andb_true_iff in E. apply IH; [now injection H|tauto].
  - intros [_ F]. f_equal. induction F as [|x y l m P F IH]; [reflexivity|]. cbn in *. rewrite (proj2 (row_close_iff x y) P). cbn.
    apply IH. now injection H.
Qed.

Lemma leaves_eq_same : forall ls ms, Forall2 (fun l m => length l = length m) ls ms ->
  leaves_eq oclose ls ms = Ok true <-> Forall2 (Forall2 (rows_close oclose)) ls ms.
Proof.
  intros ls ms F. induction F as [|l m ls ms H F IH]; cbn [leaves_eq].
  - split; auto.
  - pose proof (@allclose_same l m H) as E. destruct (allclose oclose l m) as [[|]|e] eqn:EA; cbn [bind].
    + rewrite IH. split; intros G; [constructor; tauto|inversion G; auto].
    + split; [discriminate|]. intros G. inversion G; subst. assert (Ok false = Ok true) by tauto. discriminate.
    + split; [discriminate|]. intros G. inversion G; subst. assert (@Err bool e = Ok true) by tauto. discriminate.
Qed.

Lemma related_leaves : forall P (t u : field), related P t u -> Forall2 (Forall2 P) (leaves t) (leaves u).
Proof.
  intros P. fix IH 3. intros t u [ |l m F|ts us F].
  - constructor.
  - cbn. constructor; [exact F|constructor].
  - cbn. induction F as [|t' u' ts' us' R F IHF]; cbn; [constructor|]. apply Forall2_app; [apply (IH t' u' R)|exact IHF].
Qed.

Lemma Forall2_app_split : forall X Z (P : X -> Z -> Prop) a b c d, length a = length b -> Forall2 P (a ++ c) (b ++ d) ->
  Forall2 P a b /\ Forall2 P c d.
Proof.
  induction a as [|x a IH]; intros [|y b] c d H F; try discriminate; cbn in *; auto. inversion F; subst.
  destruct (IH b c d) as [I1 I2]; auto.
Qed.

Lemma related_from_leaves : forall P (t u : field), related (fun _ _ => True) t u -> Forall2 (Forall2 P) (leaves t) (leaves u) -> related P t u.
Proof.
  intros P t. induction t as [|l|ts H] using tree_ind'; intros u HR HF.
  - inversion HR; subst. constructor.
  - inversion HR as [|l' m F' E1 E2|]; subst. cbn in HF. inversion HF; subst. now constructor.
  - inversion HR as [| |ts' us F E1 E2]; subst. clear HR. constructor. cbn in HF. revert us F HF.
    induction H as [|t ts Ht H IH]; intros us F HF; inversion F as [|t' u ts' us' R F' E1 E2]; subst; constructor.
    + cbn in HF. apply Forall2_app_split in HF; [|apply related_leaves in R; now apply Forall2_length in R]. now apply Ht.
    + cbn in HF. apply Forall2_app_split in HF; [|apply related_leaves in R; now apply Forall2_length in R]. now apply IH.
Qed.

Lemma batch_eq_same : forall a b : batch O, related (fun _ _ => True) (batch_tree a) (batch_tree b) ->
  batch_eq oclose a b = Ok true <-> related (rows_close oclose) (batch_tree a) (batch_tree b).
Proof.
  intros a b HR. unfold batch_eq. rewrite leaves_eq_same.
  - split; [now apply related_from_leaves|apply related_leaves].
  - apply related_leaves in HR. induction HR as [|l m ls ms F HR IH]; constructor; auto. now apply Forall2_length in F.
Qed.

Lemma batch_eq_refl : (forall o, oclose o o = true) -> forall a : batch O, batch_eq oclose a a = Ok true.
Proof.
  intros Ho a. assert (Hrefl : forall (P : row O -> row O -> Prop), (forall x, P x x) -> forall t : field, related P t t).
  { intros P HP. apply tree_ind'.
    - constructor.
    - intros x. constructor. induction x; constructor; auto.
    - intros ts H. constructor. induction H; constructor; auto. }
  apply batch_eq_same; [now apply Hrefl|]. apply Hrefl. intros [x|o]; cbn; auto. unfold num_close.
  rewrite Rminus_diag_eq, Rabs_R0 by auto. pose proof (Rabs_pos x). lra.
Qed.

End T.
