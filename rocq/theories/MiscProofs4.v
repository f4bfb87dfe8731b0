(** Proofs about MiscModel.v: refusals of the pytree functions. *)
From Coq Require Import List ZArith Bool Reals Lra Lia.
From Verif Require Import PyCommon CommonProofs MiscModel MiscSpec MiscProofs MiscProofs2.
Import ListNotations.
Local Open Scope R_scope.
Set Implicit Arguments.

Definition tml_go (f : list arr -> outcome arr) (rows : list (list tree)) : nat -> list tree -> outcome (list tree) :=
  fix go (i : nat) (l : list tree) : outcome (list tree) :=
    match l with
    | [] => Ok []
    | t' :: l' => bind (tree_map_list f t' (map (fun r => nth i r (TNode [])) rows)) (fun x => bind (go (S i) l') (fun r => Ok (x :: r)))
    end.
Lemma tml_node : forall f l rest, tree_map_list f (TNode l) rest =
  match tree_kids (length l) rest with None => Err EValue | Some rows => bind (tml_go f rows 0 l) (fun l' => Ok (TNode l')) end.
Proof. reflexivity. Qed.

Lemma jstack_err : forall l e, jstack l = Err e -> e = EValue.
Proof. intros [|x r] e H; cbn in H; [congruence|]. destruct (forallb _ r); congruence. Qed.

Lemma tml_err : forall t rest e, tree_map_list jstack t rest = Err e -> e = EValue.
Proof.
  induction t as [x|l IH] using tree_ind'; intros rest e H.
  - cbn [tree_map_list] in H. destruct (tree_heads rest); [|congruence]. destruct (jstack (x :: l)) eqn:J; cbn [bind] in H; [discriminate|]. injection H as <-. eapply jstack_err; eauto.
  - rewrite tml_node in H. destruct (tree_kids (length l) rest) as [rows|]; [|congruence].
    assert (G : forall i e, tml_go jstack rows i l = Err e -> e = EValue).
    { clear H e rest. revert IH. generalize l as m. clear l. induction m as [|t l IHl]; intros IH i e' H; cbn [tml_go] in H; [discriminate|]. fold (tml_go jstack rows) in H.
      destruct (tree_map_list jstack t (map (fun r => nth i r (TNode [])) rows)) eqn:E; cbn [bind] in H.
      - destruct (tml_go jstack rows (S i) l) eqn:E2; cbn [bind] in H; [discriminate|]. injection H as <-. eapply IHl; [|eauto]. intros t' Ht'. apply IH. now right.
      - injection H as <-. eapply IH; [left; reflexivity|eauto]. }
    destruct (tml_go jstack rows 0 l) eqn:E; cbn [bind] in H; [discriminate|]. injection H as <-. eauto.
Qed.

Lemma tree_heads_inv : forall rest l, tree_heads rest = Some l -> rest = map TLeaf l.
Proof.
  induction rest as [|[a|l0] rest IH]; intros l H; cbn in H; try discriminate; [injection H as <-; reflexivity|].
  destruct (tree_heads rest) as [m|] eqn:E; [|discriminate]. injection H as <-. cbn. f_equal. now apply IH.
Qed.
Lemma tree_kids_inv : forall n rest rows, tree_kids n rest = Some rows -> rest = map TNode rows /\ forall r, In r rows -> length r = n.
Proof.
  intros n. induction rest as [|[a|m] rest IH]; intros rows H; cbn in H; try discriminate.
  - injection H as <-. split; [reflexivity|intros r []].
  - destruct (Nat.eqb_spec (length m) n) as [L|]; [|discriminate]. destruct (tree_kids n rest) as [k|] eqn:E; [|discriminate]. injection H as <-. destruct (IH k eq_refl) as [-> I].
    split; [reflexivity|]. intros r [<-|Hr]; auto.
Qed.

Lemma tml_same : forall t rest s, tree_map_list jstack t rest = Ok s -> forall u, In u rest -> same_tree t u.
Proof.
  induction t as [x|l IH] using tree_ind'; intros rest s H u Hu.
  - cbn [tree_map_list] in H. destruct (tree_heads rest) as [m|] eqn:E; [|discriminate]. apply tree_heads_inv in E. subst rest. apply in_map_iff in Hu. destruct Hu as [a [<- Ha]].
    destruct (jstack (x :: m)) eqn:J; cbn [bind] in H; [|discriminate]. cbn in J. destruct (forallb (shape_eqb x) m) eqn:F; [|discriminate].
    rewrite forallb_forall in F. apply shape_eqb_iff. auto.
  - rewrite tml_node in H. destruct (tree_kids (length l) rest) as [rows|] eqn:E; [|discriminate]. apply tree_kids_inv in E. destruct E as [-> L]. apply in_map_iff in Hu. destruct Hu as [r [<- Hr]].
    destruct (tml_go jstack rows 0 l) as [l'|] eqn:G; cbn [bind] in H; [|discriminate].
    assert (K : forall k i a b l', tml_go jstack rows k l = Ok l' -> nth_error l i = Some a -> nth_error r (k + i) = Some b -> same_tree a b).
    { clear - IH Hr. induction l as [|t l IHl]; intros k i a b l' G Ha Hb; [destruct i; discriminate|]. cbn [tml_go] in G. fold (tml_go jstack rows) in G.
      destruct (tree_map_list jstack t (map (fun r => nth k r (TNode [])) rows)) eqn:E; cbn [bind] in G; [|discriminate].
      destruct (tml_go jstack rows (S k) l) eqn:E2; cbn [bind] in G; [|discriminate]. destruct i as [|i].
      - cbn in Ha. injection Ha as <-. rewrite Nat.add_0_r in Hb. apply (IH t (or_introl eq_refl) _ _ E). apply in_map_iff. exists r. split; auto. now apply nth_error_nth.
      - cbn in Ha. apply (IHl (fun t' Ht' => IH t' (or_intror Ht')) (S k) i a b l0); auto. now replace (S k + i)%nat with (k + S i)%nat by lia. }
    apply same_tree_nodes; [symmetry; now apply L|]. intros i a b Ha Hb. eapply (K 0%nat); eauto.
Qed.

Lemma same_tree_inv : forall l m, same_tree (TNode l) (TNode m) -> forall i a b, nth_error l i = Some a -> nth_error m i = Some b -> same_tree a b.
Proof.
  induction l as [|x l IH]; intros [|y m] H i a b Ha Hb; try (destruct i; discriminate). cbn in H. destruct H as [H1 H2]. destruct i as [|i]; cbn in *; [congruence|]. eapply (IH m); eauto.
Qed.

Lemma stack_trees_differ : forall ls N l i a b, ls <> [] -> (forall l, In l ls -> (N <= length l)%nat) -> (exists l, In l ls /\ length l = N) ->
  In l ls -> (i < N)%nat -> nth_error l 0 = Some a -> nth_error l i = Some b -> ~ same_tree a b -> stack_trees ls = Err EValue.
Proof.
  intros ls N l i a b NE HL HE Hl Hi Ha Hb Hn. destruct (stack_trees ls) as [s|e] eqn:E; unfold stack_trees in E;
    set (n := match ls with [] => 0%nat | l :: _ => length l end) in *;
    assert (Hnn : (N <= n)%nat) by (unfold n; destruct ls as [|l1 ls]; [congruence|apply HL; now left]);
    rewrite (@zip_lists_spec _ (TNode []) n ls N NE HL HE Hnn) in E; (destruct N as [|N]; [lia|]); change (seq 0 (S N)) with (0%nat :: seq 1 N) in E; cbn [map] in E.
  - exfalso. apply Hn. assert (Hi0 : i <> 0%nat \/ i = 0%nat) by lia. apply In_nth_error in Hl. destruct Hl as [j Hj].
    assert (LL : (S N <= length l)%nat) by (apply HL; eapply nth_error_In; eauto).
    destruct Hi0 as [Hi0| ->]; [|].
    + set (col := fun i => map (fun l => nth i l (TNode [])) ls) in *.
      assert (ST : same_tree (TNode (col 0%nat)) (TNode (col i))).
      { eapply tml_same; [exact E|]. apply in_map_iff. exists (col i). split; [reflexivity|]. apply in_map_iff. exists i. split; [reflexivity|]. apply in_seq. lia. }
      apply (@same_tree_inv _ _ ST j); unfold col; rewrite nth_error_map, Hj; cbn [option_map]; f_equal; now apply nth_error_nth.
    + rewrite Ha in Hb. injection Hb as <-. clear. induction a as [x|l IH] using tree_ind'; cbn; [|induction l as [|t l IHl]; cbn; auto; split; [apply IH; now left|apply IHl; intros; apply IH; now right]].
      apply shape_eqb_iff. induction x as [v|l IH] using arr_ind'; [reflexivity|]. apply shape_eqb_iff. cbn. induction l as [|t l IHl]; auto. split; [apply shape_eqb_iff; apply IH; now left|apply IHl; intros; apply IH; now right].
  - f_equal. now apply tml_err in E.
Qed.

(** * expand_dims, squeeze and indexing *)
Lemma collect_all_err : forall A (l : list (outcome A)) e0, (forall x, In x l -> (exists a, x = Ok a) \/ x = Err e0) -> In (Err e0) l -> collect_all l = Err e0.
Proof.
  intros A l e0. induction l as [|x l IH]; intros H I; [destruct I|]. cbn [collect_all]. destruct (H x (or_introl eq_refl)) as [[a ->]| ->]; cbn [bind]; auto.
  destruct I as [I|I]; [discriminate|]. rewrite IH; auto. intros; apply H; now right.
Qed.
Lemma collect_all_kind : forall A (l : list (outcome A)) e0, (forall x, In x l -> (exists a, x = Ok a) \/ x = Err e0) -> (exists m, collect_all l = Ok m) \/ collect_all l = Err e0.
Proof.
  intros A l e0. induction l as [|x l IH]; intros H; cbn [collect_all]; [eauto|]. destruct (H x (or_introl eq_refl)) as [[a ->]| ->]; cbn [bind]; auto.
  destruct IH as [[m ->]| ->]; cbn [bind]; eauto. intros; apply H; now right.
Qed.
Lemma expand_kind : forall k x, (exists y, expand_dims k x = Ok y) \/ expand_dims k x = Err EValue.
Proof.
  induction k as [|k IH]; intros [v|l]; cbn [expand_dims]; eauto. destruct (@collect_all_kind _ (map (expand_dims k) l) EValue) as [[m ->]| ->]; cbn [bind]; eauto.
  intros x Hx. apply in_map_iff in Hx. destruct Hx as [a [<- _]]. apply IH.
Qed.
Lemma squeeze_kind : forall k x, (exists y, squeeze k x = Ok y) \/ squeeze k x = Err EValue.
Proof.
  induction k as [|k IH]; intros [v|l]; cbn [squeeze]; eauto; [destruct l as [|y [|]]; eauto|]. destruct (@collect_all_kind _ (map (squeeze k) l) EValue) as [[m ->]| ->]; cbn [bind]; eauto.
  intros x Hx. apply in_map_iff in Hx. destruct Hx as [a [<- _]]. apply IH.
Qed.
Lemma expand_refused : forall k x, shallower k x -> expand_dims k x = Err EValue.
Proof.
  intros k x H. induction H as [k v|k l y Hy H IH]; [reflexivity|]. cbn [expand_dims]. rewrite (@collect_all_err _ (map (expand_dims k) l) EValue); [reflexivity| |].
  - intros z Hz. apply in_map_iff in Hz. destruct Hz as [a [<- _]]. apply expand_kind.
  - apply in_map_iff. exists y. auto.
Qed.
Lemma squeeze_refused : forall k x, not_one k x -> squeeze k x = Err EValue.
Proof.
  intros k x H. induction H as [k v|l L|k l y Hy H IH]; [destruct k; reflexivity|destruct l as [|y [|]]; cbn in *; auto; lia|]. cbn [squeeze]. rewrite (@collect_all_err _ (map (squeeze k) l) EValue); [reflexivity| |].
  - intros z Hz. apply in_map_iff in Hz. destruct Hz as [a [<- _]]. apply squeeze_kind.
  - apply in_map_iff. exists y. auto.
Qed.
