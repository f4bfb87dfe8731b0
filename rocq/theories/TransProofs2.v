(** TransitionBatch: concatenation of arbitrary batches. *)
From Coq Require Import List ZArith Lia Bool Reals Lra.
From Verif Require Import PyCommon CommonProofs TransModel TransSpec TransProofs.
Import ListNotations.
Set Implicit Arguments.

Section T.
Variable O : Type.
Notation field := (tree (list (row O))).
Notation cat := (tmap2 (@app (row O))).

Fixpoint zapp (ls ms : list (list (row O))) : list (list (row O)) :=
  match ls, ms with l :: ls', m :: ms' => (l ++ m) :: zapp ls' ms' | _, _ => [] end.

Definition catl : list field -> list field -> outcome (list field) :=
  fix go ts us := match ts, us with
                  | [], [] => Ok []
                  | t :: ts', u :: us' => bind (cat t u) (fun x => bind (go ts' us') (fun xs => Ok (x :: xs)))
                  | _, _ => Err EValue
                  end.

Lemma cat_node : forall ts us, cat (TNode ts) (TNode us) = bind (catl ts us) (fun xs => Ok (TNode xs)).
Proof. intros. cbn [tmap2]. reflexivity. Qed.

Lemma zapp_app : forall a b c d, length a = length b -> zapp (a ++ c) (b ++ d) = zapp a b ++ zapp c d.
Proof. induction a as [|x a IH]; intros [|y b] c d E; cbn in *; try lia; auto. now rewrite IH by lia. Qed.

Lemma nesting_leaves : forall (t u : field), nesting t = nesting u -> length (leaves t) = length (leaves u).
Proof.
  induction t as [|l|ts H] using tree_ind'; intros [|m|us] E; try discriminate; auto.
  cbn in *. injection E as E. revert us E. induction H as [|t ts Ht H IH]; intros [|u us] E; try discriminate; auto.
  cbn in *. injection E as E1 E2. rewrite !app_length. rewrite (Ht u E1), (IH us E2). auto.
Qed.

Lemma cat_same : forall t u : field, nesting t = nesting u ->
  exists v, cat t u = Ok v /\ nesting v = nesting t /\ leaves v = zapp (leaves t) (leaves u).
Proof.
  induction t as [|l|ts H] using tree_ind'; intros [|m|us] E; try discriminate.
  - exists TNone. auto.
  - exists (TLeaf (l ++ m)). auto.
  - cbn in E. injection E as E. rewrite cat_node.
    assert (G : exists vs, catl ts us = Ok vs /\ map nesting vs = map nesting ts /\ flat_map leaves vs = zapp (flat_map leaves ts) (flat_map leaves us)).
    { revert us E. induction H as [|t ts Ht H IH]; intros [|u us] E; try discriminate.
      - exists []. auto.
      - cbn in E. injection E as E1 E2. destruct (Ht u E1) as [v [V1 [V2 V3]]]. destruct (IH us E2) as [vs [W1 [W2 W3]]].
        exists (v :: vs). cbn [catl]. rewrite V1. cbn [bind]. fold catl. rewrite W1. cbn [bind map flat_map]. split; auto. split; [congruence|].
        rewrite V3, W3. symmetry. apply zapp_app. now apply nesting_leaves. }
    destruct G as [vs [W1 [W2 W3]]]. exists (TNode vs). rewrite W1. cbn [bind nesting leaves]. split; auto. split; [congruence|exact W3].
Qed.

Lemma nest_dec : forall t u : tree unit, {t = u} + {t <> u}.
Proof.
  fix IH 1. intros [|a|ts] [|b|us]; try (right; discriminate).
  - left. reflexivity.
  - left. destruct a, b. reflexivity.
  - assert (D : {ts = us} + {ts <> us}).
    { revert us. induction ts as [|x ts IHl]; intros [|y us]; try (right; discriminate); [left; reflexivity|].
      destruct (IH x y) as [->|N]; [|right; congruence]. destruct (IHl us) as [->|N]; [left; reflexivity|right; congruence]. }
    destruct D as [->|N]; [left; reflexivity|right; congruence].
Qed.

Lemma cat_differ : forall t u : field, nesting t <> nesting u -> cat t u = Err EValue.
Proof.
  induction t as [|l|ts H] using tree_ind'; intros [|m|us] E; try reflexivity; try (exfalso; apply E; reflexivity).
  rewrite cat_node. assert (G : catl ts us = Err EValue).
  { assert (E' : map nesting ts <> map nesting us) by (intros F; apply E; cbn; now rewrite F). clear E. revert us E'.
    induction H as [|t ts Ht H IH]; intros [|u us] E; try reflexivity; [exfalso; apply E; reflexivity|].
    cbn [catl]. fold catl.
    destruct (nest_dec (nesting t) (nesting u)) as [D|D].
    - destruct (cat_same t u D) as [v [V _]]. rewrite V. cbn [bind]. rewrite IH; auto. intros F. apply E. cbn. now rewrite D, F.
    - rewrite Ht by auto. reflexivity. }
  rewrite G. reflexivity.
Qed.

Lemma nest_none : forall t : field, t <> TNone -> nesting t <> TNone.
Proof. intros [] H; cbn; congruence. Qed.
Lemma none_nest : forall t : field, nesting t <> TNone -> t <> TNone.
Proof. intros [] H; cbn in *; congruence. Qed.

Lemma concat2_same : forall a b : batch O, nesting (batch_tree a) = nesting (batch_tree b) -> b_W a <> TNone -> b_idx a <> TNone ->
  exists c, concat2 a b = Ok c /\ nesting (batch_tree c) = nesting (batch_tree a) /\ b_W c <> TNone /\ b_idx c <> TNone /\
    leaves (batch_tree c) = zapp (leaves (batch_tree a)) (leaves (batch_tree b)).
Proof.
  intros a b E HW HI. pose proof (nest_none HW) as HW'. pose proof (nest_none HI) as HI'.
  assert (E' := E). unfold batch_tree in E. cbn [nesting map] in E.
  destruct (@cat_same (batch_tree a) (batch_tree b) E') as [v [V1 [V2 V3]]].
  unfold batch_tree in V1. rewrite cat_node in V1. cbn [catl] in V1. injection E as E1 E2 E3 E4 E5 E6 E7 E8 E9 E10.
  destruct (cat_same (b_S a) (b_S b) E1) as [v1 [A1 [B1 C1]]]. destruct (cat_same (b_A a) (b_A b) E2) as [v2 [A2 [B2 C2]]].
  destruct (cat_same (b_logP a) (b_logP b) E3) as [v3 [A3 [B3 C3]]]. destruct (cat_same (b_In a) (b_In b) E4) as [v4 [A4 [B4 C4]]].
  destruct (cat_same (b_S_next a) (b_S_next b) E5) as [v5 [A5 [B5 C5]]]. destruct (cat_same (b_A_next a) (b_A_next b) E6) as [v6 [A6 [B6 C6]]].
  destruct (cat_same (b_logP_next a) (b_logP_next b) E7) as [v7 [A7 [B7 C7]]]. destruct (cat_same (b_W a) (b_W b) E8) as [v8 [A8 [B8 C8]]].
  destruct (cat_same (b_idx a) (b_idx b) E9) as [v9 [A9 [B9 C9]]]. destruct (cat_same (b_extra a) (b_extra b) E10) as [v10 [A10 [B10 C10]]].
  rewrite A1, A2, A3, A4, A5, A6, A7, A8, A9, A10 in V1. cbn [tmap2 bind] in V1. injection V1 as V1. subst v.
  assert (N8 : v8 <> TNone) by (apply none_nest; congruence). assert (N9 : v9 <> TNone) by (apply none_nest; congruence).
  exists (mkB v1 v2 v3 (b_Rn a ++ b_Rn b) v4 v5 v6 v7 v8 v9 v10). unfold concat2. rewrite A1, A2, A3, A4, A5, A6, A7, A8, A9, A10. cbn [bind].
  rewrite new_batch_id by auto. split; [auto|]. split; [exact V2|]. split; [exact N8|]. split; [exact N9|]. exact V3.
Qed.

Lemma concat2_differ : forall a b : batch O, nesting (batch_tree a) <> nesting (batch_tree b) -> concat2 a b = Err EValue.
Proof.
  intros a b E. pose proof (@cat_differ (batch_tree a) (batch_tree b) E) as C. unfold batch_tree in C. rewrite cat_node in C. cbn [catl tmap2] in C.
  unfold concat2. revert C.
  assert (X : forall t u : field, (exists v, cat t u = Ok v) \/ cat t u = Err EValue).
  { clear. induction t as [|l|ts H] using tree_ind'; intros [|m|us]; try (right; reflexivity); try (left; eexists; reflexivity).
    rewrite cat_node. assert (G : (exists vs, catl ts us = Ok vs) \/ catl ts us = Err EValue).
    { revert us. induction H as [|t ts Ht H IH]; intros [|u us]; try (right; reflexivity); try (left; eexists; reflexivity).
      cbn [catl]. fold catl. destruct (Ht u) as [[v V]|V]; rewrite V; cbn [bind]; auto. destruct (IH us) as [[vs W]|W]; rewrite W; cbn [bind]; eauto. }
    destruct G as [[vs W]|W]; rewrite W; cbn [bind]; eauto. }
  destruct (X (b_S a) (b_S b)) as [[v1 A1]|A1]; rewrite A1; cbn [bind]; auto.
  destruct (X (b_A a) (b_A b)) as [[v2 A2]|A2]; rewrite A2; cbn [bind]; auto.
  destruct (X (b_logP a) (b_logP b)) as [[v3 A3]|A3]; rewrite A3; cbn [bind]; auto.
  destruct (X (b_In a) (b_In b)) as [[v4 A4]|A4]; rewrite A4; cbn [bind]; auto.
  destruct (X (b_S_next a) (b_S_next b)) as [[v5 A5]|A5]; rewrite A5; cbn [bind]; auto.
  destruct (X (b_A_next a) (b_A_next b)) as [[v6 A6]|A6]; rewrite A6; cbn [bind]; auto.
  destruct (X (b_logP_next a) (b_logP_next b)) as [[v7 A7]|A7]; rewrite A7; cbn [bind]; auto.
  destruct (X (b_W a) (b_W b)) as [[v8 A8]|A8]; rewrite A8; cbn [bind]; auto.
  destruct (X (b_idx a) (b_idx b)) as [[v9 A9]|A9]; rewrite A9; cbn [bind]; auto.
  destruct (X (b_extra a) (b_extra b)) as [[v10 A10]|A10]; rewrite A10; cbn [bind]; auto. discriminate.
Qed.

Lemma zapp_nth : forall k ls ms l, nth_error (zapp ls ms) k = Some l -> exists p q, nth_error ls k = Some p /\ nth_error ms k = Some q /\ l = p ++ q.
Proof.
  induction k as [|k IH]; intros [|x ls] [|y ms] l E; cbn in *; try discriminate; eauto. injection E as <-. eauto.
Qed.

Lemma concat_from_same : forall bs (a : batch O), (forall b, In b bs -> nesting (batch_tree b) = nesting (batch_tree a)) -> b_W a <> TNone -> b_idx a <> TNone ->
  exists c, concat_from a bs = Ok c /\ nesting (batch_tree c) = nesting (batch_tree a) /\ b_W c <> TNone /\ b_idx c <> TNone /\ rows_joined (a :: bs) c.
Proof.
  induction bs as [|b bs IH]; intros a H HW HI.
  - exists a. split; [reflexivity|]. split; auto. split; auto. split; auto. intros k l Hl. exists [l]. split; [repeat constructor; auto|]. cbn. now rewrite app_nil_r.
  - destruct (@concat2_same a b) as [c [C1 [C2 [C3 [C4 C5]]]]]; auto; [symmetry; apply H; now left|].
    destruct (IH c) as [d [D1 [D2 [D3 [D4 D5]]]]]; auto; [intros b' Hb; rewrite C2; apply H; now right|].
    exists d. cbn [concat_from]. rewrite C1. cbn [bind]. split; [exact D1|]. split; [congruence|]. split; auto. split; auto.
    intros k l Hl. destruct (D5 k l Hl) as [parts [P1 P2]]. inversion P1 as [|x y xs ys Q1 Q2]; subst. rewrite C5 in Q1. destruct (zapp_nth _ _ _ Q1) as [p [q [Q3 [Q4 Q5]]]].
    exists (p :: q :: ys). split; [repeat constructor; auto|]. rewrite Q5. cbn. now rewrite app_assoc.
Qed.

Lemma concat_from_differ : forall bs (a : batch O), b_W a <> TNone -> b_idx a <> TNone -> (exists b, In b bs /\ nesting (batch_tree b) <> nesting (batch_tree a)) ->
  concat_from a bs = Err EValue.
Proof.
  induction bs as [|b bs IH]; intros a HW HI [b' [Hb N]]; [destruct Hb|]. cbn [concat_from].
  destruct (nest_dec (nesting (batch_tree a)) (nesting (batch_tree b))) as [X|X]; [|now rewrite (concat2_differ X)].
  destruct (concat2_same X HW HI) as [c [C1 [C2 [C3 [C4 _]]]]]. rewrite C1. cbn [bind]. apply IH; auto. exists b'. destruct Hb as [<-|Hb]; [exfalso; apply N; auto|]. split; auto. now rewrite C2.
Qed.

Lemma concat_rows : forall (bs : list (batch O)) ns (b0 : batch O), Forall2 (fun b n => consistent n b) bs ns -> bs <> [] ->
  (forall b, In b bs -> nesting (batch_tree b) = nesting (batch_tree b0)) ->
  exists c, concat_batches bs = Ok c /\ consistent (fold_right Nat.add 0 ns) c /\ nesting (batch_tree c) = nesting (batch_tree b0) /\ rows_joined bs c.
Proof.
  intros bs ns b0 F HN HE. destruct bs as [|a bs]; [congruence|]. assert (Ha := HE a (or_introl eq_refl)).
  inversion F as [|x n xs ms C1 F']; subst. pose proof C1 as [_ [HW HI]].
  destruct (@concat_from_same bs a) as [c [D1 [D2 [D3 [D4 D5]]]]]; auto.
  { intros b Hb. rewrite Ha. apply HE. now right. }
  exists c. split; [exact D1|]. split; [|split; [congruence|exact D5]]. split; [|auto].
  intros l Hl. apply In_nth_error in Hl. destruct Hl as [k Hk]. destruct (D5 k l Hk) as [parts [P1 ->]].
  clear - F P1. revert P1. generalize dependent parts. set (bs' := a :: bs) in *. clearbody bs'. set (ns' := n :: ms) in *. clearbody ns'. clear a bs n ms.
  induction F as [|b n bs ns C F IH]; intros parts P; inversion P as [|x y xs ys Q1 Q2]; subst; auto.
  cbn [concat fold_right]. rewrite app_length, (IH ys Q2). f_equal. destruct C as [C _]. apply C. eapply nth_error_In; eauto.
Qed.
End T.
