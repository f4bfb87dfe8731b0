(** Prioritized buffer: refused calls. *)
From Coq Require Import List ZArith Lia Bool Reals Lra Permutation.
From Verif Require Import PyCommon CommonProofs SegTreeModel SegTreeSpec SegTreeProofs ReplayModel ReplaySpec PrioModel PrioSpec
  PrioProofs PrioProofs2 PrioProofs3 PrioProofs4.
Import ListNotations.
Set Implicit Arguments.

Section Refused.
Variable Y : Type.
Notation prow := (Y * R)%type.
Variable cap : nat.
Variables (h : list (tbatch prow)) (alpha beta eps : R) (w0 : pworld Y) (os : list (pop Y)).
Hypothesis Hinit : prio_init h cap alpha beta eps = Ok w0.
Hypothesis Hal : p_no_alias w0 os.
Notation w := (prio_run w0 os).
Notation log := (p_added w0 os []).

Lemma update_kind : forall idx advs, update_accepted cap (length log) (map to_int32 idx) advs = false ->
  prio_update w idx advs = (w, Some (if Nat.eqb (length idx) (length advs) then if Nat.eqb (length idx) 0 then EValue else EAttribute else EAssertion)).
Proof.
  intros idx advs H. pose proof (@cap_pos Y cap h alpha beta eps w0 Hinit) as Hc.
  pose proof (@reach Y cap h alpha beta eps w0 os Hinit Hal) as I. rewrite <- (@log_length Y cap alpha eps w0 os) in H.
  unfold prio_update. unfold update_accepted in H. rewrite map_length in *.
  destruct (Nat.eqb (length idx) (length advs)); cbn [negb andb] in *; [|reflexivity].
  destruct (Nat.eqb_spec (length idx) 0) as [|N]; cbn [negb andb] in *; [reflexivity|].
  set (g := ghost_run cap w0 (mkG [] alpha eps) os) in *.
  set (slots := map Z.to_nat (map (slot_of (pcap (pb w))) (map to_int32 idx))).
  assert (Hs : forall p, In p slots -> p < cap).
  { intros p Hp. unfold slots in Hp. rewrite (i_cap I), !map_map in Hp. apply in_map_iff in Hp. destruct Hp as [z [<- _]].
    pose proof (slot_of_range (to_int32 z) Hc). lia. }
  rewrite (@gather_ok _ (pstore (pb w)) None slots) by (intros p Hp; rewrite (i_slen I); auto). cbn [bind].
  rewrite all_some_none; [reflexivity|].
  assert (E : exists i, In i (map to_int32 idx) /\ (Z.of_nat (length (items g)) <= i mod Z.of_nat cap)%Z).
  { clear - H. induction (map to_int32 idx) as [|i l IH]; cbn [forallb] in H; [discriminate|].
    destruct (Z.ltb_spec (i mod Z.of_nat cap) (Z.of_nat (length (items g)))) as [L|L].
    - cbn [andb] in H. destruct (IH H) as [j [J1 J2]]. exists j. split; auto. now right.
    - exists i. split; auto. now left. }
  destruct E as [i [Hi Li]]. apply in_map_iff. exists (Z.to_nat (slot_of (pcap (pb w)) i)). split.
  - rewrite (i_cap I). pose proof (slot_of_range i Hc) as Hr. destruct (i_free I (p := Z.to_nat (slot_of cap i))) as [F _].
    { fold g. split; [unfold slot_of in *; lia|lia]. }
    now apply nth_error_nth.
  - unfold slots. apply in_map, in_map. exact Hi.
Qed.

Lemma add_refused : forall r b advs, nth_error (pheap w) r = Some b -> ~ In (Some r) (pstore (pb w)) -> length advs <> length (rows b) ->
  let w' := fst (prio_add w r advs) in
  snd (prio_add w r advs) = Some EAssertion /\ prio_iter w' = prio_iter w /\ prio_len w' = prio_len w /\ prio_values w' = prio_values w /\
  exists b', nth_error (pheap w') r = Some b' /\ rows b' = rows b /\ ids b' = map Z.of_nat (seq (length log) (length (rows b))).
Proof.
  intros r b advs Hr Hn Hl. pose proof (@reach Y cap h alpha beta eps w0 os Hinit Hal) as I.
  unfold prio_add. rewrite Hr. destruct (Nat.eqb_spec (length advs) (length (rows b))); [contradiction|]. cbn [negb fst snd]. split; [reflexivity|].
  rewrite (i_index I), (@log_length Y cap alpha eps w0 os).
  assert (Hd : forall q, q <> r -> forall ix, deref (set_ids (pheap w) r ix) q = deref (pheap w) q).
  { intros q Hq ix. unfold deref, set_ids. rewrite Hr. apply nth_upd_other. auto. }
  split; [|split; [reflexivity|split; [reflexivity|]]].
  - unfold prio_iter, prio_len. cbn [pheap pb]. apply map_ext_in. intros o Ho. destruct o as [q|]; [|reflexivity]. cbn [option_map]. f_equal.
    apply Hd. intros ->. apply Hn. revert Ho. generalize (Nat.min (pcap (pb w)) (pindex (pb w))). generalize (pstore (pb w)). clear.
    induction l as [|x l IH]; intros [|n] Ho; cbn in *; try tauto. destruct Ho; [now left|right; eauto].
  - cbn [pheap]. eexists. split; [unfold set_ids; rewrite Hr, nth_error_upd, Nat.eqb_refl; assert (L : r < length (pheap w)) by (apply nth_error_Some; congruence); apply Nat.ltb_lt in L; rewrite L; reflexivity|]. cbn [rows ids]. split; reflexivity.
Qed.
End Refused.

Lemma firstn_In_repeat : forall A (x y : A) k n m, In y (firstn k (skipn n (repeat x m))) -> y = x.
Proof.
  intros A x y k n m H.
  assert (G : forall (l : list A) j, In y (firstn j l) -> In y l).
  { induction l as [|z l IH]; intros [|j] F; cbn in *; try tauto. destruct F; [now left|right; eauto]. }
  apply G in H.
  assert (G' : forall (l : list A) j, In y (skipn j l) -> In y l).
  { induction l as [|z l IH]; intros [|j] F; cbn in *; try tauto. right. eauto. }
  apply G' in H. now apply repeat_spec in H.
Qed.
