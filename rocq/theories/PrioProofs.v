(** Proofs about PrioritizedReplayBuffer: refinement to the specification of PrioSpec.v. *)
From Coq Require Import List ZArith Lia Bool Reals Lra.
From Verif Require Import NatDivLia PyCommon CommonProofs SegTreeModel SegTreeSpec SegTreeProofs SegTreeProofs2
  SegTreeProofs3 ReplayModel ReplaySpec ReplayProofs PrioModel PrioSpec.
Import ListNotations.
Set Implicit Arguments.

Lemma mod_window : forall cap k n, 1 <= cap -> k < n < k + cap -> k mod cap <> n mod cap.
Proof.
  intros cap k n Hc [H1 H2] E.
  pose proof (Nat.div_mod k cap ltac:(lia)) as D1. pose proof (Nat.div_mod n cap ltac:(lia)) as D2.
  rewrite E in D1. assert (cap * (n / cap) = cap * (k / cap) + (n - k)) by lia.
  assert (k / cap < n / cap) by nia. nia.
Qed.

Lemma slot_cover : forall cap n p, 1 <= cap -> p < cap -> p < n ->
  exists k, k < n /\ n <= k + cap /\ k mod cap = p.
Proof.
  intros cap n p Hc Hp Hn. exists (p + cap * ((n - 1 - p) / cap)).
  pose proof (Nat.div_mod (n - 1 - p) cap ltac:(lia)) as D.
  assert (M : (n - 1 - p) mod cap < cap) by (apply Nat.mod_upper_bound; lia).
  split; [lia|]. split; [lia|].
  rewrite Nat.mul_comm, Nat.mod_add by lia. now apply Nat.mod_small.
Qed.

Lemma scatter_window : forall A cap (vs : list A) (a : list A) n,
  1 <= cap -> length a = cap ->
  let m := length vs in
  let a' := scatter a (map (fun k => k mod cap) (seq n m)) vs in
  (forall k, k < n + m -> n + m <= k + cap ->
     nth_error a' (k mod cap) = if Nat.ltb k n then nth_error a (k mod cap) else nth_error vs (k - n)) /\
  (forall p, n + m <= p < cap -> nth_error a' p = nth_error a p).
Proof.
  intros A cap vs. induction vs as [|v vs IH]; intros a n Hc Ha m a'.
  - subst m a'. cbn [length seq map scatter]. rewrite Nat.add_0_r. split; auto.
    intros k Hk _. destruct (Nat.ltb_spec k n); [reflexivity|lia].
  - subst m a'. cbn [length seq map scatter].
    assert (Hnm : n mod cap < cap) by (apply Nat.mod_upper_bound; lia).
    destruct (IH (upd a (n mod cap) v) (S n) Hc) as [I1 I2]. { now rewrite upd_length. }
    cbv zeta in I1, I2. split.
    + intros k H1 H2. rewrite I1 by lia. rewrite nth_error_upd.
      destruct (Nat.ltb_spec k (S n)) as [L|L]; destruct (Nat.ltb_spec k n) as [L'|L']; try lia.
      * destruct (Nat.eqb_spec (n mod cap) (k mod cap)) as [E|E]; auto.
        exfalso. apply (@mod_window cap k n); auto; lia.
      * assert (k = n) by lia. subst k. rewrite Nat.eqb_refl. replace (n - n) with 0 by lia.
        destruct (Nat.ltb_spec (n mod cap) (length a)); [reflexivity|lia].
      * replace (k - n) with (S (k - S n)) by lia. reflexivity.
    + intros p Hp. rewrite I2 by lia. rewrite nth_error_upd. destruct (Nat.eqb_spec (n mod cap) p) as [E|E]; auto.
      exfalso. rewrite Nat.mod_small in E by lia. lia.
Qed.

Lemma scatter_all : forall A (vs a p : list A), length a = length vs ->
  scatter (p ++ a) (seq (length p) (length vs)) vs = p ++ vs.
Proof.
  induction vs as [|v vs IH]; intros [|x a] p H; try discriminate; [reflexivity|].
  cbn [length seq scatter].
  assert (E : upd (p ++ x :: a) (length p) v = (p ++ [v]) ++ a).
  { clear. induction p; simpl; auto. now f_equal. }
  rewrite E. specialize (IH a (p ++ [v]) ltac:(cbn in H; lia)). rewrite app_length in IH. cbn [length] in IH.
  rewrite Nat.add_1_r in IH. rewrite IH. now rewrite <- app_assoc.
Qed.

Lemma find_map' : forall A B (f : A -> B) P l, find P (map f l) = option_map f (find (fun x => P (f x)) l).
Proof. induction l as [|x l IH]; simpl; auto. destruct (P (f x)); auto. Qed.

Lemma find_ext_in : forall A (P Q : A -> bool) l, (forall x, In x l -> P x = Q x) -> find P l = find Q l.
Proof.
  induction l as [|x l IH]; simpl; intros H; auto. rewrite (H x) by now left.
  destruct (Q x); auto.
Qed.

Lemma combine_map_l : forall A B C (f : A -> C) (l : list A) (m : list B),
  combine (map f l) m = map (fun ab => (f (fst ab), snd ab)) (combine l m).
Proof. induction l; destruct m; simpl; auto. now f_equal. Qed.

Lemma combine_map_r : forall A B C (f : B -> C) (l : list A) (m : list B),
  combine l (map f m) = map (fun ab => (fst ab, f (snd ab))) (combine l m).
Proof. induction l; destruct m; simpl; auto. now f_equal. Qed.

Notation sum_ok := (tree_ok Rplus 0%R).

Lemma set_values_scatter : forall t slots vs, sum_ok t ->
  (forall z, In z slots -> (0 <= z < Z.of_nat (capacity t))%Z) -> length vs = length slots ->
  exists t', set_values_eff Rplus 0%R t slots vs = (t', None) /\ sum_ok t' /\ capacity t' = capacity t /\
    values t' = scatter (values t) (map Z.to_nat slots) vs.
Proof.
  intros t slots vs Ht Hs Hl.
  destruct (@set_values_ok _ Rplus 0%R t slots vs Ht) as [t' [E [Ht' [Hc Hv]]]].
  { split; cbn [fst snd]; [|now left]. intros k Hk. specialize (Hs k Hk). unfold pyvalid. lia. }
  exists t'. split.
  { unfold set_values in E. destruct (set_values_eff Rplus 0%R t slots vs) as [t1 [e|]]; [discriminate|]. now injection E as ->. }
  split; [auto|]. split; [auto|].
  apply list_eq_nth with (d := 0%R).
  { rewrite scatter_length, (values_length Ht'), (values_length Ht). auto. }
  intros i Hi. rewrite (values_length Ht') in Hi. rewrite (values_nth Ht') by auto. rewrite Hv by lia.
  rewrite nth_scatter_last.
  - unfold assigned. rewrite (values_nth Ht) by lia.
    assert (Hcp : call_pairs (slots, vs) = combine slots vs).
    { unfold call_pairs. cbn [fst snd]. destruct vs as [|v [|v2 vs]]; auto. destruct slots as [|z [|z2 slots]]; try discriminate. reflexivity. }
    rewrite Hcp. rewrite combine_map_l. rewrite <- map_rev, find_map'.
    rewrite (find_ext_in (fun kv : Z * R => (pynorm (capacity t) (fst kv) =? Z.of_nat i)%Z)
              (fun x : Z * R => fst (Z.to_nat (fst x), snd x) =? i)).
    + destruct (find _ _); reflexivity.
    + intros [z v] Hin. apply in_rev in Hin. apply in_combine_l in Hin. specialize (Hs z Hin). cbn [fst snd].
      unfold pynorm. destruct (Z.ltb_spec z 0); [lia|].
      destruct (Z.eqb_spec z (Z.of_nat i)); destruct (Nat.eqb_spec (Z.to_nat z) i); auto; lia.
  - rewrite map_length. lia.
  - intros p Hp. apply in_map_iff in Hp. destruct Hp as [z [<- Hz]]. specialize (Hs z Hz). rewrite (values_length Ht). lia.
Qed.

Lemma all_some_map : forall A B (f : A -> option B) (g : A -> B) l, (forall x, In x l -> f x = Some (g x)) ->
  all_some (map f l) = Ok (map g l).
Proof.
  induction l as [|x l IH]; intros H; [reflexivity|]. cbn [map all_some]. rewrite (H x) by now left. cbn [all_some].
  rewrite IH by (intros; apply H; now right). reflexivity.
Qed.

Lemma all_some_none : forall A (l : list (option A)), In None l -> all_some l = Err EAttribute.
Proof.
  induction l as [|[x|] l IH]; intros H; [destruct H| |reflexivity].
  destruct H as [H|H]; [discriminate|]. simpl. now rewrite IH.
Qed.

Lemma slot_of_nat : forall cap k, 1 <= cap -> slot_of cap (Z.of_nat k) = Z.of_nat (k mod cap).
Proof. intros. unfold slot_of. now rewrite Nat2Z.inj_mod. Qed.

Lemma slot_of_range : forall cap z, 1 <= cap -> (0 <= slot_of cap z < Z.of_nat cap)%Z.
Proof. intros. unfold slot_of. apply Z.mod_pos_bound. lia. Qed.

Section Items.
Variable Y : Type.
Notation prow := (Y * R)%type.

Lemma map_items_length : forall f (l : list (prow * R)), length (map_items f l) = length l.
Proof. intros. unfold map_items. rewrite map_length, combine_length, seq_length. lia. Qed.

Lemma nth_map_items : forall f (l : list (prow * R)) k,
  nth_error (map_items f l) k = option_map (fun it : prow * R => (fst it, f k (snd it))) (nth_error l k).
Proof.
  intros f l k. unfold map_items.
  assert (H : forall l s k, nth_error (map (fun kx : nat * (prow * R) => (fst (snd kx), f (fst kx) (snd (snd kx)))) (combine (seq s (length l)) l)) k =
    option_map (fun it : prow * R => (fst it, f (s + k) (snd it))) (nth_error l k)).
  { clear. induction l as [|x l IH]; intros s [|k]; cbn [length seq combine map nth_error option_map]; auto.
    - now rewrite Nat.add_0_r.
    - rewrite IH. now rewrite Nat.add_succ_comm. }
  apply H.
Qed.

Lemma in_map_items : forall f (l : list (prow * R)) it, In it (map_items f l) -> exists k it0, In it0 l /\ it = (fst it0, f k (snd it0)).
Proof.
  intros f l it H. apply In_nth_error in H. destruct H as [k H]. rewrite nth_map_items in H.
  destruct (nth_error l k) as [it0|] eqn:E; [|discriminate]. injection H as <-. exists k, it0. split; auto. eapply nth_error_In; eauto.
Qed.

End Items.

Section Refine.
Variable Y : Type.
Notation prow := (Y * R)%type.
Variable cap : nat.
Hypothesis Hcap : 1 <= cap.

Definition stored (w : pworld Y) (alpha : R) (k : nat) (it : prow * R) : Prop :=
  exists r, nth_error (pstore (pb w)) (k mod cap) = Some (Some r) /\
    nth_error (pheap w) r = Some (mkTB [fst it] [Z.of_nat k]) /\
    nth_error (values (ptree (pb w))) (k mod cap) = Some (Rpower (snd it) alpha).

Record pinv (w : pworld Y) (g : ghost Y) : Prop := mkPinv {
  i_cap : pcap (pb w) = cap;
  i_index : pindex (pb w) = length (items g);
  i_alpha : palpha (pb w) = galpha g;
  i_alpha_pos : (0 < galpha g)%R;
  i_eps : peps (pb w) = geps g;
  i_eps_pos : (0 < geps g)%R;
  i_tree : sum_ok (ptree (pb w));
  i_tcap : capacity (ptree (pb w)) = cap;
  i_slen : length (pstore (pb w)) = cap;
  i_base : forall it, In it (items g) -> (0 < snd it)%R;
  i_win : forall k it, in_window cap (length (items g)) k -> nth_error (items g) k = Some it -> stored w (galpha g) k it;
  i_free : forall p, length (items g) <= p < cap ->
             nth_error (pstore (pb w)) p = Some None /\ nth_error (values (ptree (pb w))) p = Some 0%R }.

Lemma pinv_slot : forall w g p, pinv w g -> p < cap -> p < length (items g) ->
  exists k it, in_window cap (length (items g)) k /\ k mod cap = p /\ nth_error (items g) k = Some it /\ stored w (galpha g) k it.
Proof.
  intros w g p I H1 H2. destruct (slot_cover Hcap H1 H2) as [k [K1 [K2 K3]]].
  destruct (nth_error (items g) k) as [it|] eqn:E.
  2:{ apply nth_error_None in E. lia. }
  exists k, it. repeat split; auto. apply (i_win I); auto. split; auto.
Qed.

Lemma pinv_store_valid : forall w g r, pinv w g -> In (Some r) (pstore (pb w)) -> r < length (pheap w).
Proof.
  intros w g r I Hin. apply In_nth_error in Hin. destruct Hin as [p Hp].
  assert (Hpc : p < cap). { rewrite <- (i_slen I). apply nth_error_Some. congruence. }
  destruct (Nat.lt_ge_cases p (length (items g))) as [L|L].
  - destruct (pinv_slot I Hpc L) as [k [it [_ [K [_ [r' [S1 [S2 _]]]]]]]]. rewrite K in S1. rewrite Hp in S1.
    injection S1 as <-. apply nth_error_Some. congruence.
  - destruct (i_free I (p := p)) as [F _]; [lia|congruence].
Qed.

(** Heap changes that do not touch stored objects. *)
Lemma pinv_heap : forall w g h', pinv w g ->
  (forall r, In (Some r) (pstore (pb w)) -> nth_error h' r = nth_error (pheap w) r) ->
  pinv (mkPW h' (pb w)) g.
Proof.
  intros w g h' I Hh. destruct I as [I1 I2 I3 I3' I4 I4' I5 I6 I7 I8 I9 I10].
  split; cbn [pb pheap]; auto.
  intros k it Hw Hit. destruct (I9 k it Hw Hit) as [r [S1 [S2 S3]]]. exists r. cbn [pb pheap]. repeat split; auto.
  rewrite Hh; auto. eapply nth_error_In; eauto.
Qed.

Lemma init_pinv : forall h alpha beta eps w, prio_init h cap alpha beta eps = Ok w ->
  pinv w (mkG [] alpha eps) /\ pheap w = h.
Proof.
  intros h alpha beta eps w H. unfold prio_init in H.
  destruct (Nat.eqb_spec cap 0); [discriminate|]. destruct (Rle_dec alpha 0); [discriminate|].
  destruct (Rle_dec beta 0); [discriminate|]. destruct (Rle_dec eps 0); [discriminate|]. injection H as <-.
  assert (Hok : sum_ok (sumtree_init cap)) by (apply init_ok; [ring|auto]).
  assert (Hv : values (sumtree_init cap) = repeat 0%R cap).
  { apply list_eq_nth with (d := 0%R); [now rewrite (values_length Hok), repeat_length|].
    intros i Hi. rewrite (values_length Hok) in Hi. rewrite (values_nth Hok Hi).
    unfold SegTreeProofs.leaf, SegTreeModel.get, sumtree_init, tree_init. cbn [arr]. now rewrite !get_repeat. }
  split; [|reflexivity]. split; cbn [pb pcap pindex palpha peps ptree pstore items galpha geps length]; auto; try lra.
  - apply repeat_length.
  - intros it [].
  - intros k it [Hk _]. lia.
  - intros p [_ Hp]. rewrite Hv. split; rewrite nth_error_repeat; auto.
Qed.

Lemma slots_nat : forall n m, map Z.to_nat (map (slot_of cap) (zrange n m)) = map (fun k => k mod cap) (seq n m).
Proof.
  intros. unfold zrange. rewrite !map_map. apply map_ext. intros k. rewrite slot_of_nat by auto. apply Nat2Z.id.
Qed.

Lemma add_pinv : forall w g r advs, pinv w g -> ~ In (Some r) (pstore (pb w)) ->
  pinv (fst (prio_add w r advs)) (ghost_step cap (pheap w) g (PAdd r advs)) /\
  (forall b, nth_error (pheap w) r = Some b -> length advs = length (rows b) -> snd (prio_add w r advs) = None).
Proof.
  intros w g r advs I Hna. cbn [ghost_step]. unfold prio_add.
  destruct (nth_error (pheap w) r) as [b|] eqn:Er; [|split; [exact I|discriminate]].
  set (idx := zrange (pindex (pb w)) (length (rows b))).
  destruct (Nat.eqb_spec (length advs) (length (rows b))) as [El|El]; cbn [negb].
  2:{ split.
      - apply pinv_heap; auto. intros q Hq. apply set_ids_other. intros ->. auto.
      - intros b' E. injection E as <-. intros; lia. }
  destruct (to_singles (set_ids (pheap w) r idx) r) as [h2 refs] eqn:Es.
  destruct (@singles_view _ _ _ _ idx _ _ Er (zrange_length _ _) Es) as [V1 V2].
  assert (Hrl : length refs = length (rows b)).
  { apply (f_equal (@length _)) in V1. rewrite !map_length, combine_length in V1. unfold idx in V1. rewrite zrange_length in V1. lia. }
  destruct (@set_values_scatter (ptree (pb w)) (map (slot_of (pcap (pb w))) idx)
              (map (prio_of (peps (pb w)) (palpha (pb w))) advs) (i_tree I)) as [t' [E1 [E2 [E3 E4]]]].
  { intros z Hz. apply in_map_iff in Hz. destruct Hz as [y [<- _]]. rewrite (i_tcap I), (i_cap I). now apply slot_of_range. }
  { rewrite !map_length. unfold idx. rewrite zrange_length. auto. }
  rewrite E1. cbn [fst snd]. split; [|reflexivity].
  set (n := length (items g)). set (m := length (rows b)) in *.
  assert (Hnew : length (combine (rows b) (map (fun a => Rabs a + geps g)%R advs)) = m).
  { rewrite combine_length, map_length. fold m. lia. }
  assert (Hidx : map Z.to_nat (map (slot_of (pcap (pb w))) idx) = map (fun k => k mod cap) (seq n m)).
  { unfold idx. rewrite (i_cap I), (i_index I). apply slots_nat. }
  destruct (@scatter_window _ cap (map Some refs) (pstore (pb w)) n Hcap (i_slen I)) as [W1 W2].
  destruct (@scatter_window _ cap (map (prio_of (peps (pb w)) (palpha (pb w))) advs) (values (ptree (pb w))) n Hcap) as [U1 U2].
  { rewrite (values_length (i_tree I)). apply (i_tcap I). }
  rewrite map_length, Hrl in W1, W2. rewrite map_length, El in U1, U2. cbv zeta in W1, W2, U1, U2.
  rewrite <- Hidx in W1, W2, U1, U2. rewrite <- E4 in U1, U2.
  split; cbn [pb pcap pindex palpha peps ptree pstore pheap items galpha geps].
  - apply (i_cap I).
  - rewrite app_length, Hnew. rewrite (i_index I). reflexivity.
  - apply (i_alpha I).
  - apply (i_alpha_pos I).
  - apply (i_eps I).
  - apply (i_eps_pos I).
  - auto.
  - rewrite E3. apply (i_tcap I).
  - rewrite scatter_length. apply (i_slen I).
  - intros it Hin. apply in_app_or in Hin. destruct Hin as [Hin|Hin]; [now apply (i_base I)|].
    destruct it as [x a]. apply in_combine_r in Hin. apply in_map_iff in Hin. destruct Hin as [adv [<- _]]. cbn [snd].
    pose proof (i_eps_pos I). pose proof (Rabs_pos adv). lra.
  - rewrite app_length, Hnew. fold n. intros k it [K1 K2] Hit. unfold stored. cbn [pb pstore pheap ptree].
    specialize (W1 k K1 K2). specialize (U1 k K1 K2).
    destruct (Nat.ltb_spec k n) as [L|L].
    + rewrite nth_error_app1 in Hit by auto.
      assert (Hw : in_window cap n k) by (split; [auto|lia]).
      destruct (i_win I Hw Hit) as [q [S1 [S2 S3]]].
      exists q. rewrite W1, U1. repeat split; auto.
      rewrite V2; auto.
      * intros ->. apply Hna. eapply nth_error_In; eauto.
      * apply nth_error_Some. congruence.
    + rewrite nth_error_app2 in Hit by auto. fold n in Hit.
      assert (Hkm : k - n < m) by lia.
      destruct (nth_error refs (k - n)) as [q|] eqn:Eq.
      2:{ apply nth_error_None in Eq. lia. }
      exists q. rewrite W1, U1. split; [now apply map_nth_error|].
      destruct (nth_error (rows b) (k - n)) as [x|] eqn:Ex.
      2:{ apply nth_error_None in Ex. fold m in Ex. lia. }
      destruct (nth_error advs (k - n)) as [adv|] eqn:Ea.
      2:{ apply nth_error_None in Ea. lia. }
      assert (Hcomb : forall A B (l : list A) (l' : list B) j x y, nth_error l j = Some x -> nth_error l' j = Some y ->
                nth_error (combine l l') j = Some (x, y)).
      { clear. induction l as [|a l IH]; intros [|c l'] [|j] x y H1 H2; simpl in *; try discriminate; auto. congruence. }
      assert (Eit : it = (x, Rabs adv + geps g)%R).
      { rewrite (Hcomb _ _ _ _ _ _ _ Ex (map_nth_error (fun a => Rabs a + geps g)%R _ _ Ea)) in Hit. congruence. }
      subst it. cbn [fst snd]. split.
      * pose proof (map_nth_error (nth_error h2) _ _ Eq) as M. rewrite V1 in M.
        assert (Hi : nth_error idx (k - n) = Some (Z.of_nat k)).
        { unfold idx, zrange. fold m. rewrite (i_index I). fold n.
          rewrite (nth_error_nth' _ 0%Z) by (rewrite map_length, seq_length; auto).
          change 0%Z with (Z.of_nat 0). rewrite map_nth, seq_nth by auto. f_equal. f_equal. lia. }
        rewrite (map_nth_error (fun xi => Some (as_single xi)) _ _ (Hcomb _ _ _ _ _ _ _ Ex Hi)) in M. now injection M as <-.
      * rewrite (map_nth_error _ _ _ Ea). unfold prio_of. now rewrite (i_eps I), (i_alpha I).
  - rewrite app_length, Hnew. fold n. intros p Hp. rewrite W2, U2 by auto. apply (i_free I). fold n. lia.
Qed.

Lemma update_pinv : forall w g idx advs, pinv w g ->
  pinv (fst (prio_update w idx advs)) (ghost_step cap (pheap w) g (PUpdate idx advs)) /\
  (snd (prio_update w idx advs) = None <-> update_accepted cap (length (items g)) (map to_int32 idx) advs = true) /\
  (snd (prio_update w idx advs) <> None -> fst (prio_update w idx advs) = w).
Proof.
  intros w g idx0 advs I. cbn [ghost_step]. cbv zeta. set (idx := map to_int32 idx0). unfold prio_update, update_accepted. fold idx.
  set (n := length (items g)).
  destruct (Nat.eqb_spec (length idx) (length advs)) as [El|El]; cbn [negb andb].
  2:{ cbn [fst snd]. split; [exact I|]. split; [split; discriminate|reflexivity]. }
  destruct (Nat.eqb_spec (length idx) 0) as [E0|E0]; cbn [negb andb].
  { cbn [fst snd]. split; [exact I|]. split; [split; discriminate|reflexivity]. }
  set (slots := map (slot_of (pcap (pb w))) idx).
  assert (Hlt : forall p, In p (map Z.to_nat slots) -> p < cap).
  { intros p Hp. unfold slots in Hp. rewrite map_map in Hp. apply in_map_iff in Hp. destruct Hp as [z [<- _]].
    rewrite (i_cap I). pose proof (@slot_of_range cap z Hcap). lia. }
  rewrite (@gather_ok _ (pstore (pb w)) None) by (rewrite (i_slen I); auto). cbn [bind].
  set (ps := map Z.to_nat slots) in *.
  destruct (forallb (fun i => (i mod Z.of_nat cap <? Z.of_nat n)%Z) idx) eqn:Ef.
  2:{ assert (Hex : exists p, In p ps /\ n <= p).
      { clear - Ef I Hcap. unfold ps, slots. induction idx as [|z l IH]; [discriminate|]. cbn [forallb] in Ef.
        apply andb_false_iff in Ef. destruct Ef as [Ef|Ef].
        - exists (Z.to_nat (slot_of (pcap (pb w)) z)). split; [now left|]. apply Z.ltb_ge in Ef. rewrite (i_cap I). unfold slot_of.
          pose proof (@slot_of_range cap z Hcap). unfold slot_of in *. lia.
        - destruct (IH Ef) as [p [P1 P2]]. exists p. split; [now right|auto]. }
      destruct Hex as [p [P1 P2]]. rewrite all_some_none.
      2:{ apply in_map_iff. exists p. split; auto.
          destruct (i_free I (p := p)) as [F _]; [split; auto|]. now apply nth_error_nth. }
      cbn [bind fst snd]. split; [exact I|]. split; [split; discriminate|reflexivity]. }
  assert (Hused : forall p, In p ps -> p < n).
  { intros p Hp. unfold ps, slots in Hp. rewrite map_map in Hp. apply in_map_iff in Hp. destruct Hp as [z [<- Hz]].
    rewrite forallb_forall in Ef. specialize (Ef z Hz). cbv beta in Ef. apply Z.ltb_lt in Ef. rewrite (i_cap I).
    pose proof (@slot_of_range cap z Hcap). unfold slot_of in *. lia. }
  set (rf := fun p => match nth p (pstore (pb w)) None with Some r => r | None => 0 end).
  rewrite (@all_some_map _ _ _ rf).
  2:{ intros p Hp. destruct (pinv_slot I (Hlt p Hp) (Hused p Hp)) as [k [it [_ [K [_ [r [S1 _]]]]]]]. rewrite K in S1.
      unfold rf. now rewrite (nth_error_nth _ _ None S1). }
  cbn [bind]. rewrite (@gather_ok _ (values (ptree (pb w))) 0%R).
  2:{ rewrite (values_length (i_tree I)), (i_tcap I). auto. }
  cbn [bind].
  set (vl := fun p => nth p (values (ptree (pb w))) 0%R).
  set (F := fun ia : Z * R => let p := Z.to_nat (slot_of cap (fst ia)) in
             if id_matches (pheap w) (rf p) (fst ia) then prio_of (peps (pb w)) (palpha (pb w)) (snd ia) else vl p).
  assert (Hnews : map (fun x : (nat * Z) * (R * R) => let '((r, i), (adv, old)) := x in
                      if id_matches (pheap w) r i then prio_of (peps (pb w)) (palpha (pb w)) adv else old)
                      (combine (combine (map rf ps) idx) (combine advs (map vl ps))) = map F (combine idx advs)).
  { unfold ps, slots. rewrite (i_cap I). clear - El. revert advs El. induction idx as [|z l IH]; intros [|a advs] El; try discriminate; [reflexivity|].
    cbn [map combine]. f_equal. apply IH. cbn in El. lia. }
  rewrite Hnews. clear Hnews.
  destruct (@set_values_scatter (ptree (pb w)) slots (map F (combine idx advs)) (i_tree I)) as [t' [E1 [E2 [E3 E4]]]].
  { intros z Hz. unfold slots in Hz. apply in_map_iff in Hz. destruct Hz as [y [<- _]]. rewrite (i_tcap I), (i_cap I). now apply slot_of_range. }
  { unfold slots. rewrite !map_length, combine_length. lia. }
  rewrite E1. cbn [fst snd]. split; [|split; [split; reflexivity|congruence]].
  split; cbn [pb pcap pindex palpha peps ptree pstore pheap items galpha geps]; try apply I; auto.
  - rewrite map_items_length. apply (i_index I).
  - rewrite E3. apply (i_tcap I).
  - intros it Hin. apply in_map_items in Hin. destruct Hin as [k [it0 [Hin ->]]]. cbn [snd]. unfold updated_base.
    pose proof (i_base I _ Hin). destruct (last_hit cap idx advs k) as [[i adv]|]; auto.
    destruct (Z.eqb i (Z.of_nat k)); auto. pose proof (i_eps_pos I). pose proof (Rabs_pos adv). lra.
  - rewrite map_items_length. intros k it Hw Hit. rewrite nth_map_items in Hit.
    destruct (nth_error (items g) k) as [it0|] eqn:Eit; [|discriminate]. injection Hit as <-.
    destruct (i_win I Hw Eit) as [r [S1 [S2 S3]]]. exists r. cbn [pb pstore pheap ptree fst snd].
    repeat split; auto.
    assert (Hkc : k mod cap < cap) by (apply Nat.mod_upper_bound; lia).
    rewrite (nth_error_nth' _ 0%R) by (rewrite (values_length E2), E3, (i_tcap I); auto). f_equal. rewrite E4.
    rewrite nth_scatter_last.
    + fold ps. assert (Hcm : combine ps (map F (combine idx advs)) = map (fun ia => (Z.to_nat (slot_of cap (fst ia)), F ia)) (combine idx advs)).
      { unfold ps, slots. rewrite (i_cap I). clear - El. revert advs El. clearbody idx F. induction idx as [|z l IH]; intros [|a advs] El; try discriminate; [reflexivity|].
        cbn [map combine]. f_equal. apply IH. cbn in El. lia. }
      rewrite Hcm. rewrite <- map_rev, find_map'. cbn [fst].
      unfold updated_base, last_hit.
      rewrite (find_ext_in (fun x : Z * R => Z.to_nat (slot_of cap (fst x)) =? k mod cap)
                 (fun ia : Z * R => (fst ia mod Z.of_nat cap =? Z.of_nat k mod Z.of_nat cap)%Z)).
      2:{ intros [z a] _. cbn [fst]. pose proof (@slot_of_range cap z Hcap). pose proof (@slot_of_nat cap k Hcap) as Hk. unfold slot_of in *.
          rewrite Hk. destruct (Nat.eqb_spec (Z.to_nat (z mod Z.of_nat cap)) (k mod cap)); destruct (Z.eqb_spec (z mod Z.of_nat cap) (Z.of_nat (k mod cap))); auto; lia. }
      destruct (find _ (rev (combine idx advs))) as [[i adv]|] eqn:Efind; cbn [option_map snd].
      * apply find_some in Efind. destruct Efind as [_ Ei]. cbn [fst] in Ei. apply Z.eqb_eq in Ei.
        unfold F. cbn [fst snd]. cbv zeta.
        assert (Hslot : Z.to_nat (slot_of cap i) = k mod cap).
        { unfold slot_of. rewrite Ei. pose proof (@slot_of_nat cap k Hcap) as Hk. unfold slot_of in Hk. rewrite Hk. apply Nat2Z.id. }
        rewrite Hslot. assert (Hrf : rf (k mod cap) = r). { unfold rf. now rewrite (nth_error_nth _ _ None S1). }
        rewrite Hrf. unfold id_matches, deref. rewrite (nth_error_nth _ _ _ S2). cbn [ids].
        rewrite Z.eqb_sym. destruct (Z.eqb i (Z.of_nat k)).
        -- unfold prio_of. now rewrite (i_eps I), (i_alpha I).
        -- unfold vl. now rewrite (nth_error_nth _ _ 0%R S3).
      * now apply nth_error_nth.
    + unfold ps, slots. rewrite !map_length, combine_length. lia.
    + intros p Hp. fold ps in Hp. rewrite (values_length (i_tree I)), (i_tcap I). auto.
  - rewrite map_items_length. intros p H. destruct (i_free I H) as [F1 F2]. split; [exact F1|]. rewrite E4.
    rewrite (nth_error_nth' _ 0%R) by (rewrite scatter_length, (values_length (i_tree I)), (i_tcap I); lia).
    rewrite nth_scatter_notin.
    + f_equal. now apply nth_error_nth.
    + fold ps. intros Hp. apply Hused in Hp. fold n in H. lia.
Qed.
End Refine.
