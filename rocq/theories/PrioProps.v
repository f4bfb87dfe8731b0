(** Properties C09-C12: PrioritizedReplayBuffer (coax/experience_replay/_prioritized.py).

    Everywhere [w0] is a freshly constructed buffer and [os] an arbitrary program over it that does not re-add, or
    assign the idx of, a one-row object that is stored at that moment; [p_added w0 os []] are the rows added since
    the last clear. *)
From Coq Require Import List ZArith Lia Bool Reals Lra Permutation.
From Verif Require Import PyCommon SegTreeModel SegTreeSpec ReplayModel ReplaySpec PrioModel PrioSpec
  PrioProofs PrioProofs2 PrioProofs3 PrioProofs4 PrioProofs5.
Import ListNotations.

(** C09: the stored transitions are the last [cap] ones, with their ids. *)
Theorem C09_window_partial : forall Y cap (h : list (tbatch (Y * R))) alpha beta eps w0 os,
  prio_init h cap alpha beta eps = Ok w0 -> p_no_alias w0 os ->
  let w := prio_run w0 os in let log := p_added w0 os [] in
  prio_len w = Nat.min cap (length log) /\
  Permutation (prio_iter w) (map Some (map as_single (lastn cap (numbered log)))).
Proof. exact (fun Y cap h alpha beta eps w0 os Hi Ha => @whole_window Y cap h alpha beta eps w0 os Hi Ha). Qed.
Print Assumptions C09_window_partial.

(** C09: transition k sits in slot k mod cap. *)
Theorem C09_slots_partial : forall Y cap (h : list (tbatch (Y * R))) alpha beta eps w0 os,
  prio_init h cap alpha beta eps = Ok w0 -> p_no_alias w0 os ->
  let w := prio_run w0 os in let log := p_added w0 os [] in
  forall k, in_window cap (length log) k ->
  exists x, nth_error log k = Some x /\ nth_error (prio_iter w) (k mod cap) = Some (Some (mkTB [x] [Z.of_nat k])).
Proof. exact (fun Y cap h alpha beta eps w0 os Hi Ha => @whole_slots Y cap h alpha beta eps w0 os Hi Ha). Qed.
Print Assumptions C09_slots_partial.

(** A buffer of capacity 2 after one add of three transitions with advantage 0. *)
Definition ex_w0 : pworld unit := one_world 3 2 1 1.
Definition ex_os : list (pop unit) := one_prog 3 0.

Example C09_example :
  prio_init (one_heap 3) 2 1%R 1%R 1%R = Ok ex_w0 /\ p_no_alias ex_w0 ex_os /\
  length (p_added ex_w0 ex_os []) = 3 /\ in_window 2 3 2.
Proof.
  split; [apply one_init; [lia|lra|lra]|]. split; [apply one_no_alias|]. split; [|split; lia].
  unfold ex_w0, ex_os. rewrite one_added. reflexivity.
Qed.

(** C09: re-adding the stored object renumbers it, so the restriction is needed. *)
Theorem C09_readding_refuted : exists os : list (pop unit),
  let w0 := one_world 1 2 1 1 in
  prio_init (one_heap 1) 2 1%R 1%R 1%R = Ok w0 /\
  ~ Permutation (prio_iter (prio_run w0 os)) (map Some (map as_single (lastn 2 (numbered (p_added w0 os []))))).
Proof.
  exists [PAdd 0 [0%R]; PAdd 0 [0%R]]. split; [apply one_init; [lia|lra|lra]|].
  intros H. apply Permutation_sym in H.
  assert (Hin : In (Some (mkTB [(tt, 1%R)] [0%Z])) (prio_iter (prio_run (one_world 1 2 1 1) [PAdd 0 [0%R]; PAdd 0 [0%R]]))).
  { apply (Permutation_in _ H). cbn. now left. }
  cbn in Hin. destruct Hin as [E|[E|[]]]; discriminate E.
Qed.
Print Assumptions C09_readding_refuted.

(** C09: add with a wrong number of advantages raises and leaves the buffer as it was; the ids it would have given are left
    in the caller's batch. *)
Theorem C09_add_rejected : forall Y cap (h : list (tbatch (Y * R))) alpha beta eps w0 os,
  prio_init h cap alpha beta eps = Ok w0 -> p_no_alias w0 os ->
  let w := prio_run w0 os in
  forall r b advs, nth_error (pheap w) r = Some b -> ~ In (Some r) (pstore (pb w)) -> length advs <> length (rows b) ->
  let w' := fst (prio_add w r advs) in
  snd (prio_add w r advs) = Some EAssertion /\ prio_iter w' = prio_iter w /\ prio_len w' = prio_len w /\ prio_values w' = prio_values w /\
  exists b', nth_error (pheap w') r = Some b' /\ rows b' = rows b /\ ids b' = map Z.of_nat (seq (length (p_added w0 os [])) (length (rows b))).
Proof. exact (fun Y cap h alpha beta eps w0 os Hi Ha r b advs => @add_refused Y cap h alpha beta eps w0 os Hi Ha r b advs). Qed.
Print Assumptions C09_add_rejected.

Example C09_add_rejected_example : exists b, nth_error (pheap (prio_run ex_w0 [])) 0 = Some b /\
  ~ In (Some 0) (pstore (pb (prio_run ex_w0 []))) /\ length [0%R] <> length (rows b).
Proof. eexists. split; [reflexivity|]. split; [|discriminate]. intros [H|[H|[]]]; discriminate. Qed.

(** C10: exact effect of update.  Per slot only the last entry of the batch counts; it takes effect when its id is
    the one stored there. Contents, unused slots and the other priorities stay as they are. *)
Theorem C10_update_exact : forall Y cap (h : list (tbatch (Y * R))) alpha beta eps w0 os,
  prio_init h cap alpha beta eps = Ok w0 -> p_no_alias w0 os ->
  let w := prio_run w0 os in let n := length (p_added w0 os []) in
  forall idx advs, update_accepted cap n (map to_int32 idx) advs = true ->
  let w' := fst (prio_update w idx advs) in
  snd (prio_update w idx advs) = None /\ prio_iter w' = prio_iter w /\
  (forall p, n <= p < cap -> nth p (prio_values w') 0%R = 0%R) /\
  forall k, in_window cap n k ->
    priority w' k = match last_hit cap (map to_int32 idx) advs k with
                    | Some (i, adv) => if Z.eqb i (Z.of_nat k) then Rpower (Rabs adv + peps (pb w)) (palpha (pb w))
                                       else priority w k
                    | None => priority w k
                    end.
Proof. exact (fun Y cap h alpha beta eps w0 os Hi Ha => @whole_update_exact Y cap h alpha beta eps w0 os Hi Ha). Qed.
Print Assumptions C10_update_exact.

(** C10: a call that is not accepted raises and changes nothing: AssertionError for different lengths, ValueError for
    empty arrays, AttributeError for an id that falls into a slot that was never used. *)
Theorem C10_update_rejected : forall Y cap (h : list (tbatch (Y * R))) alpha beta eps w0 os,
  prio_init h cap alpha beta eps = Ok w0 -> p_no_alias w0 os ->
  let w := prio_run w0 os in let n := length (p_added w0 os []) in
  forall idx advs, update_accepted cap n (map to_int32 idx) advs = false ->
  prio_update w idx advs =
    (w, Some (if Nat.eqb (length idx) (length advs) then if Nat.eqb (length idx) 0 then EValue else EAttribute else EAssertion)).
Proof. exact (fun Y cap h alpha beta eps w0 os Hi Ha => @update_kind Y cap h alpha beta eps w0 os Hi Ha). Qed.
Print Assumptions C10_update_rejected.

(** C10: the documented rule, for ids that fit in int32 and do not collide modulo the capacity. *)
Theorem C10_update_named_partial : forall Y cap (h : list (tbatch (Y * R))) alpha beta eps w0 os,
  prio_init h cap alpha beta eps = Ok w0 -> p_no_alias w0 os ->
  let w := prio_run w0 os in let n := length (p_added w0 os []) in
  forall idx advs, update_accepted cap n idx advs = true ->
  (forall i, In i idx -> (-2147483648 <= i < 2147483648)%Z) ->
  (forall i j, In i idx -> In j idx -> (i mod Z.of_nat cap = j mod Z.of_nat cap)%Z -> i = j) ->
  let w' := fst (prio_update w idx advs) in
  snd (prio_update w idx advs) = None /\ prio_iter w' = prio_iter w /\
  (forall p, n <= p < cap -> nth p (prio_values w') 0%R = 0%R) /\
  forall k, in_window cap n k ->
    priority w' k = match find (fun ia : Z * R => Z.eqb (fst ia) (Z.of_nat k)) (rev (combine idx advs)) with
                    | Some (_, adv) => Rpower (Rabs adv + peps (pb w)) (palpha (pb w))
                    | None => priority w k
                    end.
Proof. exact (fun Y cap h alpha beta eps w0 os Hi Ha => @whole_update_named Y cap h alpha beta eps w0 os Hi Ha). Qed.
Print Assumptions C10_update_named_partial.

(** C10: priorities follow the history.  [ghost_run] keeps, per transition, the base |Adv| + epsilon of its add or
    last effective update. *)
Theorem C10_priorities_follow_history : forall Y cap (h : list (tbatch (Y * R))) alpha beta eps w0 os,
  prio_init h cap alpha beta eps = Ok w0 -> p_no_alias w0 os ->
  let w := prio_run w0 os in let g := ghost_run cap w0 (mkG [] alpha eps) os in
  forall k x base, in_window cap (length (p_added w0 os [])) k -> nth_error (items g) k = Some (x, base) ->
  priority w k = Rpower base (galpha g) /\ palpha (pb w) = galpha g /\ peps (pb w) = geps g /\ (0 < base)%R.
Proof. exact (fun Y cap h alpha beta eps w0 os Hi Ha => @whole_priority Y cap h alpha beta eps w0 os Hi Ha). Qed.
Print Assumptions C10_priorities_follow_history.

Example C10_example :
  update_accepted 2 (length (p_added ex_w0 ex_os [])) (map to_int32 [2; 1; 2]%Z) [5; 6; 7]%R = true /\
  map to_int32 [2; 1; 2]%Z = [2; 1; 2]%Z /\
  last_hit 2 [2; 1; 2]%Z [5; 6; 7]%R 2 = Some (2%Z, 7%R) /\
  (forall i j, In i [2; 1; 2]%Z -> In j [2; 1; 2]%Z -> (i mod Z.of_nat 2 = j mod Z.of_nat 2)%Z -> i = j) /\
  update_accepted 2 (length (p_added ex_w0 ex_os [])) [] [] = false.
Proof.
  assert (L : length (p_added ex_w0 ex_os []) = 3) by (unfold ex_w0, ex_os; rewrite one_added; reflexivity).
  rewrite L. repeat split; try reflexivity.
  intros i j [<-|[<-|[<-|[]]]] [<-|[<-|[<-|[]]]]; vm_compute; congruence.
Qed.

(** C10: a stale id later in the batch that shares the slot undoes a valid entry: [2; 0] in a buffer of capacity 2. *)
Theorem C10_stale_id_refuted : exists idx advs k,
  let w := prio_run ex_w0 ex_os in
  update_accepted 2 (length (p_added ex_w0 ex_os [])) idx advs = true /\
  in_window 2 (length (p_added ex_w0 ex_os [])) k /\
  find (fun ia : Z * R => Z.eqb (fst ia) (Z.of_nat k)) (rev (combine idx advs)) = Some (Z.of_nat k, 5%R) /\
  priority (fst (prio_update w idx advs)) k <> Rpower (Rabs 5 + peps (pb w)) (palpha (pb w)).
Proof.
  exists [2; 0]%Z, [5; 7]%R, 2.
  assert (Hw : in_window 2 3 2) by (split; lia).
  destruct (@one_priority 3 2 1 1 0 ltac:(lia) ltac:(lra) ltac:(lra) 2 Hw) as [W [P1 [P2 P3]]].
  fold ex_w0 ex_os in W, P1, P2, P3. cbv zeta.
  assert (L : length (p_added ex_w0 ex_os []) = 3) by (unfold ex_w0, ex_os; rewrite one_added; reflexivity).
  split; [rewrite L; reflexivity|]. split; [exact W|]. split; [reflexivity|].
  destruct (C10_update_exact unit 2 (one_heap 3) 1 1 1 ex_w0 ex_os (@one_init 3 2 1 1 ltac:(lia) ltac:(lra) ltac:(lra))
              (one_no_alias 3 2 1 1 0) [2; 0]%Z [5; 7]%R) as [_ [_ [_ U]]]; [rewrite L; reflexivity|].
  rewrite (U 2 W). change (last_hit _ _ _ 2) with (Some (0%Z, 7%R)). cbv iota beta.
  change (0 =? Z.of_nat 2)%Z with false. cbv iota. rewrite P1, P2, P3.
  rewrite !Rpower_1; rewrite ?Rabs_R0; rewrite ?(Rabs_pos_eq 5); lra.
Qed.
Print Assumptions C10_stale_id_refuted.

(** C10: update ignores ids of 2^31 and more: the int32 cast changes them. *)
Theorem C10_large_id_ignored : forall Y cap (h : list (tbatch (Y * R))) alpha beta eps w0 os,
  prio_init h cap alpha beta eps = Ok w0 -> p_no_alias w0 os ->
  let w := prio_run w0 os in let n := length (p_added w0 os []) in
  forall k adv, in_window cap n k -> (2147483648 <= Z.of_nat k)%Z ->
  priority (fst (prio_update w [Z.of_nat k] [adv])) k = priority w k.
Proof. exact (fun Y cap h alpha beta eps w0 os Hi Ha => @whole_large Y cap h alpha beta eps w0 Hi os Ha). Qed.
Print Assumptions C10_large_id_ignored.

(** Such a state exists: 2^31 + 1 transitions were added. *)
Example C10_large_id_example : let N := Z.to_nat 2147483649 in
  prio_init (one_heap N) 5 1%R 1%R 1%R = Ok (one_world N 5 1 1) /\ p_no_alias (one_world N 5 1 1) (one_prog N 0) /\
  exists k, in_window 5 (length (p_added (one_world N 5 1 1) (one_prog N 0) [])) k /\ (2147483648 <= Z.of_nat k)%Z.
Proof.
  intros N. split; [apply one_init; [lia|lra|lra]|]. split; [apply one_no_alias|].
  exists (N - 1). rewrite one_added, repeat_length. unfold N, in_window. split; lia.
Qed.

(** C11: what sample returns. u_j picks the transition whose slot brackets u_j * total, so transition k is picked with
    probability P(k); its weight W is multiplied by (N P(k))^-beta / max_j (N P(j))^-beta. *)
Theorem C11_sample : forall Y cap (h : list (tbatch (Y * R))) alpha beta eps w0 os,
  prio_init h cap alpha beta eps = Ok w0 -> p_no_alias w0 os ->
  let w := prio_run w0 os in let log := p_added w0 os [] in
  forall us, log <> [] -> us <> [] -> (forall u, In u us -> (0 <= u < 1)%R) ->
  let v := prio_values w in let total := rsum v in
  let raw := fun k => Rpower (priority w k / total * INR (prio_len w)) (- pbeta (pb w)) in
  exists ks m out, prio_sample w us = Ok out /\
    Forall2 (fun u k => in_window cap (length log) k /\
              (prefix_sum v (k mod cap) <= u * total < prefix_sum v (S (k mod cap)))%R) us ks /\
    is_max m (map raw ks) /\
    Forall2 (fun k o => exists y W, nth_error log k = Some (y, W) /\ o = (y, W * (raw k / m), [Z.of_nat k])%R) ks out.
Proof. exact (fun Y cap h alpha beta eps w0 os Hi Ha => @whole_sample Y cap h alpha beta eps w0 os Hi Ha). Qed.
Print Assumptions C11_sample.

(** C11: consequences for the factors raw k / m of any batch ks of stored transitions. *)
Theorem C11_weights : forall Y cap (h : list (tbatch (Y * R))) alpha beta eps w0 os,
  prio_init h cap alpha beta eps = Ok w0 -> p_no_alias w0 os ->
  let w := prio_run w0 os in let log := p_added w0 os [] in
  let P := fun k => (priority w k / rsum (prio_values w))%R in
  let raw := fun c k => Rpower (P k * c) (- pbeta (pb w)) in
  let N := INR (prio_len w) in
  forall (us : list R) ks m, Forall2 (fun _ k => in_window cap (length log) k) us ks -> is_max m (map (raw N) ks) ->
  (forall k, In k ks -> (0 < raw N k / m <= 1)%R) /\
  (exists k, In k ks /\ (raw N k / m = 1)%R) /\
  (forall j k, In j ks -> In k ks -> (priority w j <= priority w k)%R -> (raw N k / m <= raw N j / m)%R) /\
  (forall c m', (0 < c)%R -> is_max m' (map (raw c) ks) -> forall k, In k ks -> (raw c k / m' = raw N k / m)%R).
Proof. exact (fun Y cap h alpha beta eps w0 os Hi Ha us ks m => @whole_weights Y cap h alpha beta eps w0 os Hi Ha us ks m). Qed.
Print Assumptions C11_weights.

(** C11: an empty sample is refused, whatever the buffer contains. *)
Theorem C11_batch_size_zero : forall Y (w : pworld Y), prio_sample w [] = Err EType.
Proof. reflexivity. Qed.
Print Assumptions C11_batch_size_zero.

(** C11: sampling from an empty buffer raises. *)
Theorem C11_empty : forall Y cap (h : list (tbatch (Y * R))) alpha beta eps w0 os,
  prio_init h cap alpha beta eps = Ok w0 -> p_no_alias w0 os ->
  forall us, p_added w0 os [] = [] -> us <> [] -> prio_sample (prio_run w0 os) us = Err ERuntime.
Proof. exact (fun Y cap h alpha beta eps w0 os Hi Ha => @whole_empty Y cap h alpha beta eps w0 os Hi Ha). Qed.
Print Assumptions C11_empty.

Example C11_example : p_added ex_w0 ex_os [] <> [] /\ [0; 1/3]%R <> [] /\ (forall u, In u [0; 1/3]%R -> (0 <= u < 1)%R) /\
  Forall2 (fun (_ : R) k => in_window 2 (length (p_added ex_w0 ex_os [])) k) [0; 1/3]%R [2; 1] /\ p_added ex_w0 [PClear] [] = [].
Proof.
  unfold ex_w0, ex_os. rewrite one_added. cbn [repeat length]. repeat split; try discriminate; try (destruct H as [<-|[<-|[]]]; lra).
  repeat constructor.
Qed.

(** C12: exact effect of assigning alpha, away from the 1% neighbourhood of the old value: priorities of at least
    1e-15 get the exponent new/old, smaller ones are first raised to 1e-15. *)
Theorem C12_alpha_exact : forall Y cap (h : list (tbatch (Y * R))) alpha beta eps w0 os,
  prio_init h cap alpha beta eps = Ok w0 -> p_no_alias w0 os ->
  let w := prio_run w0 os in let n := length (p_added w0 os []) in
  forall a, (0 < a)%R -> ~ too_close a (palpha (pb w)) ->
  let w' := fst (prio_set_alpha w a) in
  snd (prio_set_alpha w a) = None /\ palpha (pb w') = a /\
  (forall p, n <= p < cap -> nth p (prio_values w') 0%R = 0%R) /\
  forall k, in_window cap n k ->
    ((floor_value <= priority w k)%R -> priority w' k = Rpower (priority w k) (a / palpha (pb w))) /\
    ((priority w k < floor_value)%R -> priority w' k = Rpower floor_value (a / palpha (pb w))).
Proof. exact (fun Y cap h alpha beta eps w0 os Hi Ha => @whole_alpha Y cap h alpha beta eps w0 os Hi Ha). Qed.
Print Assumptions C12_alpha_exact.

(** C12: so base^old becomes base^new. *)
Theorem C12_base_partial : forall Y cap (h : list (tbatch (Y * R))) alpha beta eps w0 os,
  prio_init h cap alpha beta eps = Ok w0 -> p_no_alias w0 os ->
  let w := prio_run w0 os in
  forall a b k, (0 < a)%R -> ~ too_close a (palpha (pb w)) -> (0 < b)%R ->
  in_window cap (length (p_added w0 os [])) k ->
  priority w k = Rpower b (palpha (pb w)) -> (floor_value <= priority w k)%R ->
  priority (fst (prio_set_alpha w a)) k = Rpower b a.
Proof. exact (fun Y cap h alpha beta eps w0 os Hi Ha a b k => @whole_alpha_base Y cap h alpha beta eps w0 os Hi Ha a b k). Qed.
Print Assumptions C12_base_partial.

(** C12: the new state is the one of a buffer that used the new alpha from the start. *)
Theorem C12_from_start_partial : forall Y cap (h : list (tbatch (Y * R))) old new beta eps v0 w0 os,
  prio_init h cap old beta eps = Ok v0 -> prio_init h cap new beta eps = Ok w0 ->
  no_alpha os -> p_no_alias v0 os -> ~ too_close new old ->
  let v := prio_run v0 os in let w := prio_run w0 os in
  (forall x, In x (prio_values v) -> (x = 0 \/ floor_value <= x)%R) ->
  prio_values (fst (prio_set_alpha v new)) = prio_values w /\
  palpha (pb (fst (prio_set_alpha v new))) = palpha (pb w) /\
  prio_iter (fst (prio_set_alpha v new)) = prio_iter w.
Proof. exact whole_from_start. Qed.
Print Assumptions C12_from_start_partial.

(** One transition with base 2 in a buffer of capacity 2, alpha 1 -> 2. *)
Example C12_example : let w0 := one_world 1 2 1 1 in let os := one_prog 1 1 in let w := prio_run w0 os in
  ~ too_close 2 (palpha (pb w)) /\ in_window 2 (length (p_added w0 os [])) 0 /\
  priority w 0 = Rpower 2 (palpha (pb w)) /\ (floor_value <= priority w 0)%R /\ no_alpha os /\
  (forall x, In x (prio_values w) -> (x = 0 \/ floor_value <= x)%R).
Proof.
  intros w0 os w. assert (Hw : in_window 2 1 0) by (split; lia).
  destruct (@one_priority 1 2 1 1 1 ltac:(lia) ltac:(lra) ltac:(lra) 0 Hw) as [W [P1 [P2 P3]]].
  fold w0 os w in W, P1, P2, P3. rewrite P2.
  assert (Hp : priority w 0 = 2%R). { rewrite P1. rewrite Rabs_pos_eq by lra. replace (1 + 1)%R with 2%R by ring. apply Rpower_1. lra. }
  split; [unfold too_close; rewrite !Rabs_pos_eq by lra; lra|]. split; [exact W|].
  split; [rewrite Hp; symmetry; apply Rpower_1; lra|]. split; [rewrite Hp; unfold floor_value; lra|].
  split; [intros a [E|[]]; discriminate|]. intros x Hx.
  pose proof (@reach unit 2 (one_heap 1) 1%R 1%R 1%R w0 os (@one_init 1 2 1 1 ltac:(lia) ltac:(lra) ltac:(lra)) (one_no_alias 1 2 1 1 1)) as I.
  fold w0 os w in I. apply In_nth_error in Hx. destruct Hx as [p Hx].
  assert (Lp : p < 2). { rewrite <- (i_tcap I), <- (SegTreeProofs.values_length (i_tree I)). apply nth_error_Some. unfold prio_values in Hx. congruence. }
  destruct p as [|[|p]]; [| |lia].
  - right. unfold priority in Hp. rewrite (i_cap I) in Hp. change (0 mod 2) with 0 in Hp. rewrite (nth_error_nth _ _ 0%R Hx) in Hp.
    subst x. unfold floor_value. lra.
  - left. destruct (i_free I (p := 1)) as [_ F]; [unfold w0, os; rewrite one_items; cbn; lia|]. unfold prio_values in Hx. congruence.
Qed.

(** C12: a change of alpha by less than 1% is ignored. *)
Theorem C12_small_change_refuted : exists a,
  let w := prio_run (one_world 1 2 1 1) (one_prog 1 1) in
  (0 < a)%R /\ priority w 0 = Rpower 2 (palpha (pb w)) /\ a <> palpha (pb w) /\
  priority (fst (prio_set_alpha w a)) 0 <> Rpower 2 a /\ palpha (pb (fst (prio_set_alpha w a))) <> a.
Proof.
  exists (201/200)%R. cbv zeta. set (w := prio_run _ _). assert (Hw : in_window 2 1 0) by (split; lia).
  destruct (@one_priority 1 2 1 1 1 ltac:(lia) ltac:(lra) ltac:(lra) 0 Hw) as [_ [P1 [P2 P3]]]. fold w in P1, P2, P3.
  assert (E : fst (prio_set_alpha w (201/200)) = w).
  { unfold prio_set_alpha. destruct (Rle_dec _ 0); [lra|]. unfold isclose_alpha. rewrite P2.
    destruct (Rle_dec _ _) as [_|N]; [reflexivity|]. exfalso. apply N. rewrite !Rabs_pos_eq by lra. lra. }
  rewrite E, P1, P2. rewrite (Rabs_pos_eq 1) by lra. replace (1 + 1)%R with 2%R by ring.
  split; [lra|]. split; [reflexivity|]. split; [lra|]. split; [|lra].
  apply Rlt_not_eq. apply Rpower_lt; lra.
Qed.
Print Assumptions C12_small_change_refuted.

(** C12: alpha, beta and epsilon only accept positive numbers; a refused assignment changes nothing, an accepted one of
    beta or epsilon changes nothing else. *)
Theorem C12_setters : forall Y (w : pworld Y) x,
  ((x <= 0)%R -> prio_set_alpha w x = (w, Some EType) /\ prio_set_beta w x = (w, Some EType) /\ prio_set_eps w x = (w, Some EType)) /\
  ((0 < x)%R ->
   (let w' := fst (prio_set_beta w x) in snd (prio_set_beta w x) = None /\ pbeta (pb w') = x /\
    palpha (pb w') = palpha (pb w) /\ peps (pb w') = peps (pb w) /\ prio_values w' = prio_values w /\ prio_iter w' = prio_iter w /\ prio_len w' = prio_len w) /\
   (let w' := fst (prio_set_eps w x) in snd (prio_set_eps w x) = None /\ peps (pb w') = x /\
    palpha (pb w') = palpha (pb w) /\ pbeta (pb w') = pbeta (pb w) /\ prio_values w' = prio_values w /\ prio_iter w' = prio_iter w /\ prio_len w' = prio_len w)).
Proof.
  intros Y w x. unfold prio_set_alpha, prio_set_beta, prio_set_eps. split; intros H; destruct (Rle_dec x 0); try lra; repeat split.
Qed.
Print Assumptions C12_setters.

(** C12: so does the constructor; the new buffer is empty. *)
Theorem C12_constructor : forall Y cap (h : list (tbatch (Y * R))) alpha beta eps,
  (cap = 0 \/ (alpha <= 0)%R \/ (beta <= 0)%R \/ (eps <= 0)%R -> prio_init h cap alpha beta eps = Err EType) /\
  (1 <= cap -> (0 < alpha)%R -> (0 < beta)%R -> (0 < eps)%R -> exists w, prio_init h cap alpha beta eps = Ok w /\
   pcap (pb w) = cap /\ palpha (pb w) = alpha /\ pbeta (pb w) = beta /\ peps (pb w) = eps /\ prio_len w = 0 /\ prio_iter w = [] /\
   forall x, In x (prio_values w) -> x = 0%R).
Proof.
  intros Y cap h alpha beta eps. unfold prio_init. split.
  - intros H. destruct (Nat.eqb_spec cap 0); [reflexivity|]. destruct (Rle_dec alpha 0); [reflexivity|]. destruct (Rle_dec beta 0); [reflexivity|].
    destruct (Rle_dec eps 0); [reflexivity|]. destruct H as [?|[?|[?|?]]]; contradiction || lia.
  - intros H1 H2 H3 H4. destruct (Nat.eqb_spec cap 0); [lia|]. destruct (Rle_dec alpha 0); [lra|]. destruct (Rle_dec beta 0); [lra|].
    destruct (Rle_dec eps 0); [lra|]. eexists. split; [reflexivity|]. cbn [pb pcap palpha pbeta peps]. do 4 (split; [reflexivity|]).
    split; [unfold prio_len; cbn; lia|]. split; [unfold prio_iter, prio_len; cbn [pb pindex pcap]; now rewrite Nat.min_0_r|].
    intros x Hx. unfold prio_values in Hx. cbn [pb ptree] in Hx. unfold values, sumtree_init, tree_init in Hx. cbn [arr] in Hx.
    apply firstn_In_repeat in Hx. exact Hx.
Qed.
Print Assumptions C12_constructor.
