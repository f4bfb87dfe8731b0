(** Whole games, rejected moves, observations and state ids. *)
From Coq Require Import List ZArith NArith Lia Bool Arith.
From Verif Require Import PyCommon ConnectFourModel ConnectFourSpec ConnectFourProofs ConnectFourProofs2.
Import ListNotations.
Set Implicit Arguments.

(** * Rejected moves *)
Lemma step_err_same : forall e a e' x, step e a = (e', Err x) -> e' = e.
Proof.
  intros e a e' x H. unfold step in H. destruct (e_done e); [congruence|]. destruct (negb (contains a)); [congruence|].
  destruct (negb _); [congruence|]. destruct (nth_error _ _); [|congruence]. destruct (done_reward _ _) as [e2 [d r]]. discriminate.
Qed.

Lemma contains_iff : forall a, contains a = true <-> (0 <= a < 7)%Z.
Proof. intros a. unfold contains. rewrite andb_true_iff, Z.leb_le, Z.ltb_lt. change (Z.of_nat num_cols) with 7%Z. lia. Qed.

Lemma step_cases : forall e a, legal e ->
  (e_done e = true /\ step e a = (e, Err EEpisodeDone)) \/
  (e_done e = false /\ ~ (0 <= a < 7)%Z /\ step e a = (e, Err EValue)) \/
  (e_done e = false /\ (0 <= a < 7)%Z /\ cell (e_board e) 0 (Z.to_nat a) <> 0 /\ step e a = (e, Err EUnavailableAction)) \/
  (e_done e = false /\ (0 <= a < 7)%Z /\ cell (e_board e) 0 (Z.to_nat a) = 0 /\ exists e' r d, step e a = (e', Ok (r, d))).
Proof.
  intros e a HL. unfold step. destruct (e_done e); [left; auto|right].
  destruct (contains a) eqn:EC; cbn [negb].
  - right. apply contains_iff in EC. rewrite (available_spec HL).
    destruct (existsb _ _) eqn:EX; cbn [negb].
    + right. apply existsb_exists in EX. destruct EX as [x [Hx Ex]]. apply Nat.eqb_eq in Ex. subst x. apply filter_In in Hx. destruct Hx as [_ Hx].
      apply Nat.eqb_eq in Hx. split; auto. split; auto. split; auto. rewrite (nth_error_nth' _ 0) by (rewrite (l_len HL); lia).
      destruct (done_reward _ _) as [e2 [d r]]. eauto.
    + left. split; auto. split; auto. split; auto. intros E.
      assert (existsb (Nat.eqb (Z.to_nat a)) (filter (fun j => Nat.eqb (cell (e_board e) 0 j) 0) (seq 0 7)) = true); [|congruence].
      apply existsb_exists. exists (Z.to_nat a). split; [|apply Nat.eqb_refl]. apply filter_In. split; [apply in_seq; lia|now apply Nat.eqb_eq].
  - left. split; auto. split; auto. intros H. apply contains_iff in H. congruence.
Qed.

(** * Whole games *)
Definition total (e : env) : nat := tokens (e_board e) 1 + tokens (e_board e) 2.

Lemma step_total : forall e a e' r d, legal e -> step e a = (e', Ok (r, d)) -> total e' = total e + 1.
Proof.
  intros e a e' r d HL H. destruct (step_legal _ HL H) as (_ & _ & _ & _ & _ & _ & _ & T & _). unfold total.
  rewrite (T 1), (T 2) by lia. destruct (l_turn HL) as [[E _]|[E _]]; rewrite E; cbn; lia.
Qed.

Lemma play_legal : forall acts e, legal e -> legal (fst (play e acts)) /\ total (fst (play e acts)) = total e + snd (play e acts) /\
  (forall i j, cell (e_board e) i j <> 0 -> cell (e_board (fst (play e acts))) i j = cell (e_board e) i j).
Proof.
  induction acts as [|a acts IH]; intros e HL; cbn [play].
  - cbn. split; auto.
  - destruct (step e a) as [e1 r] eqn:ES. destruct (play e1 acts) as [e2 k] eqn:EP. destruct r as [[r d]|x]; cbn [fst snd].
    + destruct (step_legal _ HL ES) as (L1 & _ & _ & _ & (i0 & _ & D0 & _ & _ & D1) & _). pose proof (step_total _ HL ES) as T.
      specialize (IH e1 L1). rewrite EP in IH. cbn in IH. destruct IH as [I1 [I2 I3]]. split; auto. split; [lia|].
      intros i j H. rewrite <- (D1 i j) in H |- *; [now apply I3|..]; intros E; injection E as -> ->; auto.
    + apply step_err_same in ES. subst e1. specialize (IH e HL). rewrite EP in IH. exact IH.
Qed.

Lemma reachable_legal : forall e, reachable e -> legal e.
Proof. intros e [acts ->]. apply play_legal. apply init_legal. Qed.

Lemma total_bound : forall e, legal e -> total e <= 42 /\ (total e = 42 -> e_done e = true).
Proof.
  intros e HL. pose proof (tokens_total (l_shape HL) (l_cells HL)) as T. unfold total. split; [lia|].
  intros E. apply (l_done HL). right. right. apply full_tokens; [apply (l_shape HL)|lia].
Qed.

Lemma play_bound : forall acts, snd (play init_env acts) <= 42 /\ (snd (play init_env acts) = 42 -> e_done (fst (play init_env acts)) = true).
Proof.
  intros acts. destruct (play_legal acts init_legal) as [L [T _]]. change (total init_env) with 0 in T. rewrite Nat.add_0_l in T.
  rewrite <- T. apply (total_bound L).
Qed.

Lemma not_done_move : forall e, legal e -> e_done e = false -> exists a e' r d, step e a = (e', Ok (r, d)).
Proof.
  intros e HL HD. destruct (available_actions e) as [|x l] eqn:E.
  - exfalso. apply (full_available HL) in E. assert (e_done e = true); [|congruence]. apply (l_done HL). auto.
  - assert (HI : In x (available_actions e)) by (rewrite E; now left). rewrite (available_spec HL) in HI. apply filter_In in HI.
    destruct HI as [H1 H2]. apply in_seq in H1. apply Nat.eqb_eq in H2. exists (Z.of_nat x).
    destruct (step_cases (Z.of_nat x) HL) as [[C _]|[[_ [C _]]|[[_ [_ [C _]]]|[_ [_ [_ C]]]]]]; [congruence|lia| |exact C].
    rewrite Nat2Z.id in C. congruence.
Qed.

(** * Observation *)
Lemma upd_fold_nth : forall A (x d : A) js m k, (forall j, In j js -> j < length m) ->
  nth k (fold_left (fun m a => upd m a x) js m) d = if existsb (Nat.eqb k) js then x else nth k m d.
Proof.
  induction js as [|j js IH]; intros m k H; auto. cbn [fold_left existsb]. rewrite IH.
  - rewrite upd_nth by (apply H; now left). destruct (existsb (Nat.eqb k) js); [now rewrite orb_true_r|]. rewrite orb_false_r. reflexivity.
  - intros j' Hj'. rewrite upd_length. apply H. now right.
Qed.

Lemma avail_existsb : forall e j, legal e -> j < 7 -> existsb (Nat.eqb j) (available_actions e) = Nat.eqb (cell (e_board e) 0 j) 0.
Proof.
  intros e j HL Hj. rewrite (available_spec HL). destruct (Nat.eqb_spec (cell (e_board e) 0 j) 0) as [E|E].
  - apply existsb_exists. exists j. split; [|apply Nat.eqb_refl]. apply filter_In. split; [apply in_seq; lia|now apply Nat.eqb_eq].
  - destruct (existsb _ _) eqn:X; auto. exfalso. apply existsb_exists in X. destruct X as [x [Hx Ex]]. apply Nat.eqb_eq in Ex. subst x.
    apply filter_In in Hx. destruct Hx as [_ Hx]. apply Nat.eqb_eq in Hx. auto.
Qed.

Lemma avail_range : forall e j, legal e -> In j (available_actions e) -> j < 7.
Proof. intros e j HL H. rewrite (available_spec HL) in H. apply filter_In in H. destruct H as [H _]. apply in_seq in H. lia. Qed.

Lemma to_move_spec : forall e, legal e -> fst (e_players e) = 3 - to_move (e_board e) /\ snd (e_players e) = to_move (e_board e).
Proof.
  intros e HL. unfold to_move. destruct (l_turn HL) as [[E T]|[E T]]; rewrite E, T; cbn [fst snd].
  - rewrite Nat.eqb_refl. auto.
  - destruct (Nat.eqb_spec (tokens (e_board e) 1) (tokens (e_board e) 1 + 1)); [lia|auto].
Qed.

Lemma observation_spec : forall e, legal e ->
  length (observation e) = 7 /\
  (forall j, j < 7 -> nth j (nth 0 (observation e) []) (0, 0) = if Nat.eqb (cell (e_board e) 0 j) 0 then (1, 1) else (0, 0)) /\
  (forall i j, i < 6 -> j < 7 -> nth j (nth (i + 1) (observation e) []) (0, 0) =
     (Nat.b2n (Nat.eqb (cell (e_board e) i j) (3 - to_move (e_board e))), Nat.b2n (Nat.eqb (cell (e_board e) i j) (to_move (e_board e))))).
Proof.
  intros e HL. destruct (to_move_spec HL) as [P0 P1]. unfold observation. split; [|split].
  - cbn [length]. rewrite map_length. destruct (l_shape HL). lia.
  - intros j Hj. cbn [nth]. rewrite upd_fold_nth.
    + rewrite avail_existsb by auto. destruct (Nat.eqb _ 0); auto. now rewrite repeat_nth.
    + intros k Hk. rewrite repeat_length. now apply (avail_range _ HL).
  - intros i j Hi Hj. rewrite Nat.add_comm. cbn [nth Nat.add]. rewrite <- P0, <- P1.
    set (f := fun x => (Nat.b2n (Nat.eqb x (fst (e_players e))), Nat.b2n (Nat.eqb x (snd (e_players e))))).
    pose proof (row_length (l_shape HL) Hi) as HR. destruct (l_shape HL) as [HS _].
    rewrite (nth_indep (map (map f) (e_board e)) [] (map f [])) by (rewrite map_length; lia). rewrite map_nth.
    rewrite (nth_indep (map f (nth i (e_board e) [])) (0, 0) (f 0)) by (rewrite map_length; lia). rewrite map_nth. reflexivity.
Qed.

Lemma mask_spec : forall e, legal e -> available_actions_mask e = map (fun j => Nat.eqb (cell (e_board e) 0 j) 0) (seq 0 7).
Proof.
  intros e HL. unfold available_actions_mask.
  assert (LEN : forall js (m : list bool), length (fold_left (fun m a => upd m a true) js m) = length m).
  { induction js; intros m; cbn; auto. now rewrite IHjs, upd_length. }
  apply (nth_ext _ _ false false).
  - rewrite LEN, map_length, seq_length. reflexivity.
  - intros k Hk. rewrite LEN in Hk. change (length (repeat false num_cols)) with 7 in Hk. rewrite upd_fold_nth by (intros j Hj; now apply (avail_range _ HL)).
    rewrite avail_existsb by auto. rewrite (nth_indep (map (fun j => Nat.eqb (cell (e_board e) 0 j) 0) (seq 0 7)) false (Nat.eqb (cell (e_board e) 0 0) 0)) by (now rewrite map_length, seq_length).
    rewrite (map_nth (fun j => Nat.eqb (cell (e_board e) 0 j) 0)). rewrite seq_nth by auto. cbn [Nat.add].
    destruct (Nat.eqb _ 0); auto. now rewrite repeat_nth.
Qed.

(** * Numbers in positional notation *)
Lemma of_digits_snoc : forall base l d, of_digits base (l ++ [d]) = (of_digits base l * base + N.of_nat d)%N.
Proof. intros. unfold of_digits. now rewrite fold_left_app. Qed.

Lemma of_digits_zeros : forall base k l, of_digits base (repeat 0 k ++ l) = of_digits base l.
Proof. intros base k l. unfold of_digits. rewrite fold_left_app. f_equal. induction k; cbn; auto. Qed.

Lemma of_digits_inj : forall base l l', length l = length l' -> (forall d, In d l -> (N.of_nat d < base)%N) -> (forall d, In d l' -> (N.of_nat d < base)%N) ->
  of_digits base l = of_digits base l' -> l = l'.
Proof.
  intros base l. induction l as [|x l IH] using rev_ind; intros l' HL H1 H2 E.
  - destruct l'; [auto|discriminate].
  - destruct (exists_last (l := l')) as [l2 [y ->]]; [intros ->; rewrite app_length in HL; cbn in HL; lia|].
    rewrite !of_digits_snoc in E. rewrite !app_length in HL. cbn in HL.
    assert (X : (N.of_nat x < base)%N) by (apply H1, in_or_app; right; now left). assert (Y : (N.of_nat y < base)%N) by (apply H2, in_or_app; right; now left).
    assert (base <> 0)%N by lia.
    assert (Q : of_digits base l = of_digits base l2).
    { rewrite !(N.mul_comm _ base) in E. apply (N.div_mod_unique base) in E; tauto. }
    rewrite Q in E. assert (N.of_nat x = N.of_nat y) by lia. assert (x = y) by lia. subst y. f_equal. apply IH; auto; try lia.
    + intros d Hd. apply H1, in_or_app. auto.
    + intros d Hd. apply H2, in_or_app. auto.
Qed.

Lemma of_digits_bound : forall base l, (forall d, In d l -> (N.of_nat d < base)%N) -> (1 <= base)%N -> (of_digits base l < base ^ N.of_nat (length l))%N.
Proof.
  intros base l. induction l as [|x l IH] using rev_ind; intros H Hb.
  - cbn. lia.
  - rewrite of_digits_snoc, app_length. cbn [length]. rewrite Nat.add_1_r, Nat2N.inj_succ, N.pow_succ_r'.
    specialize (IH ltac:(intros d Hd; apply H, in_or_app; auto) Hb). assert (X : (N.of_nat x < base)%N) by (apply H, in_or_app; right; now left). nia.
Qed.

Lemma digits_aux_app : forall fuel base n acc, digits_aux fuel base n acc = digits_aux fuel base n [] ++ acc.
Proof.
  induction fuel as [|f IH]; intros base n acc; cbn; auto. destruct (N.eqb n 0); auto. rewrite IH, (IH _ _ [_]). now rewrite <- app_assoc.
Qed.

Lemma digits_aux_spec : forall base fuel n, (2 <= base)%N -> (n < 2 ^ N.of_nat fuel)%N ->
  of_digits base (digits_aux fuel base n []) = n /\ (forall d, In d (digits_aux fuel base n []) -> (N.of_nat d < base)%N).
Proof.
  intros base. induction fuel as [|f IH]; intros n Hb Hn.
  - cbn in *. split; [|intros d []]. unfold of_digits. cbn. lia.
  - cbn [digits_aux]. destruct (N.eqb_spec n 0) as [->|N0]; [split; [reflexivity|intros d []]|].
    rewrite digits_aux_app. rewrite Nat2N.inj_succ, N.pow_succ_r' in Hn.
    destruct (IH (n / base)%N Hb) as [I1 I2]. { apply N.div_lt_upper_bound; [lia|]. nia. }
    rewrite of_digits_snoc, I1, N2Nat.id. split.
    + rewrite N.mul_comm. symmetry. apply N.div_mod. lia.
    + intros d Hd. apply in_app_or in Hd. destruct Hd as [Hd|[<-|[]]]; auto. rewrite N2Nat.id. apply N.mod_lt. lia.
Qed.

Lemma digits_aux_length : forall base fuel n m, (2 <= base)%N -> (n < base ^ N.of_nat m)%N -> length (digits_aux fuel base n []) <= m.
Proof.
  intros base. induction fuel as [|f IH]; intros n m Hb Hn; cbn [digits_aux]; [cbn; lia|].
  destruct (N.eqb_spec n 0) as [->|N0]; [cbn; lia|]. rewrite digits_aux_app, app_length. cbn [length].
  destruct m as [|m]; [cbn in Hn; lia|]. rewrite Nat2N.inj_succ, N.pow_succ_r' in Hn.
  specialize (IH (n / base)%N m Hb ltac:(apply N.div_lt_upper_bound; lia)). lia.
Qed.

Lemma size_bound : forall n, (n < 2 ^ N.of_nat (N.size_nat n))%N.
Proof.
  intros n. assert (E : N.of_nat (N.size_nat n) = N.size n).
  { destruct n as [|p]; [reflexivity|]. cbn. induction p; cbn in *; auto; rewrite ?SuccNat2Pos.id_succ; lia. }
  rewrite E. apply N.size_gt.
Qed.

Lemma digits_spec : forall base n, (2 <= base)%N -> of_digits base (digits base n) = n /\ (forall d, In d (digits base n) -> (N.of_nat d < base)%N).
Proof. intros. apply digits_aux_spec; auto. apply size_bound. Qed.

Lemma base_repr_spec : forall base n m, (2 <= base)%N -> (n < base ^ N.of_nat m)%N -> 1 <= m ->
  of_digits base (base_repr base n) = n /\ (forall d, In d (base_repr base n) -> (N.of_nat d < base)%N) /\ 1 <= length (base_repr base n) <= m.
Proof.
  intros base n m Hb Hn Hm. destruct (@digits_spec base n Hb) as [D1 D2].
  pose proof (@digits_aux_length base (N.size_nat n) n m Hb Hn) as D3. fold (digits base n) in D3. unfold base_repr.
  destruct (digits base n) as [|x l] eqn:E.
  - cbn in *. subst n. split; [reflexivity|]. split; [|lia]. intros d [<-|[]]. cbn. lia.
  - split; auto. split; auto. cbn in *. lia.
Qed.

Lemma format_hex_spec : forall w n, (n < 16 ^ N.of_nat w)%N -> 1 <= w -> of_digits 16 (format_hex w n) = n /\ length (format_hex w n) = w.
Proof.
  intros w n Hn Hw. destruct (@base_repr_spec 16 n w ltac:(lia) Hn Hw) as [B1 [_ B3]].
  assert (E : format_hex w n = repeat 0 (w - length (base_repr 16 n)) ++ base_repr 16 n) by (unfold format_hex, base_repr; destruct (digits 16 n); reflexivity).
  rewrite E. rewrite of_digits_zeros, app_length, repeat_length. split; [auto|lia].
Qed.

(** * State ids *)
Lemma reshape_concat : forall n (b : board), length b = n -> Forall (fun r => length r = 7) b -> reshape n 7 (concat b) = b.
Proof.
  induction n as [|n IH]; intros [|r b] H F; try discriminate; auto. inversion F; subst. cbn [concat reshape].
  rewrite firstn_app, H2, Nat.sub_diag, firstn_O, app_nil_r, firstn_all2 by lia.
  rewrite skipn_app, H2, Nat.sub_diag, skipn_all2 by lia. cbn. rewrite IH; auto.
Qed.

Lemma column_cells : forall b j, shaped b -> rev (column b j) = [cell b 5 j; cell b 4 j; cell b 3 j; cell b 2 j; cell b 1 j; cell b 0 j].
Proof.
  intros b j [H _]. unfold column, cell. destruct b as [|r0 [|r1 [|r2 [|r3 [|r4 [|r5 [|]]]]]]]; try discriminate. reflexivity.
Qed.

Lemma col_level_spec : forall e j, legal e -> j < 7 -> col_level (num_rows - 1) (rev (column (e_board e) j)) = nth j (e_levels e) 0.
Proof.
  intros e j HL Hj. rewrite column_cells by apply (l_shape HL). pose proof (l_levels HL) as LL.
  pose proof (LL j 0 Hj ltac:(lia)) as L0. pose proof (LL j 1 Hj ltac:(lia)) as L1. pose proof (LL j 2 Hj ltac:(lia)) as L2.
  pose proof (LL j 3 Hj ltac:(lia)) as L3. pose proof (LL j 4 Hj ltac:(lia)) as L4. pose proof (LL j 5 Hj ltac:(lia)) as L5.
  pose proof (l_full_level HL Hj) as FL. cbn [num_rows Nat.sub col_level u8_dec].
  repeat match goal with |- context [Nat.eqb ?x 0] => destruct (Nat.eqb_spec x 0) end; lia.
Qed.

Lemma board_digits : forall e, legal e -> forall d, In d (concat (e_board e)) -> (N.of_nat d < 3)%N.
Proof. intros e HL d Hd. apply In_concat_cell in Hd; [|apply (l_shape HL)]. destruct Hd as (i & j & _ & _ & <-). pose proof (l_cells HL i j). lia. Qed.

Lemma board_number : forall e, legal e -> (of_digits 3 (concat (e_board e)) < 3 ^ N.of_nat 42)%N.
Proof.
  intros e HL. rewrite <- (concat_length_shaped (l_shape HL)). apply of_digits_bound; [|lia]. now apply board_digits.
Qed.

Lemma hex_fits : (3 ^ N.of_nat 42 < 16 ^ N.of_nat 17)%N.
Proof. vm_compute. reflexivity. Qed.

Lemma state_id_length : forall e, legal e -> length (state_id e) = 20.
Proof.
  intros e HL. unfold state_id. rewrite app_length. pose proof (board_number HL). pose proof hex_fits.
  destruct (@format_hex_spec 17 (of_digits 3 (concat (e_board e))) ltac:(lia) ltac:(lia)) as [_ ->]. reflexivity.
Qed.

Lemma set_state_roundtrip : forall e e0, legal e -> set_state true e0 (state_id e) = (e, None).
Proof.
  intros e e0 HL. unfold state_id. set (n := of_digits 3 (concat (e_board e))). pose proof (board_number HL) as HN. fold n in HN. pose proof hex_fits as HF.
  destruct (@format_hex_spec 17 n ltac:(lia) ltac:(lia)) as [F1 F2]. set (rest := format_hex 17 n) in *. cbn [app set_state].
  assert (P : fst (e_players e) = 1 \/ fst (e_players e) = 2) by (destruct (l_turn HL) as [[E _]|[E _]]; rewrite E; auto).
  assert (P2 : (fst (e_players e), 3 - fst (e_players e)) = e_players e) by (destruct (l_turn HL) as [[E _]|[E _]]; rewrite E; auto).
  replace (Nat.eqb (fst (e_players e)) 1 || Nat.eqb (fst (e_players e)) 2) with true by (destruct P as [->| ->]; reflexivity). cbn [negb].
  replace (Nat.eqb (if e_done e then 1 else 0) 0 || Nat.eqb (if e_done e then 1 else 0) 1) with true by (destruct (e_done e); reflexivity). cbn [negb].
  pose proof (l_prev HL) as PR.
  replace (Nat.ltb (match e_prev e with None => num_cols | Some a => a end) num_cols || Nat.eqb (match e_prev e with None => num_cols | Some a => a end) num_cols) with true.
  2: { destruct (e_prev e) as [a|]; [|reflexivity]. destruct PR as [PR _]. symmetry. apply orb_true_iff. left. now apply Nat.ltb_lt. }
  cbn [negb]. destruct rest as [|x rest'] eqn:ER; [discriminate|]. rewrite <- ER in *. rewrite F1.
  destruct (@base_repr_spec 3 n 42 ltac:(lia) HN ltac:(lia)) as [B1 [B2 B3]].
  change (num_rows * num_cols) with 42. destruct (Nat.ltb_spec 42 (length (base_repr 3 n))); [lia|].
  assert (EB : repeat 0 (42 - length (base_repr 3 n)) ++ base_repr 3 n = concat (e_board e)).
  { apply of_digits_inj with (base := 3%N).
    - rewrite app_length, repeat_length, (concat_length_shaped (l_shape HL)). lia.
    - intros d Hd. apply in_app_or in Hd. destruct Hd as [Hd|Hd]; auto. apply repeat_spec in Hd. subst d. cbn. lia.
    - now apply board_digits.
    - rewrite of_digits_zeros, B1. reflexivity. }
  rewrite EB. destruct (l_shape HL) as [S1 S2].
  assert (RB : reshape num_rows num_cols (concat (e_board e)) = e_board e) by (now apply (reshape_concat (n := 6))).
  rewrite RB.
  assert (EL : map (fun j => col_level (num_rows - 1) (rev (column (e_board e) j))) (seq 0 num_cols) = e_levels e).
  { apply (nth_ext _ _ 0 0).
    - rewrite map_length, seq_length, (l_len HL). reflexivity.
    - intros k Hk. rewrite map_length, seq_length in Hk. change num_cols with 7 in Hk.
      rewrite (nth_indep _ 0 (col_level (num_rows - 1) (rev (column (e_board e) 0)))) by (rewrite map_length, seq_length; exact Hk).
      rewrite (map_nth (fun j => col_level (num_rows - 1) (rev (column (e_board e) j)))). rewrite seq_nth by exact Hk. now apply col_level_spec. }
  rewrite EL. cbn [e_players e_prev e_done]. rewrite P2.
  assert (EP : (if Nat.eqb (match e_prev e with None => num_cols | Some a => a end) num_cols then None else Some (match e_prev e with None => num_cols | Some a => a end)) = e_prev e).
  { destruct (e_prev e) as [a|]; [|reflexivity]. destruct PR as [PR _]. destruct (Nat.eqb_spec a num_cols); [unfold num_cols in *; lia|reflexivity]. }
  rewrite EP. assert (ED : Nat.eqb (if e_done e then 1 else 0) 1 = e_done e) by (destruct (e_done e); reflexivity). rewrite ED.
  destruct e; reflexivity.
Qed.

Lemma state_id_inj : forall e1 e2, legal e1 -> legal e2 -> state_id e1 = state_id e2 -> e1 = e2.
Proof.
  intros e1 e2 H1 H2 E. pose proof (set_state_roundtrip init_env H1) as R1. rewrite E, (set_state_roundtrip init_env H2) in R1. congruence.
Qed.

Lemma set_state_missing : forall e e0, legal e ->
  set_state false e0 (state_id e) = (mkEnv (e_players e) (e_board e0) (e_levels e0) (e_prev e) (e_done e), Some EAttribute).
Proof.
  intros e e0 HL. pose proof (set_state_roundtrip e0 HL) as R. unfold state_id in *. cbn [app set_state] in *.
  destruct (negb (_ || _)) eqn:E1 in R; [congruence|]. rewrite E1.
  destruct (negb (_ || _)) eqn:E2 in R; [congruence|]. rewrite E2.
  destruct (negb (_ || _)) eqn:E3 in R; [congruence|]. rewrite E3. cbn [negb] in *.
  destruct (format_hex _ _); [discriminate|]. destruct (Nat.ltb _ _) eqn:E4 in R; [discriminate|].
  injection R as R. pose proof (f_equal e_players R) as R1. pose proof (f_equal e_prev R) as R2. pose proof (f_equal e_done R) as R3.
  cbn [e_players e_prev e_done] in R1, R2, R3.
  match goal with |- (?x, ?u) = (?y, _) => assert (EE : x = y); [|now rewrite EE] end. f_equal; [exact R1|exact R2|exact R3].
Qed.
