(** Properties C21-C24 and C56: ConnectFourEnv (coax/envs/_connect_four.py). *)
From Coq Require Import List ZArith NArith Lia Bool Arith.
From Verif Require Import PyCommon ConnectFourModel ConnectFourSpec ConnectFourProofs ConnectFourProofs2 ConnectFourProofs3.
Import ListNotations.

(** C21: result of an accepted move in any legal state (all reachable states are legal, C22). *)
Theorem C21_result : forall e a e' r d, legal e -> step e a = (e', Ok (r, d)) ->
  let p := to_move (e_board e) in
  dropped (e_board e) (e_board e') (Z.to_nat a) p /\ e_done e' = d /\
  (d = true /\ r = 1%Z <-> four (e_board e') p) /\
  (d = true /\ r = 0%Z <-> ~ four (e_board e') p /\ full (e_board e')) /\
  (r = 0%Z \/ r = 1%Z /\ d = true).
Proof.
  exact (fun e a e' r d HL H => match to_move_spec HL with conj _ P =>
    eq_ind _ (fun p => dropped (e_board e) (e_board e') (Z.to_nat a) p /\ e_done e' = d /\
      (d = true /\ r = 1%Z <-> four (e_board e') p) /\ (d = true /\ r = 0%Z <-> ~ four (e_board e') p /\ full (e_board e')) /\
      (r = 0%Z \/ r = 1%Z /\ d = true))
    (match step_legal _ HL H with conj _ (conj _ (conj _ (conj D (conj Dr (conj _ (conj _ (conj _ R))))))) => conj Dr (conj D R) end) _ P end).
Qed.
Print Assumptions C21_result.

(** Columns 0 and 1 alternately: player 2 wins with the seventh move. *)
Definition ex_win : list Z := [0; 1; 0; 1; 0; 1]%Z.
Example C21_example : legal (fst (play init_env ex_win)) /\ snd (step (fst (play init_env ex_win)) 0%Z) = Ok (1%Z, true) /\
  four (e_board (fst (step (fst (play init_env ex_win)) 0%Z))) 2 /\ snd (step (fst (play init_env ex_win)) 2%Z) = Ok (0%Z, false).
Proof.
  split; [apply play_legal, init_legal|]. split; [vm_compute; reflexivity|]. split; [|vm_compute; reflexivity].
  apply win_check_four; [|vm_compute; reflexivity]. split; [reflexivity|vm_compute; repeat constructor].
Qed.

(** C22: legality of all reachable states. *)
Theorem C22_reachable_legal : forall e, reachable e -> legal e.
Proof. exact reachable_legal. Qed.
Print Assumptions C22_reachable_legal.

Theorem C22_available : forall e, reachable e ->
  available_actions e = filter (fun j => Nat.eqb (cell (e_board e) 0 j) 0) (seq 0 7) /\
  available_actions_mask e = map (fun j => Nat.eqb (cell (e_board e) 0 j) 0) (seq 0 7).
Proof. exact (fun e H => conj (available_spec (reachable_legal H)) (mask_spec (reachable_legal H))). Qed.
Print Assumptions C22_available.

Theorem C22_tokens_stay : forall e acts i j, reachable e -> cell (e_board e) i j <> 0 ->
  cell (e_board (fst (play e acts))) i j = cell (e_board e) i j.
Proof. exact (fun e acts i j H => proj2 (proj2 (play_legal acts (reachable_legal H))) i j). Qed.
Print Assumptions C22_tokens_stay.

(** Column 3 filled, with two rejected moves in between. *)
Definition ex_col : list Z := [3; 3; 3; 9; 3; 3; 3; 3; 0]%Z.
Example C22_example : reachable (fst (play init_env ex_col)) /\
  available_actions (fst (play init_env ex_col)) = [0; 1; 2; 4; 5; 6] /\ nth 3 (e_levels (fst (play init_env ex_col))) 0 = 255 /\
  cell (e_board (fst (play init_env ex_col))) 5 3 = 2 /\ cell (e_board (fst (play init_env ex_col))) 0 3 = 1.
Proof. split; [now exists ex_col|]. vm_compute. auto. Qed.

(** C23: at most 42 accepted moves; done after 42; never stuck before the end. *)
Theorem C23_games_end : forall acts, snd (play init_env acts) <= 42 /\ (snd (play init_env acts) = 42 -> e_done (fst (play init_env acts)) = true) /\
  (e_done (fst (play init_env acts)) = false -> exists a e' r d, step (fst (play init_env acts)) a = (e', Ok (r, d))).
Proof.
  exact (fun acts => conj (proj1 (play_bound acts)) (conj (proj2 (play_bound acts))
    (fun H => not_done_move (reachable_legal (ex_intro _ acts eq_refl)) H))).
Qed.
Print Assumptions C23_games_end.

(** C23: exactly which moves are rejected, with which exception; a rejected move changes nothing. *)
Theorem C23_rejected : forall e a, reachable e ->
  (e_done e = true /\ step e a = (e, Err EEpisodeDone)) \/
  (e_done e = false /\ ~ (0 <= a < 7)%Z /\ step e a = (e, Err EValue)) \/
  (e_done e = false /\ (0 <= a < 7)%Z /\ cell (e_board e) 0 (Z.to_nat a) <> 0 /\ step e a = (e, Err EUnavailableAction)) \/
  (e_done e = false /\ (0 <= a < 7)%Z /\ cell (e_board e) 0 (Z.to_nat a) = 0 /\ exists e' r d, step e a = (e', Ok (r, d))).
Proof. exact (fun e a H => step_cases a (reachable_legal H)). Qed.
Print Assumptions C23_rejected.

(** A full game that ends in a draw after exactly 42 moves, and the three kinds of rejection. *)
Definition ex_draw : list Z :=
  [0; 1; 6; 4; 4; 0; 1; 5; 3; 1; 5; 4; 4; 6; 0; 1; 6; 0; 0; 4; 3; 2; 4; 2; 0; 2; 5; 6; 3; 6; 2; 3; 2; 2; 6; 1; 1; 5; 3; 5; 5; 3]%Z.
Example C23_example : reachable (fst (play init_env ex_col)) /\
  snd (step (fst (play init_env ex_col)) 3%Z) = Err EUnavailableAction /\ snd (step (fst (play init_env ex_col)) (-1)%Z) = Err EValue /\
  snd (step (fst (play init_env (ex_win ++ [0%Z]))) 3%Z) = Err EEpisodeDone /\
  snd (play init_env ex_draw) = 42 /\ e_done (fst (play init_env ex_draw)) = true /\ e_done (fst (play init_env (firstn 41 ex_draw))) = false.
Proof. split; [now exists ex_col|]. vm_compute. repeat split. Qed.

(** C24: set_state raises AttributeError when the numpy module has no attribute _base_repr, and leaves the env with the
    old board but the new player. *)
Theorem C24_set_state_refuted : exists e e0, reachable e /\ reachable e0 /\
  snd (set_state false e0 (state_id e)) = Some EAttribute /\
  e_board (fst (set_state false e0 (state_id e))) = e_board e0 /\ e_board e0 <> e_board e /\
  ~ legal (fst (set_state false e0 (state_id e))).
Proof.
  exists (fst (play init_env [3%Z])), init_env. split; [now exists [3%Z]|]. split; [now exists []|].
  split; [vm_compute; reflexivity|]. split; [vm_compute; reflexivity|]. split; [vm_compute; discriminate|].
  intros L. pose proof (l_turn L) as T. revert T. vm_compute. intros [[E _]|[_ E]]; discriminate.
Qed.
Print Assumptions C24_set_state_refuted.

(** C24: the round trip, with numpy.base_repr in the place of np._base_repr; whatever the env held before. *)
Theorem C24_roundtrip_partial : forall e e0, reachable e -> set_state true e0 (state_id e) = (e, None).
Proof. exact (fun e e0 H => set_state_roundtrip e0 (reachable_legal H)). Qed.
Print Assumptions C24_roundtrip_partial.

(** C24: distinct ids, all of 20 characters. *)
Theorem C24_ids_distinct : forall e1 e2, reachable e1 -> reachable e2 -> state_id e1 = state_id e2 -> e1 = e2.
Proof. exact (fun e1 e2 H1 H2 => state_id_inj (reachable_legal H1) (reachable_legal H2)). Qed.
Print Assumptions C24_ids_distinct.

Theorem C24_id_length : forall e, reachable e -> length (state_id e) = 20.
Proof. exact (fun e H => state_id_length (reachable_legal H)). Qed.
Print Assumptions C24_id_length.

(** C24: without np._base_repr, set_state always fails and only player, last move and done are taken over. *)
Theorem C24_missing_attribute : forall e e0, reachable e ->
  set_state false e0 (state_id e) = (mkEnv (e_players e) (e_board e0) (e_levels e0) (e_prev e) (e_done e), Some EAttribute).
Proof. exact (fun e e0 H => set_state_missing e0 (reachable_legal H)). Qed.
Print Assumptions C24_missing_attribute.

(** The id '20400000000000000099' of doc/_notebooks/connect_four/alphazero.ipynb is that of the moves 3, 2, 4. *)
Example C24_example : reachable (fst (play init_env ex_col)) /\
  state_id (fst (play init_env [3; 2; 4]%Z)) = [2; 0; 4] ++ repeat 0 15 ++ [9; 9] /\
  fst (set_state true init_env (state_id (fst (play init_env ex_win)))) = fst (play init_env ex_win).
Proof. split; [now exists ex_col|]. vm_compute. auto. Qed.

(** C56: layer 0 of the observation shows the tokens of the player who is NOT to move, layer 1 those of the player to
    move; row 0 marks the columns that are not full. *)
Theorem C56_observation : forall e, reachable e ->
  length (observation e) = 7 /\
  (forall j, j < 7 -> nth j (nth 0 (observation e) []) (0, 0) = if Nat.eqb (cell (e_board e) 0 j) 0 then (1, 1) else (0, 0)) /\
  (forall i j, i < 6 -> j < 7 -> nth j (nth (i + 1) (observation e) []) (0, 0) =
     (Nat.b2n (Nat.eqb (cell (e_board e) i j) (3 - to_move (e_board e))), Nat.b2n (Nat.eqb (cell (e_board e) i j) (to_move (e_board e))))).
Proof. exact (fun e H => observation_spec (reachable_legal H)). Qed.
Print Assumptions C56_observation.

(** C56: the documented orientation (layer 0 = player to move) is wrong. *)
Theorem C56_documented_orientation_refuted : exists e, reachable e /\ exists i j, i < 6 /\ j < 7 /\
  cell (e_board e) i j <> 0 /\ cell (e_board e) i j <> to_move (e_board e) /\ nth j (nth (i + 1) (observation e) []) (0, 0) = (1, 0).
Proof.
  exists (fst (play init_env [3%Z])). split; [now exists [3%Z]|]. exists 5, 3. vm_compute. repeat split; try lia; discriminate.
Qed.
Print Assumptions C56_documented_orientation_refuted.

Example C56_example : reachable (fst (play init_env ex_col)) /\ nth 0 (observation (fst (play init_env ex_col))) [] = [(1,1); (1,1); (1,1); (0,0); (1,1); (1,1); (1,1)].
Proof. split; [now exists ex_col|]. vm_compute. auto. Qed.
