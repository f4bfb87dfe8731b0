(** The rules of Connect Four, stated on boards. *)
From Coq Require Import List ZArith NArith Lia Bool.
From Verif Require Import PyCommon ConnectFourModel.
Import ListNotations.
Set Implicit Arguments.

Definition board : Type := list (list nat).

(** Six rows (row 0 on top) of seven cells; 0 is empty, 1 and 2 are tokens. *)
Definition shaped (b : board) : Prop := length b = 6 /\ Forall (fun r => length r = 7) b.
Definition cell (b : board) (i j : nat) : nat := nth j (nth i b []) 0.

(** Player [p] has a token on the grid point (i,j). *)
Definition token (b : board) (p : nat) (i j : Z) : Prop := (0 <= i < 6)%Z /\ (0 <= j < 7)%Z /\ cell b (Z.to_nat i) (Z.to_nat j) = p.
(** Four aligned tokens: horizontal, vertical and both diagonals. *)
Definition four (b : board) (p : nat) : Prop :=
  exists i j di dj, In (di, dj) [(0, 1); (1, 0); (1, 1); (1, -1)]%Z /\ forall k, (0 <= k < 4)%Z -> token b p (i + k * di)%Z (j + k * dj)%Z.
Definition full (b : board) : Prop := forall i j, i < 6 -> j < 7 -> cell b i j <> 0.
(** Number of tokens of a player. *)
Definition tokens (b : board) (p : nat) : nat := count_occ Nat.eq_dec (concat b) p.
(** The player to move: player 2 begins. *)
Definition to_move (b : board) : nat := if Nat.eqb (tokens b 1) (tokens b 2) then 2 else 1.

(** [b'] is [b] after player [p] dropped a token in column [a]. *)
Definition dropped (b b' : board) (a p : nat) : Prop :=
  exists i, i < 6 /\ cell b i a = 0 /\ (forall i', i < i' -> i' < 6 -> cell b i' a <> 0) /\ cell b' i a = p /\
    forall i' j', (i', j') <> (i, a) -> cell b' i' j' = cell b i' j'.

(** Legal states of the game. *)
Record legal (e : env) : Prop := {
  l_shape : shaped (e_board e);
  l_cells : forall i j, cell (e_board e) i j <= 2;
  l_gap : forall i j, i < 5 -> j < 7 -> cell (e_board e) i j <> 0 -> cell (e_board e) (i + 1) j <> 0;   (* no floating tokens *)
  l_len : length (e_levels e) = 7;
  l_levels : forall j i, j < 7 -> i < 6 -> (cell (e_board e) i j = 0 <-> i <= nth j (e_levels e) 0 /\ nth j (e_levels e) 0 < 6);
  l_full_level : forall j, j < 7 -> nth j (e_levels e) 0 < 6 \/ nth j (e_levels e) 0 = 255;
  l_turn : (e_players e = (1, 2) /\ tokens (e_board e) 2 = tokens (e_board e) 1) \/
           (e_players e = (2, 1) /\ tokens (e_board e) 2 = tokens (e_board e) 1 + 1);
  l_done : e_done e = true <-> (four (e_board e) 1 \/ four (e_board e) 2 \/ full (e_board e));
  l_prev : match e_prev e with
           | None => tokens (e_board e) 1 + tokens (e_board e) 2 = 0
           | Some a => a < 7 /\ exists i, i < 6 /\ cell (e_board e) i a = fst (e_players e) /\ forall i', i' < i -> cell (e_board e) i' a = 0
           end }.

Definition reachable (e : env) : Prop := exists acts, e = fst (play init_env acts).
