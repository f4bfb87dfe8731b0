(** Model of coax/envs/_connect_four.py: ConnectFourEnv.

    Simplifications, for the whole file: uint8 arrays are lists of natural numbers (the only uint8 overflow that can
    happen, levels[a] -= 1 at 0, is modelled); actions are integers (python ints; no bool, float or array actions);
    rewards 1.0 and 0.0 are the integers 1 and 0; the rendering is left out. *)
From Coq Require Import List ZArith NArith Lia Bool.
From Verif Require Import PyCommon.
Import ListNotations.
Set Implicit Arguments.

(** _connect_four.py:52-53. *)
Definition num_rows : nat := 6.
Definition num_cols : nat := 7.

(** _connect_four.py:62-103 [filters]. *)
Definition filters : list (list (list nat)) := [
  [[0; 0; 0; 0];
   [0; 0; 0; 0];
   [0; 0; 0; 0];
   [1; 1; 1; 1]];
  [[0; 0; 0; 0];
   [0; 0; 0; 0];
   [1; 1; 1; 1];
   [0; 0; 0; 0]];
  [[1; 0; 0; 0];
   [0; 1; 0; 0];
   [0; 0; 1; 0];
   [0; 0; 0; 1]];
  [[0; 0; 0; 1];
   [0; 0; 1; 0];
   [0; 1; 0; 0];
   [1; 0; 0; 0]];
  [[0; 0; 0; 0];
   [1; 1; 1; 1];
   [0; 0; 0; 0];
   [0; 0; 0; 0]];
  [[1; 1; 1; 1];
   [0; 0; 0; 0];
   [0; 0; 0; 0];
   [0; 0; 0; 0]];
  [[1; 0; 0; 0];
   [1; 0; 0; 0];
   [1; 0; 0; 0];
   [1; 0; 0; 0]];
  [[0; 1; 0; 0];
   [0; 1; 0; 0];
   [0; 1; 0; 0];
   [0; 1; 0; 0]];
  [[0; 0; 1; 0];
   [0; 0; 1; 0];
   [0; 0; 1; 0];
   [0; 0; 1; 0]];
  [[0; 0; 0; 1];
   [0; 0; 0; 1];
   [0; 0; 0; 1];
   [0; 0; 0; 1]] ].

(** The instance attributes (_connect_four.py:281-286): _players, _state, _levels, _prev_action, done. *)
Record env : Type := mkEnv { e_players : nat * nat; e_board : list (list nat); e_levels : list nat; e_prev : option nat; e_done : bool }.

(** _connect_four.py:281-286 [_init_state]; also [__init__] (105-106) and [reset] (108-128). *)
Definition init_env : env :=
  mkEnv (1, 2) (repeat (repeat 0 num_cols) num_rows) (repeat (num_rows - 1) num_cols) None false.

(** uint8 decrement. *)
Definition u8_dec (n : nat) : nat := match n with O => 255 | S k => k end.

(** _connect_four.py:268-273 [available_actions]: the condition levels >= 0 always holds for uint8. *)
Definition available_actions (e : env) : list nat :=
  filter (fun j => match nth_error (e_levels e) j with Some l => Nat.ltb l num_rows | None => false end) (seq 0 (length (e_levels e))).

(** _connect_four.py:275-279 [available_actions_mask]. *)
Definition available_actions_mask (e : env) : list bool :=
  fold_left (fun m a => upd m a true) (available_actions e) (repeat false num_cols).

(** Array slice l[i0:i1]. *)
Definition slice {A : Type} (i0 i1 : nat) (l : list A) : list A := firstn (i1 - i0) (skipn i0 l).

(** np.tensordot(filter, window) for two matrices: the sum of the products of the entries. *)
Fixpoint dot (x : list nat) (y : list bool) : nat :=
  match x, y with
  | a :: x', b :: y' => a * Nat.b2n b + dot x' y'
  | _, _ => 0
  end.
Definition tensordot (f : list (list nat)) (w : list (list bool)) : nat := dot (concat f) (concat w).

(** _connect_four.py:300-306: the search for four in a row. *)
Definition win_check (board : list (list nat)) (p : nat) : bool :=
  let s := map (map (fun x => Nat.eqb x p)) board in
  existsb (fun i0 => existsb (fun j0 =>
    existsb (fun f => Nat.eqb (tensordot f (map (slice j0 (j0 + 4)) (slice i0 (i0 + 4) s))) 4) filters)
    (seq 0 4)) [2; 1; 0].

(** _connect_four.py:288-313 [_done_reward]: returns the env with updated levels, done and reward. *)
Definition done_reward (e : env) (a : nat) : env * (bool * Z) :=
  let e1 := mkEnv (e_players e) (e_board e)
              (match nth_error (e_levels e) a with Some l => upd (e_levels e) a (u8_dec l) | None => e_levels e end)
              (e_prev e) (e_done e) in
  if win_check (e_board e) (fst (e_players e)) then (e1, (true, 1%Z))
  else if Nat.eqb (length (available_actions e1)) 0 then (e1, (true, 0%Z))
  else (e1, (false, 0%Z)).

(** _connect_four.py:58: Discrete(num_cols).contains. *)
Definition contains (a : Z) : bool := (0 <=? a)%Z && (a <? Z.of_nat num_cols)%Z.

(** board[i][j] = v. *)
Definition set_cell (b : list (list nat)) (i j v : nat) : list (list nat) :=
  match nth_error b i with Some r => upd b i (upd r j v) | None => b end.

(** _connect_four.py:130-188 [step]: reward and done, or an exception; the observation and the info dict are functions
    of the new env ([observation], [state_id]). *)
Definition step (e : env) (a : Z) : env * outcome (Z * bool) :=
  if e_done e then (e, Err EEpisodeDone)
  else if negb (contains a) then (e, Err EValue)
  else
    let a := Z.to_nat a in
    if negb (existsb (Nat.eqb a) (available_actions e)) then (e, Err EUnavailableAction)
    else
      match nth_error (e_levels e) a with
      | None => (e, Err EIndex)
      | Some l =>
          let players := (snd (e_players e), fst (e_players e)) in
          let e1 := mkEnv players (set_cell (e_board e) l a (fst players)) (e_levels e) (Some a) (e_done e) in
          let '(e2, (d, r)) := done_reward e1 a in
          (mkEnv (e_players e2) (e_board e2) (e_levels e2) (e_prev e2) d, Ok (r, d))
      end.

(** _connect_four.py:222-231 [state]: the first row is the mask of the available actions, a cell is the pair of its
    last-axis entries. *)
Definition observation (e : env) : list (list (nat * nat)) :=
  fold_left (fun m a => upd m a (1, 1)) (available_actions e) (repeat (0, 0) num_cols)
  :: map (map (fun x => (Nat.b2n (Nat.eqb x (fst (e_players e))), Nat.b2n (Nat.eqb x (snd (e_players e)))))) (e_board e).

(** Positional numbers.  A string of digit characters is the list of the digit values, most significant first. *)
(** int(s, base). *)
Definition of_digits (base : N) (ds : list nat) : N := fold_left (fun acc d => (acc * base + N.of_nat d)%N) ds 0%N.
(** Digits of n without leading zeros; the empty list for 0. [fuel] bounds the number of digits. *)
Fixpoint digits_aux (fuel : nat) (base n : N) (acc : list nat) : list nat :=
  match fuel with
  | O => acc
  | S fuel' => if N.eqb n 0 then acc else digits_aux fuel' base (n / base)%N (N.to_nat (n mod base)%N :: acc)
  end.
Definition digits (base n : N) : list nat := digits_aux (N.size_nat n) base n [].
(** '{:0wx}'.format(n): at least [w] hexadecimal digits. *)
Definition format_hex (w : nat) (n : N) : list nat :=
  let ds := digits 16 n in
  let ds := match ds with [] => [0] | _ => ds end in
  repeat 0 (w - length ds) ++ ds.
(** numpy.base_repr(n, base). *)
Definition base_repr (base n : N) : list nat := match digits base n with [] => [0] | ds => ds end.

(** _connect_four.py:233-243 [state_id]. *)
Definition state_id (e : env) : list nat :=
  [fst (e_players e); if e_done e then 1 else 0; match e_prev e with None => num_cols | Some a => a end]
  ++ format_hex 17 (of_digits 3 (concat (e_board e))).

(** z.reshape((rows, cols)) *)
Fixpoint reshape (rows cols : nat) (z : list nat) : list (list nat) :=
  match rows with O => [] | S r => firstn cols z :: reshape r cols (skipn cols z) end.

(** _connect_four.py:262-266: the level of a column given bottom up. *)
Fixpoint col_level (l : nat) (col : list nat) : nat :=
  match col with
  | [] => l
  | x :: col' => if Nat.eqb x 0 then l else col_level (u8_dec l) col'
  end.
Definition column (b : list (list nat)) (j : nat) : list nat := map (fun r => nth j r 0) b.

(** _connect_four.py:245-266 [set_state].  [has] tells whether the numpy module has an attribute [_base_repr] (line
    257); if so it is taken to be numpy.base_repr.  Ids are lists of hexadecimal digit values.  Exceptions are
    returned beside the env as it is at that point. *)
Definition set_state (has : bool) (e : env) (id : list nat) : env * option exn :=
  match id with
  | p :: d :: a :: rest =>
      if negb (Nat.eqb p 1 || Nat.eqb p 2) then (e, Some EAssertion)
      else if negb (Nat.eqb d 0 || Nat.eqb d 1) then (e, Some EAssertion)
      else if negb (Nat.ltb a num_cols || Nat.eqb a num_cols) then (e, Some EAssertion)
      else
        let e1 := mkEnv (p, 3 - p) (e_board e) (e_levels e) (if Nat.eqb a num_cols then None else Some a) (Nat.eqb d 1) in
        if negb has then (e1, Some EAttribute)
        else match rest with
             | [] => (e1, Some EValue)      (* int('', 16) *)
             | _ =>
                 let s := base_repr 3 (of_digits 16 rest) in
                 if Nat.ltb (num_rows * num_cols) (length s) then (e1, Some EValue)     (* shape mismatch *)
                 else
                   let board := reshape num_rows num_cols (repeat 0 (num_rows * num_cols - length s) ++ s) in
                   (mkEnv (e_players e1) board
                      (map (fun j => col_level (num_rows - 1) (rev (column board j))) (seq 0 num_cols))
                      (e_prev e1) (e_done e1), None)
             end
  | _ => (e, Some EIndex)
  end.

(** A run of step calls; the number of accepted ones is counted. *)
Fixpoint play (e : env) (acts : list Z) : env * nat :=
  match acts with
  | [] => (e, 0)
  | a :: acts' => let (e1, r) := step e a in
                  let (e2, k) := play e1 acts' in
                  (e2, match r with Ok _ => S k | Err _ => k end)
  end.
