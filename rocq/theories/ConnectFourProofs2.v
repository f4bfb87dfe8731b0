(** Invariants of play. *)
From Coq Require Import List ZArith NArith Lia Bool Arith.
From Verif Require Import PyCommon ConnectFourModel ConnectFourSpec ConnectFourProofs.
Import ListNotations.
Set Implicit Arguments.

Lemma repeat_nth : forall A (x : A) n k d, k < n -> nth k (repeat x n) d = x.
Proof. intros A x n. induction n as [|n IH]; intros [|k] d H; cbn; auto; try lia. apply IH. lia. Qed.

Lemma init_cell : forall i j, cell (e_board init_env) i j = 0.
Proof.
  intros i j. unfold cell, init_env. cbn [e_board]. destruct (le_lt_dec num_rows i).
  - rewrite (nth_overflow (repeat _ _)) by (now rewrite repeat_length). now destruct j.
  - rewrite repeat_nth by auto. destruct (le_lt_dec num_cols j); [apply nth_overflow; now rewrite repeat_length|now rewrite repeat_nth].
Qed.

Lemma init_legal : legal init_env.
Proof.
  assert (NF : forall p, p <> 0 -> ~ four (e_board init_env) p).
  { intros p Hp (i & j & di & dj & _ & A). destruct (A 0%Z ltac:(lia)) as [_ [_ E]]. rewrite init_cell in E. congruence. }
  constructor.
  - split; [reflexivity|]. cbn. repeat constructor.
  - intros. rewrite init_cell. lia.
  - intros i j _ _ H. now rewrite init_cell in H.
  - reflexivity.
  - intros j i Hj Hi. rewrite init_cell. change (e_levels init_env) with (repeat 5 7). rewrite repeat_nth by auto. lia.
  - intros j Hj. change (e_levels init_env) with (repeat 5 7). rewrite repeat_nth by auto. lia.
  - left. split; reflexivity.
  - split; [discriminate|]. intros [H|[H|H]].
    + exfalso. revert H. now apply NF.
    + exfalso. revert H. now apply NF.
    + exfalso. apply (H 0 0); try lia. apply init_cell.
  - reflexivity.
Qed.

(** An accepted step, in detail. *)
Definition after (e : env) (a l : nat) (d : bool) : env :=
  mkEnv (snd (e_players e), fst (e_players e)) (set_cell (e_board e) l a (snd (e_players e))) (upd (e_levels e) a (u8_dec l)) (Some a) d.

Lemma step_ok_inv : forall e a e' r d, legal e -> step e a = (e', Ok (r, d)) ->
  exists l, e_done e = false /\ (0 <= a < 7)%Z /\ nth (Z.to_nat a) (e_levels e) 0 = l /\ l < 6 /\ e' = after e (Z.to_nat a) l d /\
    ((win_check (e_board e') (snd (e_players e)) = true /\ d = true /\ r = 1%Z) \/
     (win_check (e_board e') (snd (e_players e)) = false /\ available_actions (after e (Z.to_nat a) l false) = [] /\ d = true /\ r = 0%Z) \/
     (win_check (e_board e') (snd (e_players e)) = false /\ available_actions (after e (Z.to_nat a) l false) <> [] /\ d = false /\ r = 0%Z)).
Proof.
  intros e a e' r d HL H. unfold step in H. destruct (e_done e) eqn:ED; [discriminate|].
  destruct (negb (contains a)) eqn:EC; [discriminate|]. apply negb_false_iff in EC. unfold contains in EC. rewrite andb_true_iff, Z.leb_le, Z.ltb_lt in EC.
  change (Z.of_nat num_cols) with 7%Z in EC.
  destruct (negb _) eqn:EA; [discriminate|]. apply negb_false_iff in EA. apply existsb_exists in EA. destruct EA as [x [Hx Ex]]. apply Nat.eqb_eq in Ex. subst x.
  rewrite (nth_error_nth' _ 0) in H by (rewrite (l_len HL); lia). set (l := nth (Z.to_nat a) (e_levels e) 0) in *.
  assert (Hl : l < 6).
  { unfold available_actions in Hx. apply filter_In in Hx. destruct Hx as [_ Hx]. rewrite (nth_error_nth' _ 0) in Hx by (rewrite (l_len HL); lia).
    fold l in Hx. now apply Nat.ltb_lt in Hx. }
  exists l. unfold done_reward in H. cbn [e_levels e_players e_board e_prev e_done fst snd] in H.
  rewrite (nth_error_nth' _ 0) in H by (rewrite (l_len HL); lia). fold l in H.
  split; auto. split; [lia|]. split; auto. split; auto.
  unfold after.
  destruct (win_check (set_cell (e_board e) l (Z.to_nat a) (snd (e_players e))) (snd (e_players e))) eqn:EW.
  - injection H as <- <- <-. split; auto.
  - destruct (Nat.eqb (length (available_actions _)) 0) eqn:EL; injection H as <- <- <-; (split; [auto|right]).
    + left. cbn [e_board]. split; auto. split; auto. apply Nat.eqb_eq in EL. apply length_zero_iff_nil in EL. exact EL.
    + right. cbn [e_board]. split; auto. split; auto. intros E. apply Nat.eqb_neq in EL. apply EL. apply length_zero_iff_nil. exact E.
Qed.

(** The board part of legality does not depend on done, so the new env is legal up to done. *)
Section Step.
Variables (e : env) (a : nat).
Hypothesis HL : legal e.
Hypothesis Ha : a < 7.
Let l := nth a (e_levels e) 0.
Hypothesis Hl : l < 6.
Let p := snd (e_players e).
Let b' := set_cell (e_board e) l a p.

Lemma p_val : p = 1 \/ p = 2.
Proof. destruct (l_turn HL) as [[E _]|[E _]]; unfold p; rewrite E; auto. Qed.

Lemma cell_l : cell (e_board e) l a = 0.
Proof. apply (l_levels HL); fold l; lia. Qed.

Lemma cell' : forall i j, cell b' i j = if Nat.eqb i l && Nat.eqb j a then p else cell (e_board e) i j.
Proof. intros. unfold b'. apply set_cell_cell; auto. apply (l_shape HL). Qed.

Lemma cell'_same : cell b' l a = p.
Proof. rewrite cell', !Nat.eqb_refl. reflexivity. Qed.

Lemma cell'_other : forall i j, (i, j) <> (l, a) -> cell b' i j = cell (e_board e) i j.
Proof.
  intros i j H. rewrite cell'. destruct (Nat.eqb_spec i l), (Nat.eqb_spec j a); cbn; auto. subst. congruence.
Qed.

Lemma dropped' : dropped (e_board e) b' a p.
Proof.
  exists l. split; auto. split; [apply cell_l|]. split.
  - intros i' H1 H2 E. apply (l_levels HL) in E; auto. fold l in E. lia.
  - split; [apply cell'_same|apply cell'_other].
Qed.

Lemma four_other : forall q, q <> p -> four b' q -> four (e_board e) q.
Proof.
  intros q Hq (i & j & di & dj & Hd & A). exists i, j, di, dj. split; auto. intros k Hk. destruct (A k Hk) as [A1 [A2 A3]].
  split; auto. split; auto. rewrite cell' in A3. destruct (_ && _); auto. congruence.
Qed.

Lemma after_levels : forall j i, j < 7 -> i < 6 ->
  (cell b' i j = 0 <-> i <= nth j (upd (e_levels e) a (u8_dec l)) 0 /\ nth j (upd (e_levels e) a (u8_dec l)) 0 < 6).
Proof.
  intros j i Hj Hi. rewrite upd_nth by (rewrite (l_len HL); lia). rewrite cell'.
  pose proof p_val as PV. pose proof (l_levels HL) as LL. destruct (Nat.eqb_spec j a) as [->|N].
  - specialize (LL a i Ha Hi). fold l in LL. destruct (Nat.eqb_spec i l) as [->|N2]; cbn [andb].
    + destruct l as [|m]; cbn [u8_dec]; lia.
    + rewrite LL. destruct l as [|m]; cbn [u8_dec]; lia.
  - rewrite andb_false_r. apply LL; auto.
Qed.

Lemma after_legal : forall d, (d = true <-> (four b' 1 \/ four b' 2 \/ full b')) -> legal (after e a l d).
Proof.
  intros d Hd. unfold after. fold p b'. pose proof p_val as PV. constructor; cbn [e_board e_levels e_players e_prev e_done fst].
  - unfold b'. apply set_cell_shaped. apply (l_shape HL).
  - intros i j. rewrite cell'. destruct (_ && _); [lia|apply (l_cells HL)].
  - intros i j Hi Hj H E. assert (Hi1 : i + 1 < 6) by lia. apply after_levels in E; auto. apply H. apply after_levels; auto; lia.
  - rewrite upd_length. apply (l_len HL).
  - exact after_levels.
  - intros j Hj. rewrite upd_nth by (rewrite (l_len HL); lia). destruct (Nat.eqb j a).
    + destruct l as [|m]; cbn [u8_dec]; lia.
    + apply (l_full_level HL Hj).
  - pose proof (@tokens_set (e_board e) l a p 1 (l_shape HL) Hl Ha cell_l) as T1.
    pose proof (@tokens_set (e_board e) l a p 2 (l_shape HL) Hl Ha cell_l) as T2. fold b' in T1, T2.
    destruct (l_turn HL) as [[E ET]|[E ET]].
    + right. unfold p in *. rewrite E in *. cbn in T1, T2 |- *. split; [reflexivity|lia].
    + left. unfold p in *. rewrite E in *. cbn in T1, T2 |- *. split; [reflexivity|lia].
  - exact Hd.
  - split; auto. exists l. split; auto. split; [apply cell'_same|]. intros i' Hi'. rewrite cell'_other by (intros E; injection E; lia).
    apply (l_levels HL); fold l; lia.
Qed.

Lemma after_total : forall q, q <> 0 -> tokens b' q = tokens (e_board e) q + (if Nat.eqb q p then 1 else 0).
Proof.
  intros q Hq. pose proof (@tokens_set (e_board e) l a p q (l_shape HL) Hl Ha cell_l) as T. fold b' in T.
  destruct (Nat.eq_dec 0 q); [congruence|]. destruct (Nat.eq_dec p q) as [E|E]; destruct (Nat.eqb_spec q p); try congruence; lia.
Qed.

End Step.

Lemma avail_indep : forall e a l d d', available_actions (after e a l d) = available_actions (after e a l d').
Proof. reflexivity. Qed.

(** Legality up to the done flag is enough for the available actions. *)
Lemma full_available' : forall e a, legal e -> a < 7 -> nth a (e_levels e) 0 < 6 ->
  let b' := set_cell (e_board e) (nth a (e_levels e) 0) a (snd (e_players e)) in
  full b' <-> available_actions (after e a (nth a (e_levels e) 0) false) = [].
Proof.
  intros e a HL Ha Hl b'.
  assert (HD : exists d : bool, (d = true <-> (four b' 1 \/ four b' 2 \/ full b'))).
  { assert (S' : shaped b') by (apply set_cell_shaped; apply (l_shape HL)).
    destruct (win_check b' 1) eqn:W1; [exists true; split; auto; left; now apply win_check_four|].
    destruct (win_check b' 2) eqn:W2; [exists true; split; auto; right; left; now apply win_check_four|].
    destruct (Nat.eq_dec (tokens b' 0) 0) as [T|T]; [exists true; split; auto; right; right; now apply full_tokens|].
    exists false. split; [discriminate|]. intros [F|[F|F]]; exfalso.
    - apply win_check_four in F; auto. congruence.
    - apply win_check_four in F; auto. congruence.
    - apply full_tokens in F; auto. }
  destruct HD as [d Hd]. rewrite (avail_indep e a _ false d).
  pose proof (@full_available (after e a (nth a (e_levels e) 0) d) (@after_legal e a HL Ha Hl d Hd)) as F. exact F.
Qed.

(** One accepted step. *)
Lemma step_legal : forall e a e' r d, legal e -> step e a = (e', Ok (r, d)) ->
  let p := snd (e_players e) in
  legal e' /\ (0 <= a < 7)%Z /\ e_done e = false /\ e_done e' = d /\ dropped (e_board e) (e_board e') (Z.to_nat a) p /\
  e_players e' = (p, fst (e_players e)) /\ e_prev e' = Some (Z.to_nat a) /\
  (forall q, q <> 0 -> tokens (e_board e') q = tokens (e_board e) q + (if Nat.eqb q p then 1 else 0)) /\
  (d = true /\ r = 1%Z <-> four (e_board e') p) /\
  (d = true /\ r = 0%Z <-> ~ four (e_board e') p /\ full (e_board e')) /\
  (r = 0%Z \/ r = 1%Z /\ d = true).
Proof.
  intros e a e' r d HL H p. destruct (step_ok_inv _ HL H) as (l & ED & Ha & El & Hl & E' & C). subst l.
  set (A := Z.to_nat a) in *. assert (HA : A < 7) by (unfold A; lia).
  set (l := nth A (e_levels e) 0) in *. set (b' := set_cell (e_board e) l A p) in *.
  assert (EB : e_board e' = b') by (subst e'; reflexivity). fold p in C.
  assert (S' : shaped b') by (apply set_cell_shaped; apply (l_shape HL)).
  pose proof (@full_available' e A HL HA Hl) as FA. cbn zeta in FA. fold l p b' in FA.
  pose proof (p_val HL) as PV. fold p in PV.
  assert (NF : forall q, q = 1 \/ q = 2 -> q <> p -> ~ four b' q).
  { intros q Hq Hqp F. apply (@four_other e A HL HA Hl q Hqp) in F. assert (e_done e = true); [|congruence].
    apply (l_done HL). destruct Hq; subst q; auto. }
  rewrite EB in *.
  assert (HW : win_check b' p = true <-> four b' p) by (now apply win_check_four).
  assert (HD : d = true <-> (four b' 1 \/ four b' 2 \/ full b')).
  { destruct C as [[C1 [C2 C3]]|[[C1 [C2 [C3 C4]]]|[C1 [C2 [C3 C4]]]]].
    - split; auto. intros _. apply HW in C1. destruct PV as [->| ->]; auto.
    - split; auto. intros _. right. right. now apply FA.
    - split; [congruence|]. assert (N : ~ four b' p) by (intros F; apply HW in F; congruence).
      intros [F|[F|F]].
      + exfalso. destruct (Nat.eq_dec 1 p) as [E|E]; [apply N; congruence|]. apply (NF 1); auto.
      + exfalso. destruct (Nat.eq_dec 2 p) as [E|E]; [apply N; congruence|]. apply (NF 2); auto.
      + exfalso. apply FA in F. auto. }
  split; [subst e'; now apply after_legal|]. split; [lia|]. split; auto. split; [subst e'; reflexivity|].
  split; [now apply dropped'|]. split; [subst e'; reflexivity|]. split; [subst e'; reflexivity|].
  split; [now apply after_total|].
  destruct C as [[C1 [C2 C3]]|[[C1 [C2 [C3 C4]]]|[C1 [C2 [C3 C4]]]]].
  - apply HW in C1. subst. intuition congruence.
  - assert (N : ~ four b' p) by (intros F; apply HW in F; congruence). apply FA in C2. subst. intuition congruence.
  - assert (N : ~ four b' p) by (intros F; apply HW in F; congruence). assert (N2 : ~ full b') by (intros F; apply FA in F; auto). subst. intuition congruence.
Qed.
