(** Proofs about workers. *)
From Coq Require Import List Bool Arith ZArith Lia String Ascii Reals.
From Verif Require Import PyCommon WorkerModel WorkerSpec.
Import ListNotations.
Set Implicit Arguments.

(** * Lists *)
Lemma upd_same : forall (A : Type) (l : list A) i x y, nth_error l i = Some y -> nth_error (upd l i x) i = Some x.
Proof. intros A l. induction l as [|a l IH]; intros [|i] x y H; try discriminate; cbn in *; [reflexivity|]. now apply (IH i x y). Qed.
Lemma upd_other : forall (A : Type) (l : list A) i k x, i <> k -> nth_error (upd l i x) k = nth_error l k.
Proof. intros A l. induction l as [|a l IH]; intros [|i] [|k] x N; cbn; auto; try congruence. Qed.
Lemma upd_len : forall (A : Type) (l : list A) i x, List.length (upd l i x) = List.length l.
Proof. intros A l. induction l as [|a l IH]; intros [|i] x; cbn; auto. Qed.
Lemma sum_upd : forall (A : Type) (f : A -> nat) l i x y, nth_error l i = Some y -> list_sum (map f (upd l i x)) + f y = list_sum (map f l) + f x.
Proof.
  intros A f l. induction l as [|a l IH]; intros [|i] x y H; try discriminate; cbn [nth_error upd map] in *.
  - injection H as ->. change (list_sum (f x :: map f l)) with (f x + list_sum (map f l)). change (list_sum (f y :: map f l)) with (f y + list_sum (map f l)). lia.
  - specialize (IH i x y H). change (list_sum (f a :: map f (upd l i x))) with (f a + list_sum (map f (upd l i x))). change (list_sum (f a :: map f l)) with (f a + list_sum (map f l)). lia.
Qed.
Lemma sum_upd_le : forall (A : Type) (f g : A -> nat) c l i x y, nth_error l i = Some y -> (forall z, g z <= f z + c) -> g x <= c -> list_sum (map g (upd l i x)) + f y <= list_sum (map f l) + List.length l * c.
Proof.
  intros A f g c l. assert (G : forall l, (forall z, g z <= f z + c) -> list_sum (map g l) <= list_sum (map f l) + List.length l * c).
  { clear. induction l as [|a l IH]; intros H; [cbn; lia|]. cbn [map List.length]. change (list_sum (g a :: map g l)) with (g a + list_sum (map g l)). change (list_sum (f a :: map f l)) with (f a + list_sum (map f l)). specialize (IH H). specialize (H a). lia. }
  induction l as [|a l IH]; intros [|i] x y H HG HX; try discriminate; cbn [nth_error upd map List.length] in *.
  - injection H as ->. change (list_sum (g x :: map g l)) with (g x + list_sum (map g l)). change (list_sum (f y :: map f l)) with (f y + list_sum (map f l)). specialize (G l HG). lia.
  - specialize (IH i x y H HG HX). change (list_sum (g a :: map g (upd l i x))) with (g a + list_sum (map g (upd l i x))). change (list_sum (f a :: map f l)) with (f a + list_sum (map f l)). specialize (HG a). lia.
Qed.
Lemma sum_member : forall (A : Type) (f : A -> nat) l i y, nth_error l i = Some y -> f y <= list_sum (map f l).
Proof. intros A f l. induction l as [|a l IH]; intros [|i] y H; try discriminate; cbn [nth_error map] in *; change (list_sum (f a :: map f l)) with (f a + list_sum (map f l)); [injection H as ->; lia|]. specialize (IH i y H). lia. Qed.
Lemma sum_bound : forall (A : Type) (f : A -> nat) c l, (forall z, f z <= c) -> list_sum (map f l) <= List.length l * c.
Proof. intros A f c l H. induction l as [|a l IH]; [cbn; lia|]. cbn [map List.length]. change (list_sum (f a :: map f l)) with (f a + list_sum (map f l)). specialize (H a). lia. Qed.
Lemma sum_repeat : forall (A : Type) (f : A -> nat) a k, list_sum (map f (repeat a k)) = k * f a.
Proof. intros A f a k. induction k as [|k IH]; [reflexivity|]. cbn [repeat map]. change (list_sum (f a :: map f (repeat a k))) with (f a + list_sum (map f (repeat a k))). lia. Qed.

(** * rollout *)
Section Rollout.
Variables E P S A : Type.
Variable reset : E -> E * S.
Variable step : E -> A -> E * (S * R * bool * bool).
Variable pi : P -> S -> P * (A * R).
Notation roll := (roll step pi).
(** Which moves produced the calls. *)
Inductive played : E -> P -> S -> list (call S A) -> E -> P -> Prop :=
| played_nil : forall e p s, played e p s [] e p
| played_step : forall e p s p1 a l e1 s' r d tr cs e2 p2, pi p s = (p1, (a, l)) -> step e a = (e1, (s', r, d, tr)) -> (d || tr = true -> cs = []) -> played e1 p1 s' cs e2 p2 -> played e p s (mkCall s a r (d || tr) l :: cs) e2 p2.
Lemma roll_played : forall n e p s e2 p2 cs, roll n e p s = (e2, p2, cs) -> played e p s cs e2 p2.
Proof.
  induction n as [|n IH]; intros e p s e2 p2 cs H; cbn [WorkerModel.roll] in H.
  - injection H as <- <- <-. constructor.
  - destruct (pi p s) as [p1 [a l]] eqn:HP. destruct (step e a) as [e1 [[[s' r] d] tr]] eqn:HS. destruct (d || tr) eqn:D.
    + injection H as <- <- <-. rewrite <- D. econstructor; eauto. constructor.
    + destruct (roll n e1 p1 s') as [[e3 p3] cs'] eqn:R. injection H as <- <- <-. rewrite <- D. econstructor; eauto. congruence.
Qed.
Lemma roll_flags : forall n e p s e2 p2 cs, roll n e p s = (e2, p2, cs) ->
  List.length cs <= n /\ (n <> 0 -> cs <> []) /\ (forall i c, nth_error cs i = Some c -> c_done c = true -> i = List.length cs - 1) /\ ((exists c, last (map Some cs) None = Some c /\ c_done c = true) \/ List.length cs = n).
Proof.
  induction n as [|n IH]; intros e p s e2 p2 cs H; cbn [WorkerModel.roll] in H.
  - injection H as <- <- <-. split; [auto|]. split; [congruence|]. split; [intros [|i] c X; discriminate|]. now right.
  - destruct (pi p s) as [p1 [a l]] eqn:HP. destruct (step e a) as [e1 [[[s' r] d] tr]] eqn:HS. destruct (d || tr) eqn:D.
    + injection H as <- <- <-. split; [cbn; lia|]. split; [discriminate|]. split; [intros [|[|i]] c X; cbn in *; try discriminate; auto|]. left. cbn. eexists. split; [reflexivity|]. auto.
    + destruct (roll n e1 p1 s') as [[e3 p3] cs'] eqn:R. injection H as <- <- <-. destruct (IH _ _ _ _ _ _ R) as (L & N & F & Z). split; [cbn; lia|]. split; [discriminate|]. split.
      * intros [|i] c X Y; cbn [nth_error] in X; [injection X as <-; discriminate|]. assert (I := F i c X Y). assert (i < List.length cs') by (apply nth_error_Some; congruence). cbn [List.length]. lia.
      * destruct Z as [(c & Z & ZD)|Z]; [|right; cbn; lia]. left. exists c. split; auto. cbn [map]. destruct (map Some cs') as [|x xs] eqn:M; [discriminate|]. exact Z.
Qed.
(** With a clock that truncates the episode at step n. *)
Variable clock : E -> nat.
Variable n : nat.
Hypothesis H_reset : forall e e1 s, reset e = (e1, s) -> clock e1 = 0.
Hypothesis H_step : forall e a e1 s r d tr, step e a = (e1, (s, r, d, tr)) -> clock e1 = Datatypes.S (clock e) /\ (n <= clock e1 -> d || tr = true).
Lemma roll_done : forall m e p s e2 p2 cs, roll m e p s = (e2, p2, cs) -> m + clock e = n -> m <> 0 -> exists c, last (map Some cs) None = Some c /\ c_done c = true.
Proof.
  induction m as [|m IH]; intros e p s e2 p2 cs H C M; [congruence|]. cbn [WorkerModel.roll] in H. destruct (pi p s) as [p1 [a l]] eqn:HP. destruct (step e a) as [e1 [[[s' r] d] tr]] eqn:HS. destruct (@H_step _ _ _ _ _ _ _ HS) as [C1 C2]. destruct (d || tr) eqn:D.
  - injection H as <- <- <-. cbn. eexists. split; [reflexivity|]. auto.
  - destruct (roll m e1 p1 s') as [[e3 p3] cs'] eqn:R. injection H as <- <- <-. assert (m <> 0) by (intros ->; assert (Q : false = true) by (apply C2; lia); discriminate). destruct (IH _ _ _ _ _ _ R) as (c & Z & ZD); [lia|auto|]. exists c. split; auto. cbn [map]. destruct (map Some cs') as [|x xs] eqn:X; [discriminate|]. exact Z.
Qed.
End Rollout.

(** * The counter *)
Ltac cases s c := let pc := fresh "pc" in let N := fresh "N" in unfold wstep; destruct (nth_error (w_pcs s) (ch_w c)) as [pc|] eqn:N; [|try solve [auto]].

Definition weight (pc : wpc) : nat := match pc with WRolled t => t | WPulled _ t => t | _ => 0 end.
Lemma pending_upd : forall s i pc pc' T a b, nth_error (w_pcs s) i = Some pc -> pending (mkW T (upd (w_pcs s) i pc') a b) + weight pc = pending s + weight pc'.
Proof. intros. unfold pending. cbn [w_pcs]. apply (sum_upd weight). auto. Qed.

Lemma over_step : forall limit T0 s c, (w_T s + pending s <= T0 + w_steps s /\ forall i x t, nth_error (w_pcs s) i = Some (WPulled x t) -> x + pending s <= T0 + w_steps s) ->
  let s' := wstep limit s c in w_T s' + pending s' <= T0 + w_steps s' /\ forall i x t, nth_error (w_pcs s') i = Some (WPulled x t) -> x + pending s' <= T0 + w_steps s'.
Proof.
  intros limit T0 s c [H1 H2]. cbv zeta. unfold wstep. destruct (nth_error (w_pcs s) (ch_w c)) as [pc|] eqn:N; [|auto].
  assert (K : forall T a b pc', weight pc' <= weight pc + (a - w_steps s) -> w_steps s <= a -> (forall x t, pc' <> WPulled x t) -> T + weight pc' <= w_T s + weight pc + (a - w_steps s) \/ (exists x t, pc = WPulled x t /\ T + weight pc' <= x + weight pc) ->
    w_T (mkW T (upd (w_pcs s) (ch_w c) pc') a b) + pending (mkW T (upd (w_pcs s) (ch_w c) pc') a b) <= T0 + a /\ (forall i x t, nth_error (upd (w_pcs s) (ch_w c) pc') i = Some (WPulled x t) -> x + pending (mkW T (upd (w_pcs s) (ch_w c) pc') a b) <= T0 + a)).
  { intros T a b pc' W A NP D. pose proof (pending_upd s (ch_w c) pc' T a b N) as PU. split.
    - cbn [w_T]. destruct D as [D|(x & t & -> & D)]; [lia|]. specialize (H2 _ _ _ N). lia.
    - intros i x t X. destruct (Nat.eq_dec (ch_w c) i) as [<-|NE]; [rewrite (upd_same _ _ _ N) in X; injection X as X; now destruct (NP x t)|]. rewrite upd_other in X by auto. specialize (H2 _ _ _ X). lia. }
  destruct pc as [|tg|t|x t|].
  - apply K; cbn; try lia; try discriminate.
  - destruct (Nat.ltb tg limit && negb (ch_stop c)); apply K; cbn; try lia; try discriminate.
  - pose proof (pending_upd s (ch_w c) (WPulled (w_T s) t) (w_T s) (w_steps s) (w_rolls s) N) as PU. cbn [weight] in PU. cbn [w_T w_pcs w_steps]. split; [lia|]. intros i x t' X. destruct (Nat.eq_dec (ch_w c) i) as [<-|NE]; [rewrite (upd_same _ _ _ N) in X; injection X as <- <-; lia|]. rewrite upd_other in X by auto. specialize (H2 _ _ _ X). lia.
  - apply K; cbn; try lia; try discriminate. right. exists x, t. split; auto. lia.
  - auto.
Qed.
Lemma pending_start : forall T0 k, pending (wstart T0 k) = 0.
Proof. intros. unfold pending, wstart. cbn [w_pcs]. rewrite sum_repeat. lia. Qed.
Lemma over_run : forall limit T0 k cs, let s := wrun limit (wstart T0 k) cs in w_T s + pending s <= T0 + w_steps s.
Proof.
  intros limit T0 k cs. cbv zeta. assert (G : forall cs s, (w_T s + pending s <= T0 + w_steps s /\ forall i x t, nth_error (w_pcs s) i = Some (WPulled x t) -> x + pending s <= T0 + w_steps s) -> w_T (wrun limit s cs) + pending (wrun limit s cs) <= T0 + w_steps (wrun limit s cs)).
  { clear cs. induction cs as [|c cs IH]; intros s I; [apply I|]. cbn [wrun fold_left]. apply IH. now apply over_step. }
  apply G. rewrite pending_start. cbn. split; [lia|]. intros i x t X. apply nth_error_In, repeat_spec in X. discriminate.
Qed.

(** Without interruptions. *)
Lemma exact_step : forall limit T0 s c, (forall i, holding s i -> ch_w c = i) -> (w_T s + pending s = T0 + w_steps s /\ forall i x t, nth_error (w_pcs s) i = Some (WPulled x t) -> x = w_T s) ->
  let s' := wstep limit s c in w_T s' + pending s' = T0 + w_steps s' /\ forall i x t, nth_error (w_pcs s') i = Some (WPulled x t) -> x = w_T s'.
Proof.
  intros limit T0 s c EX [H1 H2]. cbv zeta. unfold wstep. destruct (nth_error (w_pcs s) (ch_w c)) as [pc|] eqn:N; [|auto].
  assert (K : forall T a b pc', (forall x t, pc' <> WPulled x t) -> T + weight pc' + w_steps s = w_T s + weight pc + a -> (T = w_T s \/ exists x t, pc = WPulled x t) ->
    w_T (mkW T (upd (w_pcs s) (ch_w c) pc') a b) + pending (mkW T (upd (w_pcs s) (ch_w c) pc') a b) = T0 + a /\ (forall i x t, nth_error (upd (w_pcs s) (ch_w c) pc') i = Some (WPulled x t) -> x = T)).
  { intros T a b pc' NP E D. pose proof (pending_upd s (ch_w c) pc' T a b N) as PU. split; [cbn [w_T]; lia|]. intros i x t X. destruct (Nat.eq_dec (ch_w c) i) as [<-|NE]; [rewrite (upd_same _ _ _ N) in X; injection X as X; now destruct (NP x t)|]. rewrite upd_other in X by auto.
    destruct D as [->|_]; [now apply (H2 i x t)|]. exfalso. apply NE. apply EX. now exists x, t. }
  destruct pc as [|tg|t|x t|].
  - apply K; cbn; try lia; try discriminate.
  - destruct (Nat.ltb tg limit && negb (ch_stop c)); apply K; cbn; try lia; try discriminate; auto.
  - pose proof (pending_upd s (ch_w c) (WPulled (w_T s) t) (w_T s) (w_steps s) (w_rolls s) N) as PU. cbn [weight] in PU. cbn [w_T w_pcs w_steps]. split; [lia|]. intros i x t' X. destruct (Nat.eq_dec (ch_w c) i) as [<-|NE]; [rewrite (upd_same _ _ _ N) in X; now injection X|]. rewrite upd_other in X by auto. now apply (H2 i x t').
  - rewrite (H2 _ _ _ N). apply K; cbn; try lia; try discriminate. right. eauto.
  - auto.
Qed.
Lemma exact_run : forall limit T0 k cs, uninterrupted limit (wstart T0 k) cs -> let s := wrun limit (wstart T0 k) cs in w_T s + pending s = T0 + w_steps s.
Proof.
  intros limit T0 k cs U. cbv zeta. assert (G : forall cs s, uninterrupted limit s cs -> (w_T s + pending s = T0 + w_steps s /\ forall i x t, nth_error (w_pcs s) i = Some (WPulled x t) -> x = w_T s) -> w_T (wrun limit s cs) + pending (wrun limit s cs) = T0 + w_steps (wrun limit s cs)).
  { clear. induction cs as [|c cs IH]; intros s U I; [apply I|]. cbn [wrun fold_left]. destruct U as [U1 U2]. apply IH; auto. now apply exact_step. }
  apply G; auto. rewrite pending_start. cbn. split; [lia|]. intros i x t X. apply nth_error_In, repeat_spec in X. discriminate.
Qed.
Lemma wstep_len : forall limit s c, List.length (w_pcs (wstep limit s c)) = List.length (w_pcs s).
Proof. intros. unfold wstep. destruct (nth_error (w_pcs s) (ch_w c)) as [[|tg|t|x t|]|]; cbn [w_pcs]; rewrite ?upd_len; auto. destruct (Nat.ltb tg limit && negb (ch_stop c)); cbn [w_pcs]; now rewrite upd_len. Qed.
Lemma single_uninterrupted : forall limit cs s, List.length (w_pcs s) = 1 -> (forall c, In c cs -> ch_w c = 0) -> uninterrupted limit s cs.
Proof.
  intros limit cs. induction cs as [|c cs IH]; intros s L C; [exact I|]. cbn [uninterrupted]. split.
  - intros i (x & t & H). assert (i < 1) by (rewrite <- L; apply nth_error_Some; congruence). rewrite (C c) by now left. lia.
  - apply IH; [now rewrite wstep_len|]. intros c' I. apply C. now right.
Qed.

(** * Overshoot and termination, for all schedules *)
Definition through (limit : nat) (pc : wpc) : nat := match pc with WIdle tg => if Nat.ltb tg limit then 0 else 1 | WDone => 1 | _ => 0 end.
Definition flying (pc : wpc) : nat := match pc with WRolled _ | WPulled _ _ => 1 | _ => 0 end.
Definition level (B k T : nat) (pc : wpc) : nat := match pc with WPulled x _ => (k + 1) ^ (B - x) | _ => (k + 1) ^ (B - T) end.
Lemma through_le : forall limit pc, through limit pc <= 1.
Proof. intros limit [|tg|t|x t|]; cbn [through]; auto. destruct (Nat.ltb tg limit); auto. Qed.
Section Bound.
Variables limit M k : nat.
Hypothesis Hl : 1 <= limit.
Let fin (s : wsys) : nat := list_sum (map (through limit) (w_pcs s)).
Let B := limit - 1 + M * k.
Definition good (s : wsys) : Prop :=
  List.length (w_pcs s) = k /\ w_T s <= limit - 1 + M * fin s /\ (forall i x t, nth_error (w_pcs s) i = Some (WPulled x t) -> x <= limit - 1 + M * fin s /\ 1 <= t <= M) /\ (forall i t, nth_error (w_pcs s) i = Some (WRolled t) -> 1 <= t <= M).
Lemma fin_le : forall s, good s -> fin s <= k.
Proof. intros s (L & _). unfold fin. assert (Q := @sum_bound _ (through limit) 1 (w_pcs s) ltac:(exact (through_le limit))). lia. Qed.
Lemma fin_room : forall s i x t, good s -> nth_error (w_pcs s) i = Some (WPulled x t) -> x + t <= B.
Proof.
  intros s i x t G N. pose proof (fin_le G) as F. destruct G as (L & _ & H & _). destruct (H _ _ _ N) as [X T]. unfold B.
  assert (Z : fin s + 1 <= k). { unfold fin. pose proof (sum_upd (through limit) (w_pcs s) i WDone N) as Q. cbn [through] in Q. pose proof (@sum_bound _ (through limit) 1 (upd (w_pcs s) i WDone)) as Q2. rewrite upd_len, L in Q2. specialize (Q2 (through_le limit)). lia. }
  nia.
Qed.
Lemma good_step : forall s c, good s -> 1 <= ch_t c <= M -> good (wstep limit s c).
Proof.
  intros s c G C. pose proof G as (L & HT & HP & HR). unfold wstep. destruct (nth_error (w_pcs s) (ch_w c)) as [pc|] eqn:N; [|auto].
  assert (K : forall T a b pc', through limit pc <= through limit pc' -> (T <= limit - 1 + M * (fin s + (through limit pc' - through limit pc))) -> (forall x t, pc' = WPulled x t -> x <= limit - 1 + M * fin s /\ 1 <= t <= M) -> (forall t, pc' = WRolled t -> 1 <= t <= M) ->
    good (mkW T (upd (w_pcs s) (ch_w c) pc') a b)).
  { intros T a b pc' Q1 Q2 Q3 Q4. pose proof (sum_upd (through limit) (w_pcs s) (ch_w c) pc' N) as SU. fold (fin s) in SU. unfold good. unfold fin at 1 2. cbn [w_pcs w_T]. split; [now rewrite upd_len|]. split; [nia|]. split.
    - intros i x t X. destruct (Nat.eq_dec (ch_w c) i) as [<-|NE].
      + rewrite (upd_same _ _ _ N) in X. injection X as X. destruct (Q3 x t X) as [R1 R2]. split; auto. nia.
      + rewrite upd_other in X by auto. destruct (HP _ _ _ X) as [R1 R2]. split; auto. nia.
    - intros i t X. destruct (Nat.eq_dec (ch_w c) i) as [<-|NE].
      + rewrite (upd_same _ _ _ N) in X. injection X as X. auto.
      + rewrite upd_other in X by auto. now apply (HR i t). }
  destruct pc as [|tg|t|x t|].
  - apply K; cbn [through]; try discriminate; try lia.
  - destruct (Nat.ltb tg limit && negb (ch_stop c)) eqn:Z; apply K; cbn [through]; try discriminate.
    + apply andb_prop in Z. destruct Z as [-> _]. auto.
    + nia.
    + intros t E. injection E as <-. auto.
    + destruct (Nat.ltb tg limit); auto.
    + nia.
  - apply K; cbn [through]; try discriminate; try lia. intros x t' E. injection E as <- <-. split; auto. now apply (HR (ch_w c)).
  - destruct (HP _ _ _ N) as [R1 R2]. apply K; cbn [through]; try discriminate; try lia. destruct (Nat.ltb (x + t) limit) eqn:Z; [apply Nat.ltb_lt in Z; nia|]. nia.
  - auto.
Qed.
Lemma level_push : forall s i x t, good s -> nth_error (w_pcs s) i = Some (WPulled x t) ->
  list_sum (map (level B k (x + t)) (upd (w_pcs s) i (WIdle (x + t)))) + 1 <= list_sum (map (level B k (w_T s)) (w_pcs s)).
Proof.
  intros s i x t G N. pose proof (@fin_room s i x t G N) as XB. pose proof G as (L & _ & HP & _). destruct (HP _ _ _ N) as [_ T].
  pose proof (@sum_upd_le _ (level B k (w_T s)) (level B k (x + t)) ((k + 1) ^ (B - (x + t))) (w_pcs s) i (WIdle (x + t)) (WPulled x t) N) as Q.
  assert (Q' := Q ltac:(intros [|tg|t'|x' t'|]; cbn [level]; lia) ltac:(cbn [level]; lia)). clear Q. rewrite L in Q'. cbn [level] in Q'.
  assert (W : k * (k + 1) ^ (B - (x + t)) + 1 <= (k + 1) ^ (B - x)).
  { replace (B - x) with (Datatypes.S (B - x - 1)) by lia. assert ((k + 1) ^ (B - (x + t)) <= (k + 1) ^ (B - x - 1)) by (apply Nat.pow_le_mono_r; lia). assert (1 <= (k + 1) ^ (B - (x + t))) by (apply Nat.neq_0_lt_0, Nat.pow_nonzero; lia). cbn [Nat.pow]. nia. }
  lia.
Qed.
Let total_level (s : wsys) : nat := list_sum (map (level B k (w_T s)) (w_pcs s)).
Let in_flight (s : wsys) : nat := list_sum (map flying (w_pcs s)).
Lemma measure_step : forall s c Z, good s -> w_rolls s + total_level s <= Z + in_flight s -> w_rolls (wstep limit s c) + total_level (wstep limit s c) <= Z + in_flight (wstep limit s c).
Proof.
  intros s c Z G H. unfold wstep. destruct (nth_error (w_pcs s) (ch_w c)) as [pc|] eqn:N; [|auto].
  assert (K : forall a b pc', level B k (w_T s) pc' = level B k (w_T s) pc -> b + flying pc = w_rolls s + flying pc' -> w_rolls (mkW (w_T s) (upd (w_pcs s) (ch_w c) pc') a b) + total_level (mkW (w_T s) (upd (w_pcs s) (ch_w c) pc') a b) <= Z + in_flight (mkW (w_T s) (upd (w_pcs s) (ch_w c) pc') a b)).
  { intros a b pc' Q1 Q2. unfold total_level, in_flight in *. cbn [w_pcs w_T w_rolls]. pose proof (sum_upd (level B k (w_T s)) (w_pcs s) (ch_w c) pc' N) as A1. pose proof (sum_upd flying (w_pcs s) (ch_w c) pc' N) as A2. lia. }
  destruct pc as [|tg|t|x t|].
  - apply K; auto.
  - destruct (Nat.ltb tg limit && negb (ch_stop c)); apply K; cbn [flying level]; auto. lia.
  - apply K; auto.
  - unfold total_level, in_flight in *. cbn [w_pcs w_T w_rolls]. pose proof (@level_push s (ch_w c) x t G N) as A1. pose proof (sum_upd flying (w_pcs s) (ch_w c) (WIdle (x + t)) N) as A2. cbn [flying] in A2. lia.
  - auto.
Qed.
Lemma bounded_run : forall T0 cs, T0 < limit -> fair_lengths M cs -> let s := wrun limit (wstart T0 k) cs in w_T s <= B /\ w_rolls s <= k * (k + 1) ^ (B - T0) + k.
Proof.
  intros T0 cs HT F s.
  assert (G : forall cs s Z, fair_lengths M cs -> good s -> w_rolls s + total_level s <= Z + in_flight s -> good (wrun limit s cs) /\ w_rolls (wrun limit s cs) + total_level (wrun limit s cs) <= Z + in_flight (wrun limit s cs)).
  { clear - Hl. induction cs as [|c cs IH]; intros s Z F G H; [auto|]. cbn [wrun fold_left]. apply IH.
    - intros c' I. apply F. now right.
    - apply good_step; auto. apply F. now left.
    - now apply measure_step. }
  destruct (G cs (wstart T0 k) (k * (k + 1) ^ (B - T0)) F) as [G1 G2].
  - unfold good, wstart. cbn [w_pcs w_T]. split; [apply repeat_length|]. split; [lia|]. split; [intros i x t X|intros i t X]; apply nth_error_In, repeat_spec in X; discriminate.
  - unfold total_level, in_flight, wstart. cbn [w_pcs w_T w_rolls]. rewrite !sum_repeat. cbn [level flying]. lia.
  - fold s in G1, G2. pose proof (fin_le G1) as FL. destruct G1 as (L & T & _). split; [unfold B; nia|]. assert (IF : in_flight s <= k). { unfold in_flight. assert (Q := @sum_bound _ flying 1 (w_pcs s) ltac:(intros [|tg|t|x t|]; cbn; auto)). lia. } lia.
Qed.
End Bound.

(** Stopped workers without interruptions. *)
Lemma stopped_step : forall limit s c, (forall i, holding s i -> ch_w c = i) -> ch_stop c = false ->
  ((forall i tg, nth_error (w_pcs s) i = Some (WIdle tg) -> tg <= w_T s) /\ (forall i, nth_error (w_pcs s) i = Some WDone -> limit <= w_T s) /\ forall i x t, nth_error (w_pcs s) i = Some (WPulled x t) -> x = w_T s) ->
  let s' := wstep limit s c in (forall i tg, nth_error (w_pcs s') i = Some (WIdle tg) -> tg <= w_T s') /\ (forall i, nth_error (w_pcs s') i = Some WDone -> limit <= w_T s') /\ forall i x t, nth_error (w_pcs s') i = Some (WPulled x t) -> x = w_T s'.
Proof.
  intros limit s c EX ST (H1 & H2 & H3). cbv zeta. unfold wstep. destruct (nth_error (w_pcs s) (ch_w c)) as [pc|] eqn:N; [|auto].
  assert (K : forall T a b pc', w_T s <= T -> (forall tg, pc' = WIdle tg -> tg <= T) -> (pc' = WDone -> limit <= T) -> (forall x t, pc' = WPulled x t -> x = T) -> (T = w_T s \/ exists x t, pc = WPulled x t) ->
    let s' := mkW T (upd (w_pcs s) (ch_w c) pc') a b in (forall i tg, nth_error (w_pcs s') i = Some (WIdle tg) -> tg <= w_T s') /\ (forall i, nth_error (w_pcs s') i = Some WDone -> limit <= w_T s') /\ forall i x t, nth_error (w_pcs s') i = Some (WPulled x t) -> x = w_T s').
  { intros T a b pc' Q0 Q1 Q2 Q3 Q4. cbn [w_pcs w_T]. split; [|split].
    - intros i tg X. destruct (Nat.eq_dec (ch_w c) i) as [<-|NE]; [rewrite (upd_same _ _ _ N) in X; injection X; auto|]. rewrite upd_other in X by auto. specialize (H1 _ _ X). lia.
    - intros i X. destruct (Nat.eq_dec (ch_w c) i) as [<-|NE]; [rewrite (upd_same _ _ _ N) in X; injection X; auto|]. rewrite upd_other in X by auto. specialize (H2 _ X). lia.
    - intros i x t X. destruct (Nat.eq_dec (ch_w c) i) as [<-|NE]; [rewrite (upd_same _ _ _ N) in X; injection X; now apply Q3|]. rewrite upd_other in X by auto. destruct Q4 as [->|(x0 & t0 & E0)]; [now apply (H3 i x t)|]. exfalso. apply NE, EX. now exists x, t. }
  destruct pc as [|tg|t|x t|].
  - apply K; try discriminate; auto. intros tg E. injection E as <-. auto.
  - rewrite ST. cbn [negb]. rewrite andb_true_r. destruct (Nat.ltb tg limit) eqn:Z; apply K; try discriminate; auto. intros _. apply Nat.ltb_ge in Z. specialize (H1 _ _ N). lia.
  - apply K; try discriminate; auto. intros x t' E. now injection E.
  - pose proof (H3 _ _ _ N) as ->. apply K; try discriminate; try lia. + intros tg E. injection E as <-. auto. + right. eauto.
  - auto.
Qed.
Lemma stopped_run : forall limit T0 k cs, uninterrupted limit (wstart T0 k) cs -> no_threshold cs -> forall i, nth_error (w_pcs (wrun limit (wstart T0 k) cs)) i = Some WDone -> limit <= w_T (wrun limit (wstart T0 k) cs).
Proof.
  intros limit T0 k cs U NT. assert (G : forall cs s, uninterrupted limit s cs -> no_threshold cs -> ((forall i tg, nth_error (w_pcs s) i = Some (WIdle tg) -> tg <= w_T s) /\ (forall i, nth_error (w_pcs s) i = Some WDone -> limit <= w_T s) /\ forall i x t, nth_error (w_pcs s) i = Some (WPulled x t) -> x = w_T s) ->
     forall i, nth_error (w_pcs (wrun limit s cs)) i = Some WDone -> limit <= w_T (wrun limit s cs)).
  { clear. induction cs as [|c cs IH]; intros s U NT I; [apply I|]. cbn [wrun fold_left]. destruct U as [U1 U2]. apply IH; auto.
    - intros c' J. apply NT. now right.
    - apply stopped_step; auto. apply NT. now left. }
  apply G; auto. unfold wstart. cbn [w_pcs]. split; [|split]; intros i; intros; apply nth_error_In, repeat_spec in H; discriminate.
Qed.
