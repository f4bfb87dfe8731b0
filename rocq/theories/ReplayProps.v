(** Properties C07, C08: SimpleReplayBuffer (coax/experience_replay/_simple.py). *)
From Coq Require Import List ZArith Lia Bool.
From Verif Require Import PyCommon ReplayModel ReplaySpec ReplayProofs.
Import ListNotations.

(** C07: for programs that do not re-add or re-number a stored one-row object, the buffer iterates over the last
    [cap] rows added since the last clear, numbered in order of addition. *)
Theorem C07_window_partial : forall X G (draw : G -> nat -> nat -> list nat * G) (h : list (tbatch X)) cap (g : G) os,
  no_alias draw (simple_init h cap g) os ->
  let w := fst (simple_run draw (simple_init h cap g) os) in
  let log := added draw (simple_init h cap g) os [] in
  simple_iter w = map as_single (lastn cap (numbered log)) /\ simple_len w = Nat.min cap (length log).
Proof. exact (fun X G draw h cap g os => @simple_window X G draw h cap g os). Qed.
Print Assumptions C07_window_partial.

Definition ex_draw (g : nat) (n k : nat) : list nat * nat := (seq (Nat.min g (n - k)) k, S g).
Definition ex_prog : list (sop nat nat) :=
  [SNew (mkTB [10; 11; 12] [0; 0; 0]%Z); SNew (mkTB [20] [0]%Z); SAdd 0; SAdd 1; SSample 2; SForeign 7; SAdd 0; SSample 3].

Example C07_example :
  no_alias ex_draw (simple_init [] 4 0) ex_prog /\
  let w := fst (simple_run ex_draw (simple_init [] 4 0) ex_prog) in
  simple_iter w = [mkTB [20] [3]%Z; mkTB [10] [4]%Z; mkTB [11] [5]%Z; mkTB [12] [6]%Z] /\
  added ex_draw (simple_init [] 4 0) ex_prog [] = [10; 11; 12; 20; 10; 11; 12].
Proof. split; [|split; reflexivity]. cbn. repeat split; intros H; intuition discriminate. Qed.

(** C07: the restriction is needed. Adding the same one-row batch twice renumbers the stored one. *)
Theorem C07_readding_refuted : exists (os : list (sop nat nat)),
  let w := fst (simple_run ex_draw (simple_init [] 4 0) os) in
  let log := added ex_draw (simple_init [] 4 0) os [] in
  simple_iter w <> map as_single (lastn 4 (numbered log)).
Proof. exists [SNew (mkTB [20] [0]%Z); SAdd 0; SAdd 0]. cbv. discriminate. Qed.
Print Assumptions C07_readding_refuted.

(** C08: removing every foreign use of the global generator from a program leaves all its samples unchanged, and the
    global state before the buffer was created does not matter. *)
Theorem C08_isolated : forall X G (draw : G -> nat -> nat -> list nat * G) (h : list (tbatch X)) cap (seeded g1 g2 : G) os,
  let w1 := mkSW h (mkSB cap [] 0 seeded) g1 in
  let w2 := mkSW h (mkSB cap [] 0 seeded) g2 in
  snd (simple_run draw w1 os) = snd (simple_run draw w2 (without_foreign os)).
Proof.
  exact (fun X G draw h cap seeded g1 g2 os =>
    proj1 (@run_isolated X G draw os (mkSW h (mkSB cap [] 0 seeded) g1) (mkSW h (mkSB cap [] 0 seeded) g2)
             (conj eq_refl eq_refl))).
Qed.
Print Assumptions C08_isolated.

Example C08_example :
  without_foreign ex_prog <> ex_prog /\
  snd (simple_run ex_draw (simple_init [] 4 0) ex_prog) =
    [Ok [mkTB [10] [0]%Z; mkTB [11] [1]%Z]; Ok [mkTB [10] [4]%Z; mkTB [11] [5]%Z; mkTB [12] [6]%Z]].
Proof. split; [discriminate|reflexivity]. Qed.

(** C08: the outputs of a program are, in order, the results of its sample calls. *)
Theorem C08_outputs : forall X G (draw : G -> nat -> nat -> list nat * G) (w : sworld X G) os o,
  let w' := fst (simple_run draw w os) in
  snd (simple_run draw w (os ++ [o])) = snd (simple_run draw w os) ++ match o with SSample k => [snd (simple_sample draw w' k)] | _ => [] end.
Proof.
  intros X G draw w os. revert w. induction os as [|o1 os IH]; intros w o w'.
  - unfold w'. cbn [app simple_run fst snd]. destruct o; cbn [simple_step]; try reflexivity. now destruct (simple_sample draw w k).
  - unfold w'. cbn [app simple_run]. destruct (simple_step draw w o1) as [w1 x]. specialize (IH w1 o). cbn zeta in IH.
    destruct (simple_run draw w1 (os ++ [o])) as [w2 ys]. destruct (simple_run draw w1 os) as [w3 zs]. cbn [fst snd] in *. rewrite IH. destruct x; reflexivity.
Qed.
Print Assumptions C08_outputs.

(** C08: a sample is a list of entries at pairwise distinct positions of the buffer; it is rejected when too few are
    stored.  The hypothesis is the documented behaviour of random.sample on k <= n. *)
Theorem C08_sample_distinct : forall X G (draw : G -> nat -> nat -> list nat * G) (w : sworld X G) k,
  (forall g n k, k <= n -> length (fst (draw g n k)) = k /\ NoDup (fst (draw g n k)) /\
                           (forall p, In p (fst (draw g n k)) -> p < n)) ->
  (simple_len w < k -> snd (simple_sample draw w k) = Err EValue) /\
  (1 <= k <= simple_len w -> exists ps, length ps = k /\ NoDup ps /\ (forall p, In p ps -> p < simple_len w) /\
     snd (simple_sample draw w k) = Ok (map (fun p => nth p (simple_iter w) (mkTB [] [])) ps)).
Proof. exact (fun X G draw w k H => sample_spec draw w k H). Qed.
Print Assumptions C08_sample_distinct.

Example C08_sample_example : forall g n k, k <= n -> length (fst (ex_draw g n k)) = k /\ NoDup (fst (ex_draw g n k)) /\
  (forall p, In p (fst (ex_draw g n k)) -> p < n).
Proof.
  intros g n k H. cbn. split; [apply seq_length|]. split; [apply seq_NoDup|]. intros p Hp. apply in_seq in Hp. lia.
Qed.

(** C08, the other direction: the global generator is not isolated from the buffer.  After any sample call the global
    state is the buffer's own, whatever the user had seeded. *)
Theorem C08_global_state_overwritten : forall X G (draw : G -> nat -> nat -> list nat * G) (w : sworld X G) k g1 g2,
  sglob (fst (simple_run draw w [SForeign g1; SSample k])) = sglob (fst (simple_run draw w [SForeign g2; SSample k])).
Proof. exact (fun X G draw w k g1 g2 => sample_overwrites draw w k g1 g2). Qed.
Print Assumptions C08_global_state_overwritten.

Example C08_overwritten_example :
  sglob (fst (simple_run ex_draw (simple_init [] 4 0) [SNew (mkTB [20] [0]%Z); SAdd 0; SForeign 99; SSample 1])) = 1.
Proof. reflexivity. Qed.
