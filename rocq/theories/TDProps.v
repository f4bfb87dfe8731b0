(** Properties C46, C47, C66, C67: TD-learning targets, losses and TD errors. *)
From Coq Require Import List Lia Bool Arith Reals Lra.
From Verif Require Import PyCommon CommonProofs UtilsModel UtilsSpec UtilsProofs2 UtilsProofs3 WrappersProofs DistModel DistSpec DistProofs DistProofs2 LossModel LossSpec LossProofs QModel QProofs TDModel TDSpec TDProofs TDProofs2 TDProofs3 TDProofs4.
Import ListNotations.
Local Open Scope R_scope.

Definition ex_batch : tbatch nat := mk_tb [1; 2] [9/10; 0] [3; 4]%nat (map (one_hot 2) [0; 1]%nat).
Lemma ex_wf : well_formed ex_batch. Proof. split; reflexivity. Qed.
Definition ex_q : qfun nat R := Type2 (fun s => [INR s; 5]).
Lemma ex_width : width 2 ex_q. Proof. intros s. reflexivity. Qed.

(** ** C46: the target is f(Rn + In * g(B)), B the documented bootstrap value *)
Theorem C46_simple_td : forall (St : Type) f g (v : St -> R) b, well_formed b -> exists out, simple_td f g v b = Ok out /\ bootstrapped f g b (fun _ s x => x = v s) out.
Proof. exact simple_rows. Qed.
Print Assumptions C46_simple_td.
Example C46_simple_td_ex : exists out, simple_td (fun x => x) (fun x => x) INR ex_batch = Ok out /\ nth 0 out 0 = 1 + 9/10 * 3 /\ nth 1 out 0 = 2.
Proof. eexists. split; [reflexivity|]. cbn [nth]. cbn. lra. Qed.

Theorem C46_sarsa : forall (St : Type) n, (1 <= n)%nat -> forall f g (q : qfun St R) b acts, width n q -> well_formed b -> length acts = length (tb_Snext b) -> (forall a, In a acts -> (a < n)%nat) -> tb_Anext b = map (one_hot n) acts ->
  exists out, sarsa (Some n) f g q b = Ok out /\ bootstrapped f g b (fun k s x => x = qval n q s (nth k acts 0%nat)) out.
Proof. intros St n Hn. exact (@sarsa_rows St n Hn). Qed.
Print Assumptions C46_sarsa.
Example C46_sarsa_ex : width 2 ex_q /\ well_formed ex_batch /\ length [0; 1]%nat = length (tb_Snext ex_batch) /\ (forall a, In a [0; 1]%nat -> (a < 2)%nat) /\ tb_Anext ex_batch = map (one_hot 2) [0; 1]%nat.
Proof. repeat split; auto. intros a [<-|[<-|[]]]; lia. Qed.

(** C46: Sarsa with other action spaces: a type-1 q-function at the next actions of the batch. *)
Theorem C46_sarsa_continuous : forall (St : Type) D f g (h : St -> list R -> R) b, well_formed b -> length (tb_Anext b) = length (tb_Snext b) ->
  exists out, sarsa D f g (Type1 h) b = Ok out /\ bootstrapped f g b (fun k s x => x = h s (nth k (tb_Anext b) [])) out.
Proof.
  intros St D f g h b W L. unfold sarsa, eval1. cbn [function_type1]. rewrite vmap2_ok by auto. cbn [bind]. apply finish_rows; auto; [rewrite map_length, combine_length; lia|]. intros k s Hs.
  assert (K : (k < length (tb_Anext b))%nat) by (rewrite L; apply nth_error_Some; congruence). now rewrite (nth_map_combine _ _ _ _ Hs (nth_error_nth' _ [] K)).
Qed.
Print Assumptions C46_sarsa_continuous.
Example C46_sarsa_continuous_ex : length (tb_Anext ex_batch) = length (tb_Snext ex_batch). Proof. reflexivity. Qed.

(** C46: ExpectedSarsa with a type-2 q-function: the expectation under the target policy. *)
Theorem C46_expected_sarsa : forall (St : Type) n, (1 <= n)%nat -> forall f g pi (q : qfun St R) b, width n q -> type2 q -> (forall s, length (pi s) = n) -> well_formed b ->
  exists out, expected_sarsa (Some n) f g pi q b = Ok out /\ bootstrapped f g b (fun _ s x => x = expectation n (boltzmann n (pi s)) (qval n q s)) out.
Proof. intros St n Hn. exact (@expected_rows St n Hn). Qed.
Print Assumptions C46_expected_sarsa.
Example C46_expected_sarsa_ex : width 2 ex_q /\ type2 ex_q /\ (forall s : nat, length [INR s; 0] = 2%nat) /\ well_formed ex_batch.
Proof. repeat split. Qed.

(** C46: QLearning and DoubleQLearning: the mean of q over the maximisers of q_targ (one of them, when unique). *)
Theorem C46_q_learning : forall (St : Type) n, (1 <= n)%nat -> forall f g (qt q : qfun St R) b, width n qt -> width n q -> well_formed b -> (forall s, In s (tb_Snext b) -> no_mixed_action n qt q s) ->
  exists out, q_learning (Some n) (one_hot n) f g n qt q b = Ok out /\ double_q (Some n) (one_hot n) f g n qt q b = Ok out /\ bootstrapped f g b (fun _ s x => greedy_avg n (qval n qt s) (qval n q s) x) out.
Proof. intros St n Hn f g qt q b Wt W WF H. destruct (@q_learning_rows n Hn St f g qt q b Wt W WF H) as (out & E & B). exists out. auto. Qed.
Print Assumptions C46_q_learning.
Example C46_q_learning_ex : width 2 ex_q /\ forall s, no_mixed_action 2 ex_q ex_q s.
Proof. split; [exact ex_width|]. intros s. left. exact I. Qed.

Theorem C46_q_learning_continuous : forall (St : Type) D f g pi (h : St -> list R -> R) b, well_formed b ->
  exists out, q_learning_pi D f g pi (Type1 h) b = Ok out /\ bootstrapped f g b (fun _ s x => x = h s (pi s)) out.
Proof.
  intros St D f g pi h b W. unfold q_learning_pi, eval1. cbn [function_type1]. rewrite vmap2_ok by (now rewrite map_length). cbn [bind]. rewrite (map_combine_self pi (fun xy => h (fst xy) (snd xy))). apply finish_rows; auto; [now rewrite map_length|]. intros k s Hs. now rewrite (nth_map_error _ _ _ Hs).
Qed.
Print Assumptions C46_q_learning_continuous.
Example C46_q_learning_continuous_ex : exists out, q_learning_pi None (fun x => x) (fun x => x) (fun s => [INR s]) (Type1 (fun s a => INR s + nth 0 a 0)) ex_batch = Ok out /\ nth 0 out 0 = 1 + 9/10 * 6.
Proof. eexists. split; [reflexivity|]. cbn. lra. Qed.

Theorem C46_soft_q : forall (St : Type) n, (1 <= n)%nat -> forall f g t (q : qfun St R) b, width n q -> well_formed b ->
  exists out, soft_q (Some n) (one_hot n) f g n t q b = Ok out /\ bootstrapped f g b (fun _ s x => x = soft_maximum n t (qval n q s)) out.
Proof. intros St n Hn. exact (@soft_rows St n Hn). Qed.
Print Assumptions C46_soft_q.
Example C46_soft_q_ex : width 2 ex_q /\ well_formed ex_batch. Proof. split; [exact ex_width|exact ex_wf]. Qed.

(** C46: a network with a wrong number of outputs for some next state is refused, whatever the rest of the batch. *)
Theorem C46_width_checked : forall (St : Type) n enc f g t (h : St -> list R) (q : qfun St R) b, (exists s, In s (tb_Snext b) /\ length (h s) <> n) ->
  q_learning (Some n) enc f g n (Type2 h) q b = Err EAssertion /\ double_q (Some n) enc f g n (Type2 h) q b = Err EAssertion /\ soft_q (Some n) enc f g n t (Type2 h) b = Err EAssertion.
Proof.
  intros St n enc f g t h q b (s & Hs & Hl).
  assert (C : check_width n (map h (tb_Snext b)) = Err EAssertion).
  { unfold check_width. destruct (forallb _ _) eqn:E; [|reflexivity]. exfalso. rewrite forallb_forall in E. apply Hl, Nat.eqb_eq. apply E. now apply in_map. }
  unfold double_q, q_learning, soft_q, eval2. cbn [function_type2 bind]. rewrite C. repeat split.
Qed.
Print Assumptions C46_width_checked.
Example C46_width_checked_ex : exists s, In s (tb_Snext ex_batch) /\ length ((fun s => if Nat.eqb s 4 then [1; 2; 3] else [1; 2]) s) <> 2%nat.
Proof. exists 4%nat. split; [right; now left|discriminate]. Qed.

(** C46: rows whose In is zero ignore all value functions, in every variant, for any number and kind of functions. *)
Theorem C46_terminal : forall (St : Type) D enc n f g (v : St -> R) q q' pi t qs acts b,
  ends_at_terminal f b (simple_td f g v b) /\ ends_at_terminal f b (sarsa D f g q b) /\ ends_at_terminal f b (expected_sarsa D f g pi q b) /\
  ends_at_terminal f b (q_learning D enc f g n q q' b) /\ ends_at_terminal f b (q_learning_pi D f g pi q b) /\ ends_at_terminal f b (double_q D enc f g n q q' b) /\
  ends_at_terminal f b (soft_q D enc f g n t q b) /\ ends_at_terminal f b (clipped_double_q D enc f qs b) /\ ends_at_terminal f b (clipped_double_q_pi D f acts qs b).
Proof.
  intros St D enc n f g v q q' pi t qs acts b.
  repeat (match goal with |- _ /\ _ => split end); intros out k H Hk E;
    unfold simple_td, sarsa, expected_sarsa, q_learning, q_learning_pi, double_q, q_learning, soft_q, clipped_double_q, clipped_double_q_pi in H;
    repeat match type of H with
    | bind ?o _ = Ok _ => destruct o; cbn [bind] in H; [|discriminate]
    | (if ?c then _ else _) = Ok _ => destruct c; [discriminate|]
    end; exact (@bootstrap_terminal _ _ _ _ _ _ _ H Hk E).
Qed.
Print Assumptions C46_terminal.
Example C46_terminal_ex : nth 1 (tb_In ex_batch) 0 = 0 /\ exists out, simple_td (fun x => x) (fun x => x) INR ex_batch = Ok out /\ (1 < length out)%nat.
Proof. split; [reflexivity|]. eexists. split; [reflexivity|]. cbn. lia. Qed.

(** C46: contraction of the un-transformed targets.  [g] un-transforms values; with the identity it disappears. *)
Theorem C46_contract_simple : forall (St : Type) f g (v v' : St -> R) b eps, well_formed b -> inverse_pair f g -> (forall s, Rabs (g (v s) - g (v' s)) <= eps) ->
  contracts g b eps (simple_td f g v b) (simple_td f g v' b).
Proof.
  intros St f g v v' b eps W I H. destruct (@simple_rows St f g v b W) as (o & E & B). destruct (@simple_rows St f g v' b W) as (o' & E' & B'). exists o, o'. split; auto. split; auto. apply (contraction I B B'). intros k s x x' _ -> ->. auto.
Qed.
Print Assumptions C46_contract_simple.
Example C46_contract_simple_ex : inverse_pair (fun x => 2 * x) (fun x => x / 2) /\ forall s, Rabs (INR s / 2 - (INR s + 1) / 2) <= 1/2.
Proof. split; [split; intros; lra|]. intros s. replace (INR s / 2 - (INR s + 1) / 2) with (- (1/2)) by lra. rewrite Rabs_Ropp, Rabs_right; lra. Qed.

Theorem C46_contract_sarsa : forall (St : Type) n f g (q q' : qfun St R) b acts eps, (1 <= n)%nat -> width n q -> width n q' -> well_formed b -> inverse_pair f g ->
  length acts = length (tb_Snext b) -> (forall a, In a acts -> (a < n)%nat) -> tb_Anext b = map (one_hot n) acts ->
  (forall s a, (a < n)%nat -> Rabs (g (qval n q s a) - g (qval n q' s a)) <= eps) -> contracts g b eps (sarsa (Some n) f g q b) (sarsa (Some n) f g q' b).
Proof.
  intros St n f g q q' b acts eps Hn W W' WF I L Ha EA H. destruct (@sarsa_rows St n Hn f g q b acts) as (o & E & B); auto. destruct (@sarsa_rows St n Hn f g q' b acts) as (o' & E' & B'); auto. exists o, o'. split; auto. split; auto. apply (contraction I B B').
  intros k s x x' Hs -> ->. apply H. apply Ha. apply nth_In. rewrite L. apply nth_error_Some. congruence.
Qed.
Print Assumptions C46_contract_sarsa.
Example C46_contract_sarsa_ex : forall s a, (a < 2)%nat -> Rabs (qval 2 ex_q s a - qval 2 (Type2 (fun s => [INR s + 1; 5])) s a) <= 1.
Proof. intros s a Ha. destruct a as [|[|]]; [| |lia]; cbn [qval ex_q nth]; [replace (INR s - (INR s + 1)) with (- (1)) by lra; rewrite Rabs_Ropp, Rabs_right; lra|rewrite Rminus_diag_eq, Rabs_R0 by auto; lra]. Qed.

Theorem C46_contract_q_learning : forall (St : Type) n f g (q q' : qfun St R) b eps, (1 <= n)%nat -> width n q -> width n q' -> well_formed b -> inverse_pair f g -> increasing g ->
  (forall s, In s (tb_Snext b) -> no_mixed_action n q q s) -> (forall s, In s (tb_Snext b) -> no_mixed_action n q' q' s) ->
  (forall s a, (a < n)%nat -> Rabs (g (qval n q s a) - g (qval n q' s a)) <= eps) ->
  contracts g b eps (q_learning (Some n) (one_hot n) f g n q q b) (q_learning (Some n) (one_hot n) f g n q' q' b).
Proof.
  intros St n f g q q' b eps Hn W W' WF I G NM NM' H. destruct (@q_learning_rows n Hn St f g q q b) as (o & E & B); auto. destruct (@q_learning_rows n Hn St f g q' q' b) as (o' & E' & B'); auto. exists o, o'. split; auto. split; auto. apply (contraction I B B').
  intros k s x x' Hs M M'. apply (avg_self_max Hn) in M. apply (avg_self_max Hn) in M'. apply (max_incr G) in M. apply (max_incr G) in M'. exact (@maximum_close n (fun a => g (qval n q s a)) (fun a => g (qval n q' s a)) _ _ eps (H s) M M').
Qed.
Print Assumptions C46_contract_q_learning.
(** The hypotheses hold for LogTransform and for the identity. *)
Example C46_contract_transforms : (exists f g, log_transform 1 = Ok (f, g) /\ inverse_pair f g /\ increasing g) /\ inverse_pair (fun x => x) (fun x => x) /\ increasing (fun x => x).
Proof.
  split.
  - eexists _, _. unfold log_transform. destruct (Rlt_dec 0 1); [|lra]. split; [reflexivity|]. split; [apply lt_inverse; lra|apply lt_incr_g; lra].
  - split; [split; auto|]. intros x y H. exact H.
Qed.

(** C46: ExpectedSarsa and SoftQLearning contract without a transform, the latter at every temperature. *)
Theorem C46_contract_expected : forall (St : Type) n pi (q q' : qfun St R) b eps, (1 <= n)%nat -> width n q -> width n q' -> type2 q -> type2 q' -> (forall s, length (pi s) = n) -> well_formed b -> close n eps q q' ->
  contracts (fun x => x) b eps (expected_sarsa (Some n) (fun x => x) (fun x => x) pi q b) (expected_sarsa (Some n) (fun x => x) (fun x => x) pi q' b).
Proof.
  intros St n pi q q' b eps Hn W W' T T' Hp WF C. destruct (@expected_rows St n Hn (fun x => x) (fun x => x) pi q b) as (o & E & B); auto. destruct (@expected_rows St n Hn (fun x => x) (fun x => x) pi q' b) as (o' & E' & B'); auto. exists o, o'. split; auto. split; auto.
  apply (contraction (conj (fun _ => eq_refl) (fun _ => eq_refl)) B B'). intros k s x x' _ -> ->. apply expectation_close; auto.
Qed.
Print Assumptions C46_contract_expected.
Theorem C46_contract_soft : forall (St : Type) n t (q q' : qfun St R) b eps, (1 <= n)%nat -> 0 < t -> width n q -> width n q' -> well_formed b -> close n eps q q' ->
  contracts (fun x => x) b eps (soft_q (Some n) (one_hot n) (fun x => x) (fun x => x) n t q b) (soft_q (Some n) (one_hot n) (fun x => x) (fun x => x) n t q' b).
Proof.
  intros St n t q q' b eps Hn Ht W W' WF C. destruct (@soft_rows St n Hn (fun x => x) (fun x => x) t q b) as (o & E & B); auto. destruct (@soft_rows St n Hn (fun x => x) (fun x => x) t q' b) as (o' & E' & B'); auto. exists o, o'. split; auto. split; auto.
  apply (contraction (conj (fun _ => eq_refl) (fun _ => eq_refl)) B B'). intros k s x x' _ -> ->. rewrite !soft_lse. apply lse_close; auto.
Qed.
Print Assumptions C46_contract_soft.
Example C46_contract_close_ex : close 2 1 ex_q (Type2 (fun s => [INR s + 1; 5])) /\ width 2 (Type2 (fun s : nat => [INR s + 1; 5])).
Proof. split; [exact C46_contract_sarsa_ex|intros s; reflexivity]. Qed.

(** C46: clipped double learning with target policies (continuous actions): the minimum over all pairs, a contraction. *)
Theorem C46_clipped_continuous : forall (St : Type) D f (acts : list (St -> list R)) (qs : list ((St -> list R -> R) * (R -> R))) b, (2 <= length qs * length acts)%nat -> well_formed b ->
  exists out, clipped_double_q_pi D f acts (map (fun q => (Type1 (fst q), snd q)) qs) b = Ok out /\
  bootstrapped f (fun x => x) b (fun _ s m => is_minimum_of (concat (map (fun pi => map (fun q => snd q (fst q s (pi s))) qs) acts)) m) out.
Proof. intros St. exact (@clipped_pi_rows St 1 (le_n 1)). Qed.
Print Assumptions C46_clipped_continuous.
Theorem C46_contract_clipped : forall (St : Type) D (acts : list (St -> list R)) (qs : list ((St -> list R -> R) * (St -> list R -> R))) b eps, (2 <= length qs * length acts)%nat -> well_formed b ->
  (forall q s a, In q qs -> Rabs (fst q s a - snd q s a) <= eps) ->
  contracts (fun x => x) b eps (clipped_double_q_pi D (fun x => x) acts (map (fun q => (Type1 (fst q), fun x => x)) qs) b) (clipped_double_q_pi D (fun x => x) acts (map (fun q => (Type1 (snd q), fun x => x)) qs) b).
Proof.
  intros St D acts qs b eps L WF H. destruct (@clipped_pi_rows St 1 (le_n 1) D (fun x => x) acts (map (fun q => (fst q, fun x => x)) qs) b) as (o & E & B); [now rewrite map_length|auto|]. destruct (@clipped_pi_rows St 1 (le_n 1) D (fun x => x) acts (map (fun q => (snd q, fun x => x)) qs) b) as (o' & E' & B'); [now rewrite map_length|auto|].
  rewrite map_map in E, E'. cbn [fst snd] in E, E'. exists o, o'. split; auto. split; auto. apply (contraction (conj (fun _ => eq_refl) (fun _ => eq_refl)) B B'). intros k s x x' _ M M'.
  assert (C : forall h : (St -> list R -> R) * (St -> list R -> R) -> St -> list R -> R, concat (map (fun pi => map (fun q => snd q (fst q s (pi s))) (map (fun q => (h q, fun x : R => x)) qs)) acts) = map (fun pq => h (snd pq) s (fst pq s)) (list_prod acts qs)).
  { intros h. clear. induction acts as [|pi acts IH]; auto. cbn [map concat list_prod]. rewrite map_app, IH. f_equal. rewrite !map_map. reflexivity. }
  rewrite (C fst) in M. rewrite (C snd) in M'. refine (@min_close _ _ _ _ _ _ eps _ M M'). intros (pi & q) Hq. apply in_prod_iff in Hq. apply H. apply Hq.
Qed.
Print Assumptions C46_contract_clipped.
Example C46_contract_clipped_ex : (2 <= length [(fun (s : nat) (a : list R) => INR s, fun (s : nat) (a : list R) => (INR s + 1)%R); (fun s a => nth 0 a 0%R, fun s a => nth 0 a 0%R)] * length [fun s : nat => [INR s]])%nat.
Proof. cbn. lia. Qed.

Lemma dot2 : forall a b c d, dot [a; b] [c; d] = a * c + b * d.
Proof. intros. unfold dot. cbn. lra. Qed.
Lemma greedy_left : forall x y, y < x -> greedy_mix [x; y] = [1; 0].
Proof.
  intros x y H. rewrite (@greedy_unique [x; y] 2 0); [reflexivity|reflexivity|]. split; [lia|]. intros c Hc Hne. destruct c as [|[|]]; [lia| |lia]. exact H.
Qed.
Lemma greedy_right : forall x y, x < y -> greedy_mix [x; y] = [0; 1].
Proof.
  intros x y H. rewrite (@greedy_unique [x; y] 2 1); [reflexivity|reflexivity|]. split; [lia|]. intros c Hc Hne. destruct c as [|[|]]; [|lia|lia]. exact H.
Qed.
Definition one_row : tbatch unit := mk_tb [0] [1] [tt] [[]].
(** C46, the exception: DoubleQLearning and ClippedDoubleQLearning over discrete actions do not contract.  However small the change
    of the target values, the target can jump by any amount. *)
Theorem C46_contract_double_refuted : forall eps M, 0 < eps -> 0 < M -> exists (qt qt' q : qfun unit R) x x',
  width 2 qt /\ width 2 qt' /\ close 2 eps qt qt' /\ double_q (Some 2%nat) (one_hot 2) (fun x => x) (fun x => x) 2 qt q one_row = Ok [x] /\ double_q (Some 2%nat) (one_hot 2) (fun x => x) (fun x => x) 2 qt' q one_row = Ok [x'] /\ x' - x = M.
Proof.
  intros eps M He HM. exists (Type2 (fun _ => [eps; 0])), (Type2 (fun _ => [0; eps])), (Type2 (fun _ => [0; M])), 0, M. split; [intros s; reflexivity|]. split; [intros s; reflexivity|]. split.
  - intros s a Ha. destruct a as [|[|]]; [| |lia]; cbn [qval nth]; apply abs_between; lra.
  - unfold double_q. rewrite !(@q_learning_eval unit 2) by (auto; intros s; reflexivity). cbn [one_row tb_Snext map qval nth seq qat]. rewrite greedy_left, greedy_right, !dot2 by auto. cbn [finish one_row tb_Rn tb_In bootstrap bind]. split; [f_equal; f_equal; lra|]. split; [f_equal; f_equal; lra|lra].
Qed.
Print Assumptions C46_contract_double_refuted.
Theorem C46_contract_clipped_refuted : forall eps M, 0 < eps -> 0 < M -> exists (q1 q1' q2 : qfun unit R) x x',
  width 2 q1 /\ width 2 q1' /\ width 2 q2 /\ close 2 eps q1 q1' /\ clipped_double_q (Some 2%nat) (one_hot 2) (fun x => x) [(q1, fun x => x); (q2, fun x => x)] one_row = Ok [x] /\
  clipped_double_q (Some 2%nat) (one_hot 2) (fun x => x) [(q1', fun x => x); (q2, fun x => x)] one_row = Ok [x'] /\ x' - x >= M.
Proof.
  intros eps M He HM. exists (Type2 (fun _ => [eps; 0])), (Type2 (fun _ => [0; eps])), (Type2 (fun _ => [- M; 0])), (- M), 0. split; [intros s; reflexivity|]. split; [intros s; reflexivity|]. split; [intros s; reflexivity|]. split.
  - intros s a Ha. destruct a as [|[|]]; [| |lia]; cbn [qval nth]; apply abs_between; lra.
  - unfold clipped_double_q. cbn [length Nat.ltb Nat.leb]. rewrite !clipped_pairs_ok by (try lia; intros q [<-|[<-|[]]] s; reflexivity). cbn [bind]. unfold pairs, clipped_finish. cbn [map concat app fst snd one_row tb_Snext length seq qval nth qat pair_row rowmin rmin_list tb_Rn tb_In bootstrap bind].
    rewrite (@greedy_left eps 0), (@greedy_right 0 eps), (@greedy_right (- M) 0) by lra. rewrite !dot2. split; [|split; [|lra]]; f_equal; f_equal; unfold Rmin; repeat destruct (Rle_dec _ _); lra.
Qed.
Print Assumptions C46_contract_clipped_refuted.

(** C46, ExpectedSarsa with LogTransform: the expectation is taken in the transformed space, and the un-transformed target moves by 1
    when the un-transformed values move by 21/100 only. *)
Lemma half_half : softmax [0; 0] = [1/2; 1/2].
Proof. unfold softmax, sumexp. cbn [map rsum]. rewrite exp_0. f_equal; [lra|f_equal; lra]. Qed.
Theorem C46_expected_log_refuted : exists f g (q q' : qfun unit R) x x', log_transform 1 = Ok (f, g) /\ width 2 q /\ width 2 q' /\ type2 q /\ type2 q' /\
  (forall s a, (a < 2)%nat -> Rabs (g (qval 2 q s a) - g (qval 2 q' s a)) <= 21/100) /\
  expected_sarsa (Some 2%nat) f g (fun _ => [0; 0]) q one_row = Ok [x] /\ expected_sarsa (Some 2%nat) f g (fun _ => [0; 0]) q' one_row = Ok [x'] /\ Rabs (g x - g x') = 1.
Proof.
  unfold log_transform. destruct (Rlt_dec 0 1) as [H01|]; [|lra]. set (f := fun x => sign x * 1 * ln (1 + Rabs x / 1)). set (g := fun x => sign x * 1 * (exp (Rabs x / 1) - 1)).
  assert (I : inverse_pair f g) by (apply lt_inverse; lra). destruct I as [GF FG].
  assert (LP : forall z, 1 < z -> 0 < ln z) by (intros z Hz; rewrite <- ln_1; apply ln_increasing; lra).
  assert (Gl : forall z, 1 < z -> g (ln z) = z - 1). { intros z Hz. unfold g. rewrite sign_pos by auto. rewrite Rabs_right by (specialize (LP z Hz); lra). replace (ln z / 1) with (ln z) by lra. rewrite exp_ln by lra. lra. }
  assert (G0 : g 0 = 0) by (unfold g; rewrite sign_0; lra).
  exists f, g, (Type2 (fun _ => [0; ln 100])), (Type2 (fun _ => [ln (121/100); ln 100])), (f (0 + 1 * g (ln 10))), (f (0 + 1 * g (ln 11))). split; [reflexivity|]. split; [intros s; reflexivity|]. split; [intros s; reflexivity|]. split; [exact Logic.I|]. split; [exact Logic.I|]. split.
  { intros s a Ha. destruct a as [|[|]]; [| |lia]; cbn [qval nth]; [rewrite G0, Gl by lra|]; apply abs_between; lra. }
  assert (E : forall a b, expected_sarsa (Some 2%nat) f g (fun _ : unit => [0; 0]) (Type2 (fun _ => [a; b])) one_row = Ok [f (0 + 1 * g (1/2 * a + 1/2 * b))]).
  { intros a b. unfold expected_sarsa. rewrite (@eval1_ok unit 2) by (auto; try (intros s; reflexivity); intros v [<-|[]]; now rewrite half_half). cbn [bind one_row tb_Snext map combine fst snd qat]. rewrite half_half, dot2. reflexivity. }
  rewrite !E. assert (L1 : 1/2 * 0 + 1/2 * ln 100 = ln 10) by (replace 100 with (10 * 10) by lra; rewrite ln_mult by lra; lra). assert (L2 : 1/2 * ln (121/100) + 1/2 * ln 100 = ln 11).
  { replace (ln 11) with (1/2 * ln (11 * 11)) by (rewrite ln_mult by lra; lra). replace (11 * 11) with (121/100 * 100) by lra. rewrite (ln_mult (121/100) 100) by lra. lra. }
  rewrite L1, L2. split; [reflexivity|]. split; [reflexivity|]. rewrite !GF, !Gl by lra. rewrite Rabs_left; lra.
Qed.
Print Assumptions C46_expected_log_refuted.
(** C46: with a type-1 q-function ExpectedSarsa evaluates q at the mixture of actions, which is not the expectation. *)
Theorem C46_expected_type1_refuted : exists (h : unit -> list R -> R) x, expected_sarsa (Some 2%nat) (fun x => x) (fun x => x) (fun _ => [0; 0]) (Type1 h) one_row = Ok [x] /\ x <> expectation 2 (boltzmann 2 [0; 0]) (qval 2 (Type1 h) tt).
Proof.
  exists (fun _ a => nth 0 a 0 * nth 1 a 0), (1/4). split.
  - unfold expected_sarsa. rewrite (@eval1_ok unit 2) by (auto; try exact I; intros v [<-|[]]; now rewrite half_half). cbn [bind one_row tb_Snext map combine fst snd qat]. rewrite half_half. cbn [nth finish one_row tb_Rn tb_In bootstrap bind]. f_equal. f_equal. lra.
  - unfold expectation. cbn [seq map qval]. rewrite !total_cons. change (total []) with 0. cbn. lra.
Qed.
Print Assumptions C46_expected_type1_refuted.

(** ** C47 *)
(** QLearning with a type-2 q-function (q_targ a copy of q): the maximum, for every pattern of ties. *)
Theorem C47_maximum : forall (St : Type) n, (1 <= n)%nat -> forall f g (q : qfun St R) b, width n q -> type2 q -> well_formed b ->
  exists out, q_learning (Some n) (one_hot n) f g n q q b = Ok out /\ bootstrapped f g b (fun _ s x => is_maximum n (qval n q s) x) out.
Proof.
  intros St n Hn f g q b W T WF. destruct (@q_learning_rows n Hn St f g q q b) as (o & E & [L B]); auto; [intros s _; left; exact T|]. exists o. split; auto. split; auto. intros k s Hs. destruct (B k s Hs) as (x & G & Ex). exists x. split; auto. now apply avg_self_max.
Qed.
Print Assumptions C47_maximum.
Example C47_maximum_ex : is_maximum 3 (fun a => nth a [7; 7; 2] 0) 7.
Proof. split; [exists 1%nat; split; [lia|reflexivity]|]. intros a Ha. destruct a as [|[|[|]]]; [| | |lia]; cbn; lra. Qed.
(** C47: with a type-1 q-function this needs a unique maximiser. *)
Theorem C47_unique : forall (St : Type) n, (1 <= n)%nat -> forall f g (q : qfun St R) b, width n q -> well_formed b -> (forall s, In s (tb_Snext b) -> exists a, unique_max n (qval n q s) a) ->
  exists out, q_learning (Some n) (one_hot n) f g n q q b = Ok out /\ bootstrapped f g b (fun _ s x => is_maximum n (qval n q s) x) out.
Proof.
  intros St n Hn f g q b W WF U. destruct (@q_learning_rows n Hn St f g q q b) as (o & E & [L B]); auto; [intros s Hs; right; auto|]. exists o. split; auto. split; auto. intros k s Hs. destruct (B k s Hs) as (x & G & Ex). exists x. split; auto. now apply avg_self_max.
Qed.
Print Assumptions C47_unique.
Example C47_unique_ex : unique_max 3 (fun a => nth a [7; 8; 2] 0) 1.
Proof. split; [lia|]. intros c Hc N. destruct c as [|[|[|]]]; [| | |lia]; cbn; lra || lia. Qed.
(** C47: and with ties it fails: q is evaluated at the average of the tied one-hot actions. *)
Theorem C47_type1_ties_refuted : exists (h : unit -> list R -> R) x, q_learning (Some 2%nat) (one_hot 2) (fun x => x) (fun x => x) 2 (Type1 h) (Type1 h) one_row = Ok [x] /\ is_maximum 2 (qval 2 (Type1 h) tt) 0 /\ x <> 0.
Proof.
  exists (fun _ a => nth 0 a 0 * nth 1 a 0), (1/4). split.
  - rewrite (@q_learning_eval unit 2) by (auto; exact I). cbn [one_row tb_Snext map qval seq qat].
    assert (G : greedy_mix [nth 0 (one_hot 2 0) 0 * nth 1 (one_hot 2 0) 0; nth 0 (one_hot 2 1) 0 * nth 1 (one_hot 2 1) 0] = [1/2; 1/2]).
    { cbn [one_hot seq map Nat.eqb nth]. replace (1 * 0) with 0 by lra. replace (0 * 1) with 0 by lra. unfold greedy_mix, rowmax, rmax_list. replace (Rmax 0 0) with 0 by (unfold Rmax; destruct (Rle_dec 0 0); lra). cbn [map]. destruct (Req_EM_T 0 0) as [_|C]; [|congruence]. cbn [rsum map]. f_equal; [lra|f_equal; lra]. }
    rewrite G. cbn [nth finish one_row tb_Rn tb_In bootstrap bind]. f_equal. f_equal. lra.
  - split; [|lra]. split; [exists 0%nat; split; [lia|cbn; lra]|]. intros a Ha. destruct a as [|[|]]; [| |lia]; cbn; lra.
Qed.
Print Assumptions C47_type1_ties_refuted.

(** C47: the soft maximum lies within [max, max + temperature * ln n] and tends to the maximum. *)
Theorem C47_soft : forall (St : Type) n, (1 <= n)%nat -> forall f g t (q : qfun St R) b, 0 < t -> width n q -> well_formed b ->
  exists out, soft_q (Some n) (one_hot n) f g n t q b = Ok out /\ bootstrapped f g b (fun _ s x => forall m, is_maximum n (qval n q s) m -> m <= x <= m + t * ln (INR n)) out.
Proof.
  intros St n Hn f g t q b Ht W WF. destruct (@soft_rows St n Hn f g t q b W WF) as (o & E & [L B]). exists o. split; auto. split; auto. intros k s Hs. destruct (B k s Hs) as (x & -> & Ex). exists (soft_maximum n t (qval n q s)). split; auto. intros m M. rewrite soft_lse. now apply lse_bounds.
Qed.
Print Assumptions C47_soft.
Theorem C47_soft_limit : forall (St : Type) n (q : qfun St R) s m, (1 <= n)%nat -> width n q -> is_maximum n (qval n q s) m -> forall eps, 0 < eps ->
  exists t0, 0 < t0 /\ forall t, 0 < t <= t0 -> exists x, soft_q (Some n) (one_hot n) (fun x => x) (fun x => x) n t q (mk_tb [0] [1] [s] []) = Ok [x] /\ Rabs (x - m) <= eps.
Proof.
  intros St n q s m Hn W M eps He. destruct (@soft_limit n (qval n q s) m Hn M eps He) as (t0 & P & H). exists t0. split; auto. intros t Ht. destruct (@soft_rows St n Hn (fun x => x) (fun x => x) t q (mk_tb [0] [1] [s] []) W) as (o & E & [L B]); [split; reflexivity|].
  cbn [tb_Snext length] in L. destruct o as [|x [|]]; try discriminate. exists x. split; auto. destruct (B 0%nat s eq_refl) as (y & -> & Ex). cbn [nth tb_Rn tb_In] in Ex. rewrite Ex. replace (0 + 1 * soft_maximum n t (qval n q s)) with (soft_maximum n t (qval n q s)) by lra. auto.
Qed.
Print Assumptions C47_soft_limit.
Example C47_soft_ex : 0 < 1/10 /\ width 2 ex_q /\ is_maximum 2 (qval 2 ex_q 7%nat) (INR 7).
Proof. split; [lra|]. split; [exact ex_width|]. split; [exists 0%nat; split; [lia|reflexivity]|]. intros a Ha. destruct a as [|[|]]; [| |lia]; cbn [qval ex_q nth]; [lra|]. cbn. lra. Qed.

(** C47: ClippedDoubleQLearning: the least of the competing bootstrap values, one per pair of q-functions, each un-transformed by its own
    inverse function. *)
Theorem C47_clipped : forall (St : Type) n, (1 <= n)%nat -> forall f (qs : list (qfun St R * (R -> R))) b, (2 <= length qs)%nat -> (forall q, In q qs -> width n (fst q)) -> well_formed b ->
  (forall s qi qj, In s (tb_Snext b) -> In qi qs -> In qj qs -> no_mixed_action n (fst qi) (fst qj) s) ->
  exists out, clipped_double_q (Some n) (one_hot n) f qs b = Ok out /\ bootstrapped f (fun x => x) b (fun _ s m => clipped_min n qs s m) out.
Proof. intros St n Hn. exact (@clipped_rows n Hn St). Qed.
Print Assumptions C47_clipped.
Example C47_clipped_ex : (forall q, In q [(ex_q, fun x : R => x); (Type2 (fun s => [1; INR s]), fun x => x)] -> width 2 (fst q)) /\ forall s qi qj, In qi [(ex_q, fun x : R => x); (Type2 (fun s => [1; INR s]), fun x => x)] -> In qj [(ex_q, fun x : R => x); (Type2 (fun s => [1; INR s]), fun x => x)] -> no_mixed_action 2 (fst qi) (fst qj) s.
Proof. split; [intros q [<-|[<-|[]]] s; reflexivity|]. intros s qi qj _ [<-|[<-|[]]]; left; exact I. Qed.
(** C47: fewer than two q-functions, or fewer than two pairs of q-function and policy, are refused by the constructor. *)
Theorem C47_clipped_needs_two : forall (St : Type) D enc f (acts : list (St -> list R)) (qs : list (qfun St R * (R -> R))) b,
  ((length qs < 2)%nat -> clipped_double_q D enc f qs b = Err EValue) /\ ((length qs * length acts < 2)%nat -> clipped_double_q_pi D f acts qs b = Err EValue).
Proof.
  intros. split; intros H; [unfold clipped_double_q|unfold clipped_double_q_pi]; apply Nat.ltb_lt in H; now rewrite H.
Qed.
Print Assumptions C47_clipped_needs_two.
(** C47: for stochastic q-functions, the parameters that row k of the batch uses come from a pair that attains the minimum. *)
Theorem C47_clipped_choice : forall (St : Type) n, (1 <= n)%nat -> forall (qs : list (qfun St R * (R -> R))) S k s, qs <> [] -> (forall q, In q qs -> width n (fst q)) -> nth_error S k = Some s -> (forall qi qj, In qi qs -> In qj qs -> no_mixed_action n (fst qi) (fst qj) s) ->
  exists ps i qi qj x, clipped_pairs (Some n) (one_hot n) qs S = Ok ps /\ nth_error qs i = Some qi /\ nth_error qs (fst (clipped_choice (length qs) ps k)) = Some qj /\
  snd (clipped_choice (length qs) ps k) = greedy_mix (map (qval n (fst qi) s) (seq 0 n)) /\ greedy_avg n (qval n (fst qi) s) (qval n (fst qj) s) x /\ clipped_min n qs s (snd qj x).
Proof. intros St n Hn. exact (@clipped_choice_ok n Hn St). Qed.
Print Assumptions C47_clipped_choice.
Example C47_clipped_choice_ex : nth_error (tb_Snext ex_batch) 1 = Some 4%nat /\ [(ex_q, fun x : R => x)] <> []. Proof. split; [reflexivity|discriminate]. Qed.

(** ** C66: TD errors *)
(** The reported TD error (minus batch size times the gradient of the mean loss) is the label minus the prediction for mse, and that
    difference clipped to [-delta, delta] for huber; any batch size. *)
Theorem C66_td_error_mse : forall y yhat g, length y = length yhat -> yhat <> [] -> gradient (fun h => loss_value (mse y h None)) yhat g ->
  td_error g yhat = zipw Rminus y yhat.
Proof.
  intros y yhat g E NE G. rewrite (@td_error_is mse1 (fun a b => b - a) mse_deriv y yhat g E NE G). rewrite zipw_nth_map by auto. rewrite E. apply map_ext. intros k. lra.
Qed.
Print Assumptions C66_td_error_mse.
Theorem C66_td_error_huber : forall delta y yhat g, 0 < delta -> length y = length yhat -> yhat <> [] -> gradient (fun h => loss_value (huber delta y h None)) yhat g ->
  td_error g yhat = zipw (fun a b => Rmax (- delta) (Rmin (a - b) delta)) y yhat.
Proof.
  intros d y yhat g Hd E NE G. rewrite (@td_error_is (huber1 d) (fun a b => clip (b - a) (- d) d) (fun a b => @huber_deriv d a b Hd) y yhat g E NE G). rewrite zipw_nth_map by auto. rewrite E. apply map_ext. intros k. rewrite neg_clip by auto. replace (- (nth k yhat 0 - nth k y 0)) with (nth k y 0 - nth k yhat 0) by lra.
  unfold clip, Rmax, Rmin. repeat destruct (Rle_dec _ _); lra.
Qed.
Print Assumptions C66_td_error_huber.
(** The gradients exist, so the theorems are about something. *)
Theorem C66_gradients_exist : forall delta y yhat, 0 < delta -> length y = length yhat -> yhat <> [] ->
  (exists g, gradient (fun h => loss_value (mse y h None)) yhat g) /\ (exists g, gradient (fun h => loss_value (huber delta y h None)) yhat g).
Proof.
  intros d y yhat Hd E NE. split; eexists; [exact (@loss_gradient mse1 _ mse_deriv y yhat E NE)|exact (@loss_gradient (huber1 d) _ (fun a b => @huber_deriv d a b Hd) y yhat E NE)].
Qed.
Print Assumptions C66_gradients_exist.
Example C66_td_error_ex : length [1; 2] = length [0; 7] /\ [0; 7] <> [] /\ zipw (fun a b => Rmax (- (1)) (Rmin (a - b) 1)) [1; 2] [0; 7] = [1; -1].
Proof. split; [reflexivity|]. split; [discriminate|]. cbn [zipw]. f_equal; [|f_equal]; unfold Rmax, Rmin; repeat destruct (Rle_dec _ _); lra. Qed.

(** C66: what an update does: the gradient of the weighted loss with respect to any parameter is minus the mean of clipped weight times
    TD error times the derivative of the prediction.  [Qf k] is the prediction of row k as a function of the parameter. *)
Theorem C66_update_direction : forall delta G reg W (Qf : nat -> R -> R) (dQ : nat -> R) th n, 0 < delta -> (1 <= n)%nat -> length G = n -> length reg = n -> length W = n ->
  (forall k, (k < n)%nat -> derivable_pt_lim (Qf k) th (dQ k)) ->
  let td k := Rmax (- delta) (Rmin (nth k G 0 - nth k reg 0 - Qf k th) delta) in
  derivable_pt_lim (fun t => loss_value (td_loss (huber delta) G reg (map (fun k => Qf k t) (seq 0 n)) W)) th (- (total (map (fun k => Rmax (1/10) (Rmin (nth k W 0) 10) * td k * dQ k) (seq 0 n)) / INR n)).
Proof.
  intros d G reg W Qf dQ th n Hd Hn EG Er EW D td. unfold td_loss. assert (EZ : length (zipw Rminus G reg) = n) by (rewrite zipw_length; congruence). assert (Ec : length (clip_w W) = n) by (unfold clip_w; now rewrite map_length).
  pose proof (@weighted_chain (huber1 d) (fun a b => clip (b - a) (- d) d) (fun a b => @huber_deriv d a b Hd) (zipw Rminus G reg) (clip_w W) Qf dQ th n Hn EZ Ec D) as C.
  replace (- (total (map (fun k => Rmax (1/10) (Rmin (nth k W 0) 10) * td k * dQ k) (seq 0 n)) / INR n)) with (total (map (fun k => nth k (clip_w W) 0 * clip (Qf k th - nth k (zipw Rminus G reg) 0) (- d) d * dQ k) (seq 0 n)) / INR n); [exact C|].
  unfold Rdiv. rewrite <- Ropp_mult_distr_l_reverse. f_equal. replace (- total (map (fun k => Rmax (1 * / 10) (Rmin (nth k W 0) 10) * td k * dQ k) (seq 0 n))) with (-1 * total (map (fun k => Rmax (1 * / 10) (Rmin (nth k W 0) 10) * td k * dQ k) (seq 0 n))) by lra. rewrite <- total_scal. apply total_ext.
  intros k Hk. apply in_seq in Hk. rewrite clip_w_nth by lia. assert (Z : nth k (zipw Rminus G reg) 0 = nth k G 0 - nth k reg 0). { rewrite zipw_nth_map by congruence. rewrite (@nth_map_any _ _ _ (seq 0 (length G)) k 0 0%nat) by (rewrite seq_length; lia). now rewrite seq_nth by lia. }
  rewrite Z. unfold td. assert (X : clip (Qf k th - (nth k G 0 - nth k reg 0)) (- d) d = - Rmax (- d) (Rmin (nth k G 0 - nth k reg 0 - Qf k th) d)) by (unfold clip, Rmax, Rmin; repeat destruct (Rle_dec _ _); lra).
  assert (Y : clip (nth k W 0) (1/10) 10 = Rmax (1 * / 10) (Rmin (nth k W 0) 10)) by (unfold clip, Rmax, Rmin; repeat destruct (Rle_dec _ _); lra). rewrite X, Y. lra.
Qed.
Print Assumptions C66_update_direction.
Example C66_update_ex : forall k : nat, derivable_pt_lim (fun t => INR k * t) 3 (INR k).
Proof. intros k. pose proof (derivable_pt_lim_scal (fun t => t) (INR k) 3 1 (derivable_pt_lim_id 3)) as D. rewrite Rmult_1_r in D. exact D. Qed.

(** C66: the metric 'td_error' is the mean of clipped weights times TD errors; 'td_error_targ' is the mean of clipped weights times
    (prediction - target prediction), divided once more by the batch size. *)
Theorem C66_metrics : forall y yhat ytarg W g gt, length y = length yhat -> length ytarg = length yhat -> length W = length yhat -> yhat <> [] ->
  gradient (fun h => loss_value (mse y h None)) yhat g -> gradient (fun h => loss_value (mse yhat h (Some (clip_w W)))) ytarg gt ->
  td_error_metric W (td_error g yhat) = Some (weighted_mean (fun k => nth k y 0 - nth k yhat 0) (fun k => Rmax (1/10) (Rmin (nth k W 0) 10)) (length yhat)) /\
  td_error_targ_metric gt = Some (weighted_mean (fun k => nth k yhat 0 - nth k ytarg 0) (fun k => Rmax (1/10) (Rmin (nth k W 0) 10)) (length yhat) / INR (length yhat)).
Proof.
  intros y yhat ytarg W g gt E Et EW NE G GT. assert (Y : forall w, clip w (1/10) 10 = Rmax (1/10) (Rmin w 10)) by (intros w; unfold clip, Rmax, Rmin; repeat destruct (Rle_dec _ _); lra).
  assert (Lc : length (clip_w W) = length yhat) by (unfold clip_w; now rewrite map_length). assert (P : 0 < INR (length yhat)) by (apply lt_0_INR; destruct yhat; [congruence|cbn; lia]).
  assert (J : forall l : list R, length l = length yhat -> jmean l = Some (total l / INR (length yhat))). { intros l L. unfold jmean. rewrite <- L. destruct l; [destruct yhat; [congruence|discriminate]|]. now rewrite rsum_total. }
  split.
  - rewrite (@C66_td_error_mse y yhat g E NE G). unfold td_error_metric. rewrite J by (rewrite !zipw_length; auto; rewrite zipw_length; congruence). f_equal. unfold weighted_mean. f_equal. rewrite zipw_nth_map by (rewrite zipw_length; congruence). rewrite Lc. apply total_ext. intros k Hk. apply in_seq in Hk.
    rewrite clip_w_nth, Y by lia. f_equal. rewrite zipw_nth_map by auto. rewrite (@nth_map_any _ _ _ (seq 0 (length y)) k 0 0%nat) by (rewrite seq_length; lia). now rewrite seq_nth by lia.
  - assert (Nt : ytarg <> []) by (intros ->; destruct yhat; cbn in Et; congruence). pose proof (@gradient_of_mean mse1 (fun a b => b - a) mse_deriv yhat (clip_w W) ytarg (eq_sym Et) Nt) as G2.
    assert (G3 : gradient (fun h => loss_value (mse yhat h (Some (clip_w W)))) ytarg (map (fun k => nth k (clip_w W) 0 * (nth k ytarg 0 - nth k yhat 0) / INR (length ytarg)) (seq 0 (length ytarg)))).
    { eapply gradient_ext; [|exact G2]. intros h Lh. unfold mse. rewrite zip_loss_some by (auto; lia). cbn [loss_value]. rewrite Et. reflexivity. }
    rewrite (gradient_unique GT G3). unfold td_error_targ_metric. rewrite map_map, Et. rewrite J by (now rewrite map_length, seq_length). f_equal. unfold weighted_mean. f_equal.
    rewrite (@total_ext _ _ (fun k => / INR (length yhat) * (Rmax (1/10) (Rmin (nth k W 0) 10) * (nth k yhat 0 - nth k ytarg 0)))); [rewrite total_scal; lra|]. intros k Hk. apply in_seq in Hk. rewrite clip_w_nth, Y by lia. lra.
Qed.
Print Assumptions C66_metrics.
Example C66_metrics_ex : length [1; 2] = length [0; 7] /\ length [5; 5] = length [0; 7] /\ length [1; 20] = length [0; 7] /\ [0; 7] <> []. Proof. repeat split; discriminate. Qed.

(** ** C67: importance weights *)
(** Every row enters the loss of a deterministic function and of a quantile function with its weight clipped to [0.1, 10]. *)
Theorem C67_weights : forall loss G reg Q W, length G = length Q -> length reg = length Q -> length W = length Q -> Q <> [] ->
  td_loss (zip_loss loss) G reg Q W = Ok (Some (weighted_mean (fun k => loss (nth k G 0 - nth k reg 0) (nth k Q 0)) (fun k => Rmax (1/10) (Rmin (nth k W 0) 10)) (length Q))).
Proof.
  intros loss G reg Q W EG Er EW NE. assert (EZ : length (zipw Rminus G reg) = length Q) by (rewrite zipw_length; congruence). unfold td_loss. rewrite zip_loss_some; [|congruence|unfold clip_w; rewrite map_length; congruence|intros C; rewrite C in EZ; destruct Q; cbn in EZ; congruence].
  f_equal. f_equal. unfold weighted_mean. rewrite EZ. f_equal. apply total_ext. intros k Hk. apply in_seq in Hk. rewrite clip_w_nth by lia. f_equal; [unfold clip, Rmax, Rmin; repeat destruct (Rle_dec _ _); lra|].
  f_equal. rewrite zipw_nth_map by congruence. rewrite (@nth_map_any _ _ _ (seq 0 (length G)) k 0 0%nat) by (rewrite seq_length; lia). now rewrite seq_nth by lia.
Qed.
Print Assumptions C67_weights.
Theorem C67_weights_in_range : forall W k, (k < length W)%nat -> 1/10 <= nth k (clip_w W) 0 <= 10 /\ (1/10 <= nth k W 0 <= 10 -> nth k (clip_w W) 0 = nth k W 0).
Proof. intros W k H. split; [now apply clip_w_bounds|]. intros B. rewrite clip_w_nth by auto. apply (@clip_in (nth k W 0) (1/10) 10). lra. Qed.
Print Assumptions C67_weights_in_range.
Example C67_weights_ex : length [1; 2] = length [0; 7] /\ length [0; 0] = length [0; 7] /\ length [1; 20] = length [0; 7] /\ [0; 7] <> []. Proof. repeat split; discriminate. Qed.
Theorem C67_weights_quantile : forall y yhat taus W n, (1 <= n)%nat -> y <> [] -> length yhat = length y -> length taus = length y -> length W = length y ->
  (forall b, (b < length y)%nat -> length (nth b yhat []) = n /\ length (nth b taus []) = n /\ forall x, In x (nth b taus []) -> 0 <= x <= 1) ->
  td_loss_quantile y yhat taus W = Ok (Some (weighted_mean (fun b => mean (map (quantile_row 1 (nth b y []) (nth b yhat []) (nth b taus [])) (seq 0 n))) (fun k => Rmax (1/10) (Rmin (nth k W 0) 10)) (length y))).
Proof.
  intros y yhat taus W n Hn NE E1 E2 EW H. unfold td_loss_quantile. rewrite (@quantile_batch 1 y yhat taus (clip_w W) n) by (auto; try lra; unfold clip_w; now rewrite map_length). f_equal. f_equal. unfold weighted_mean. f_equal. apply total_ext. intros k Hk. apply in_seq in Hk. rewrite clip_w_nth by lia.
  f_equal. unfold clip, Rmax, Rmin; repeat destruct (Rle_dec _ _); lra.
Qed.
Print Assumptions C67_weights_quantile.
Example C67_weights_quantile_ex : forall b, (b < 1)%nat -> length (nth b [[0; 5]] []) = 2%nat /\ length (nth b [[1/4; 3/4]] []) = 2%nat /\ forall x, In x (nth b [[1/4; 3/4]] []) -> 0 <= x <= 1.
Proof. intros b Hb. assert (b = 0)%nat as -> by lia. cbn. repeat split; auto; destruct H as [<-|[<-|[]]]; lra. Qed.
(** The exception: the loss of a DiscretizedIntervalDist ignores the weights, so it differs from the weighted mean of the rows. *)
Theorem C67_discretized_refuted : (forall ce W W', td_loss_discretized ce W = td_loss_discretized ce W') /\
  exists ce W, length W = length ce /\ (forall w, In w W -> 1/10 <= w <= 10) /\ td_loss_discretized ce W <> Some (weighted_mean (fun k => nth k ce 0) (fun k => nth k W 0) (length ce)).
Proof.
  split; [reflexivity|]. exists [1; 0], [2; 1]. split; [reflexivity|]. split; [intros w [<-|[<-|[]]]; lra|]. intros C. injection C as C. unfold weighted_mean in C. cbn in C. lra.
Qed.
Print Assumptions C67_discretized_refuted.
