(** Prioritized buffer: statements over whole programs, and witnesses. *)
From Coq Require Import List ZArith Lia Bool Reals Lra Permutation.
From Verif Require Import NatDivLia PyCommon CommonProofs SegTreeModel SegTreeSpec SegTreeProofs SegTreeProofs2
  SegTreeProofs3 ReplayModel ReplaySpec ReplayProofs PrioModel PrioSpec PrioProofs PrioProofs2 PrioProofs3.
Import ListNotations.
Set Implicit Arguments.

Lemma fst_combine : forall A B (l : list A) (m : list B), length l = length m -> map fst (combine l m) = l.
Proof. induction l as [|x l IH]; intros [|y m] H; try discriminate; cbn; auto. f_equal. apply IH. now injection H. Qed.

Lemma nth_error_firstn_lt : forall A k (l : list A) p, p < k -> nth_error (firstn k l) p = nth_error l p.
Proof.
  induction k as [|k IH]; intros [|x l] [|p] H; try lia; auto. cbn. apply IH. lia.
Qed.

Lemma Forall2_weaken : forall A B (P Q : A -> B -> Prop) l m, (forall x y, P x y -> Q x y) -> Forall2 P l m -> Forall2 Q l m.
Proof. intros A B P Q l m H F. induction F; constructor; auto. Qed.

Section Whole.
Variable Y : Type.
Notation prow := (Y * R)%type.

Lemma fst_map_items : forall f (l : list (prow * R)), map fst (map_items f l) = map fst l.
Proof.
  intros f l. unfold map_items. rewrite map_map. generalize 0 as s. induction l as [|x l IH]; intros s; [reflexivity|].
  cbn. f_equal. apply IH.
Qed.

Lemma items_added : forall cap os (w : pworld Y) g,
  map fst (items (ghost_run cap w g os)) = p_added w os (map fst (items g)).
Proof.
  induction os as [|o os IH]; intros w g; [reflexivity|]. cbn [ghost_run p_added]. rewrite IH. f_equal.
  destruct o; cbn [ghost_step]; auto.
  - destruct (nth_error _ _); auto. destruct (Nat.eqb_spec (length advs) (length (rows t))); auto.
    cbn [items]. rewrite map_app, fst_combine; auto. now rewrite map_length.
  - cbv zeta. destruct (update_accepted _ _ _ _); auto. cbn [items]. apply fst_map_items.
  - destruct (Rle_dec a 0); auto. destruct (Rle_dec _ _); auto. cbn [items]. apply fst_map_items.
  - destruct (Rle_dec e 0); auto.
Qed.

Lemma step_beta : forall (w : pworld Y) o, (0 < pbeta (pb w))%R -> (0 < pbeta (pb (fst (prio_step w o))))%R.
Proof.
  intros w o H. destruct o; cbn [prio_step]; auto.
  - unfold prio_add. destruct (nth_error _ _); auto. destruct (negb _); auto. destruct (to_singles _ _).
    destruct (set_values_eff _ _ _ _ _) as [t' [e|]]; auto.
  - unfold prio_update. destruct (negb _); auto. destruct (Nat.eqb _ 0); auto. destruct (bind _ _) as [[? ?]|]; auto.
    destruct (set_values_eff _ _ _ _ _) as [t' [e|]]; auto.
  - unfold prio_set_alpha. destruct (Rle_dec a 0); auto. destruct (isclose_alpha _ _); auto.
    destruct (set_values_eff _ _ _ _ _) as [t' [e|]]; auto.
  - unfold prio_set_beta. destruct (Rle_dec b 0); auto. cbn. lra.
  - unfold prio_set_eps. destruct (Rle_dec e 0); auto.
Qed.

Lemma run_beta : forall os (w : pworld Y), (0 < pbeta (pb w))%R -> (0 < pbeta (pb (prio_run w os)))%R.
Proof.
  induction os as [|o os IH]; intros w H; auto. cbn. apply IH. now apply step_beta.
Qed.

Variable cap : nat.
Variables (h : list (tbatch prow)) (alpha beta eps : R) (w0 : pworld Y) (os : list (pop Y)).
Hypothesis Hinit : prio_init h cap alpha beta eps = Ok w0.
Hypothesis Hal : p_no_alias w0 os.
Notation w := (prio_run w0 os).
Notation log := (p_added w0 os []).
Notation g := (ghost_run cap w0 (mkG [] alpha eps) os).

Lemma cap_pos : 1 <= cap.
Proof. pose proof Hinit as H. unfold prio_init in H. destruct (Nat.eqb_spec cap 0); [discriminate|lia]. Qed.

Lemma reach : @pinv Y cap w g.
Proof. eapply reach_pinv; eauto using cap_pos. Qed.

Lemma log_items : map fst (items g) = log.
Proof. now rewrite items_added. Qed.

Lemma log_length : length (items g) = length log.
Proof. now rewrite <- log_items, map_length. Qed.

Lemma beta_pos : (0 < pbeta (pb w))%R.
Proof.
  apply run_beta. pose proof Hinit as H. unfold prio_init in H. destruct (Nat.eqb cap 0); [discriminate|].
  destruct (Rle_dec alpha 0); [discriminate|]. destruct (Rle_dec beta 0); [discriminate|]. destruct (Rle_dec eps 0); [discriminate|].
  injection H as <-. cbn. lra.
Qed.

Lemma whole_window :
  prio_len w = Nat.min cap (length log) /\
  Permutation (prio_iter w) (map Some (map as_single (lastn cap (numbered log)))).
Proof. destruct (iter_window cap_pos reach) as [H1 H2]. now rewrite log_length, log_items in *. Qed.

Lemma whole_slots : forall k, in_window cap (length log) k ->
  exists x, nth_error log k = Some x /\ nth_error (prio_iter w) (k mod cap) = Some (Some (mkTB [x] [Z.of_nat k])).
Proof.
  intros k Hw. rewrite <- log_length in Hw. pose proof reach as I. destruct (@window_item Y cap cap_pos g k Hw) as [it Hit].
  exists (fst it). split.
  { rewrite <- log_items. now rewrite (map_nth_error _ _ _ Hit). }
  destruct (i_win I Hw Hit) as [r [S1 [S2 _]]]. unfold prio_iter, prio_len. rewrite (i_cap I), (i_index I).
  assert (Hlt : k mod cap < Nat.min cap (length (items g))).
  { pose proof cap_pos as Hc. destruct Hw as [Hw1 Hw2]. assert (k mod cap < cap) by (apply Nat.mod_upper_bound; lia).
    assert (k mod cap <= k) by (apply Nat.mod_le; lia). lia. }
  rewrite nth_error_map. rewrite nth_error_firstn_lt by exact Hlt. rewrite S1. cbn [option_map]. do 2 f_equal.
  unfold deref. now apply nth_error_nth.
Qed.

Lemma whole_priority : forall k x base, in_window cap (length log) k -> nth_error (items g) k = Some (x, base) ->
  priority w k = Rpower base (galpha g) /\ palpha (pb w) = galpha g /\ peps (pb w) = geps g /\ (0 < base)%R.
Proof.
  intros k x base Hw Hit. rewrite <- log_length in Hw. pose proof reach as I. split; [|split; [|split]].
  - now rewrite (priority_stored I Hw Hit).
  - apply (i_alpha I).
  - apply (i_eps I).
  - apply (i_base I (x, base)). eapply nth_error_In; eauto.
Qed.


Lemma whole_update_exact : forall idx advs, update_accepted cap (length log) (map to_int32 idx) advs = true ->
  let w' := fst (prio_update w idx advs) in
  snd (prio_update w idx advs) = None /\ prio_iter w' = prio_iter w /\
  (forall p, length log <= p < cap -> nth p (prio_values w') 0%R = 0%R) /\
  forall k, in_window cap (length log) k ->
    priority w' k = match last_hit cap (map to_int32 idx) advs k with
                    | Some (i, adv) => if Z.eqb i (Z.of_nat k) then Rpower (Rabs adv + peps (pb w)) (palpha (pb w)) else priority w k
                    | None => priority w k
                    end.
Proof. intros idx advs. rewrite <- log_length. exact (update_exact cap_pos idx advs reach). Qed.

Lemma whole_update_rejected : forall idx advs, update_accepted cap (length log) (map to_int32 idx) advs = false ->
  fst (prio_update w idx advs) = w /\ snd (prio_update w idx advs) <> None.
Proof.
  intros idx advs H. rewrite <- log_length in H. destruct (update_pinv cap_pos idx advs reach) as [_ [J2 J3]].
  destruct (snd (prio_update w idx advs)) eqn:E; [split; [apply J3|]; congruence|].
  exfalso. assert (true = false) by (rewrite <- H; symmetry; now apply J2). discriminate.
Qed.

Lemma whole_update_named : forall idx advs, update_accepted cap (length log) idx advs = true ->
  (forall i, In i idx -> (-2147483648 <= i < 2147483648)%Z) ->
  (forall i j, In i idx -> In j idx -> (i mod Z.of_nat cap = j mod Z.of_nat cap)%Z -> i = j) ->
  let w' := fst (prio_update w idx advs) in
  snd (prio_update w idx advs) = None /\ prio_iter w' = prio_iter w /\
  (forall p, length log <= p < cap -> nth p (prio_values w') 0%R = 0%R) /\
  forall k, in_window cap (length log) k ->
    priority w' k = match find (fun ia : Z * R => Z.eqb (fst ia) (Z.of_nat k)) (rev (combine idx advs)) with
                    | Some (_, adv) => Rpower (Rabs adv + peps (pb w)) (palpha (pb w))
                    | None => priority w k
                    end.
Proof. intros idx advs. rewrite <- log_length. exact (update_named cap_pos idx advs reach). Qed.

Lemma whole_sample : forall us, log <> [] -> us <> [] -> (forall u, In u us -> (0 <= u < 1)%R) ->
  let v := prio_values w in let total := rsum v in
  let raw := fun k => Rpower (priority w k / total * INR (prio_len w)) (- pbeta (pb w)) in
  exists ks m out, prio_sample w us = Ok out /\
    Forall2 (fun u k => in_window cap (length log) k /\
              (prefix_sum v (k mod cap) <= u * total < prefix_sum v (S (k mod cap)))%R) us ks /\
    is_max m (map raw ks) /\
    Forall2 (fun k o => exists y W, nth_error log k = Some (y, W) /\ o = (y, W * (raw k / m), [Z.of_nat k])%R) ks out.
Proof.
  intros us Hn Hus Hu. destruct (@sample_ok Y cap cap_pos w g us reach) as [ks [m [out [S1 [S2 [S3 S4]]]]]]; auto.
  { rewrite log_length. destruct log; [congruence|cbn; lia]. }
  exists ks, m, out. split; [auto|]. split; [now rewrite <- log_length|]. split; [auto|].
  eapply Forall2_weaken; [|exact S4]. intros k o (y & W & base & H1 & H2). exists y, W. split; auto.
  rewrite <- log_items. now rewrite (map_nth_error _ _ _ H1).
Qed.

Lemma whole_prob_pos : forall k, in_window cap (length log) k ->
  (0 < priority w k / rsum (prio_values w) * INR (prio_len w))%R.
Proof.
  intros k Hw. rewrite <- log_length in Hw. pose proof reach as I. destruct (@window_item Y cap cap_pos g k Hw) as [it Hit].
  rewrite (priority_stored I Hw Hit). apply Rmult_lt_0_compat.
  - apply Rdiv_lt_0_compat; [apply Rpower_pos|]. apply (total_pos cap_pos I). destruct Hw. lia.
  - apply (lt_INR 0). unfold prio_len. rewrite (i_cap I), (i_index I). pose proof cap_pos. destruct Hw. lia.
Qed.

Lemma whole_weights : forall us ks m, 
  let P := fun k => (priority w k / rsum (prio_values w))%R in
  let raw := fun c k => Rpower (P k * c) (- pbeta (pb w)) in
  Forall2 (fun (u : R) k => in_window cap (length log) k) us ks ->
  is_max m (map (raw (INR (prio_len w))) ks) ->
  (forall k, In k ks -> (0 < raw (INR (prio_len w)) k / m <= 1)%R) /\
  (exists k, In k ks /\ (raw (INR (prio_len w)) k / m = 1)%R) /\
  (forall j k, In j ks -> In k ks -> (priority w j <= priority w k)%R ->
     (raw (INR (prio_len w)) k / m <= raw (INR (prio_len w)) j / m)%R) /\
  (forall c m', (0 < c)%R -> is_max m' (map (raw c) ks) -> forall k, In k ks ->
     (raw c k / m' = raw (INR (prio_len w)) k / m)%R).
Proof.
  intros us ks m P raw HF Hm.
  assert (Hin : forall k, In k ks -> in_window cap (length log) k).
  { clear - HF. induction HF as [|u k us ks H HF IH]; intros j Hj; [destruct Hj|]. destruct Hj as [<-|Hj]; auto. }
  assert (Hpos : forall k, In k ks -> (0 < P k)%R /\ (0 < INR (prio_len w))%R).
  { intros k Hk. pose proof (whole_prob_pos (Hin k Hk)) as H. fold (P k) in H.
    assert (HI : (0 <= INR (prio_len w))%R) by apply pos_INR.
    destruct (Rle_lt_or_eq_dec _ _ HI) as [HI2|HI2]; [|rewrite <- HI2 in H; lra]. split; auto.
    destruct (Rlt_le_dec 0 (P k)) as [L|L]; auto. exfalso. nra. }
  assert (Htot : forall k, In k ks -> (0 < rsum (prio_values w))%R).
  { intros k Hk. apply (total_pos cap_pos reach). rewrite log_length. destruct (Hin k Hk). lia. }
  set (N := INR (prio_len w)) in *.
  destruct (@weight_facts (pbeta (pb w)) (map (fun k => P k * N)%R ks) m beta_pos) as [F1 [F2 [F3 F4]]].
  { intros p Hp. apply in_map_iff in Hp. destruct Hp as [k [<- Hk]]. destruct (Hpos k Hk). now apply Rmult_lt_0_compat. }
  { rewrite map_map. exact Hm. }
  assert (Hmap : forall k, In k ks -> In (P k * N)%R (map (fun k => P k * N)%R ks)).
  { intros k Hk. apply (in_map (fun k => P k * N)%R). auto. }
  split; [|split; [|split]].
  - intros k Hk. apply F1. auto.
  - destruct F2 as [p [Hp E]]. apply in_map_iff in Hp. destruct Hp as [k [<- Hk]]. exists k. auto.
  - intros j k Hj Hk Hle. apply F3; auto. destruct (Hpos k Hk) as [_ HN]. apply Rmult_le_compat_r; [lra|].
    unfold P. apply Rmult_le_compat_r; auto. left. apply Rinv_0_lt_compat. now apply (Htot k).
  - intros c m' Hc Hm' k Hk. destruct (Hpos k Hk) as [HPk HN].
    assert (Ec : forall j, (P j * c = P j * N * (c / N))%R) by (intros j; field; lra).
    unfold raw at 1. rewrite Ec. apply F4; [now apply Rdiv_lt_0_compat| |auto].
    rewrite map_map. erewrite map_ext; [exact Hm'|]. intros j. cbn beta. unfold raw. now rewrite Ec.
Qed.

Lemma whole_alpha : forall a, (0 < a)%R -> ~ too_close a (palpha (pb w)) ->
  let w' := fst (prio_set_alpha w a) in
  snd (prio_set_alpha w a) = None /\ palpha (pb w') = a /\
  (forall p, length log <= p < cap -> nth p (prio_values w') 0%R = 0%R) /\
  forall k, in_window cap (length log) k ->
    ((floor_value <= priority w k)%R -> priority w' k = Rpower (priority w k) (a / palpha (pb w))) /\
    ((priority w k < floor_value)%R -> priority w' k = Rpower floor_value (a / palpha (pb w))).
Proof. intros a. rewrite <- log_length. exact (alpha_exact cap_pos reach). Qed.

Lemma whole_alpha_pos : (0 < palpha (pb w))%R.
Proof. rewrite (i_alpha reach). apply (i_alpha_pos reach). Qed.

Lemma whole_alpha_base : forall a b k, (0 < a)%R -> ~ too_close a (palpha (pb w)) -> (0 < b)%R ->
  in_window cap (length log) k -> priority w k = Rpower b (palpha (pb w)) -> (floor_value <= priority w k)%R ->
  priority (fst (prio_set_alpha w a)) k = Rpower b a.
Proof.
  intros a b k Ha Hc Hb Hw Hp Hf. destruct (whole_alpha Ha Hc) as [_ [_ [_ H]]]. destruct (H k Hw) as [H1 _].
  rewrite (H1 Hf), Hp, Rpower_mult. f_equal. field. pose proof whole_alpha_pos. lra.
Qed.

Lemma whole_empty : forall us, log = [] -> us <> [] -> prio_sample w us = Err ERuntime.
Proof.
  intros us Hl Hu. apply (@empty_sample Y cap cap_pos w g us reach); [|exact Hu].
  apply length_zero_iff_nil. rewrite log_length, Hl. reflexivity.
Qed.

End Whole.

(** Witnesses: one add of a batch of N equal rows with advantage a. *)
Section One.
Variables (N cap : nat) (alpha eps a : R).
Hypothesis Hcap : 1 <= cap.
Hypothesis Ha : (0 < alpha)%R.
Hypothesis He : (0 < eps)%R.

Definition one_heap : list (tbatch (unit * R)) := [mkTB (repeat (tt, 1%R) N) []].
Definition one_world : pworld unit := mkPW one_heap (mkPB cap alpha 1%R eps (repeat None cap) (sumtree_init cap) 0).
Definition one_prog : list (pop unit) := [PAdd 0 (repeat a N)].

Lemma one_init : prio_init one_heap cap alpha 1%R eps = Ok one_world.
Proof.
  unfold prio_init. destruct (Nat.eqb_spec cap 0); [lia|]. destruct (Rle_dec alpha 0); [lra|].
  destruct (Rle_dec 1 0); [lra|]. destruct (Rle_dec eps 0); [lra|]. reflexivity.
Qed.

Lemma one_no_alias : p_no_alias one_world one_prog.
Proof. cbn [p_no_alias one_prog]. split; [|exact Logic.I]. cbn. intros H. apply repeat_spec in H. discriminate. Qed.

Lemma one_added : p_added one_world one_prog [] = repeat (tt, 1%R) N.
Proof.
  unfold one_prog. cbn [p_added one_world pheap one_heap nth_error rows app]. now rewrite !repeat_length, Nat.eqb_refl.
Qed.

Lemma one_items : items (ghost_run cap one_world (mkG [] alpha eps) one_prog) = repeat (tt, 1%R, (Rabs a + eps)%R) N.
Proof.
  unfold one_prog. cbn [ghost_run one_world pheap one_heap ghost_step nth_error rows].
  rewrite !repeat_length, Nat.eqb_refl. cbn [items geps app]. induction N as [|n IH]; [reflexivity|]. cbn. now rewrite IH.
Qed.

Lemma one_galpha : galpha (ghost_run cap one_world (mkG [] alpha eps) one_prog) = alpha /\
  geps (ghost_run cap one_world (mkG [] alpha eps) one_prog) = eps.
Proof.
  unfold one_prog. cbn [ghost_run one_world pheap one_heap ghost_step nth_error rows].
  rewrite !repeat_length, Nat.eqb_refl. auto.
Qed.

Lemma one_priority : forall k, in_window cap N k ->
  let w := prio_run one_world one_prog in
  in_window cap (length (p_added one_world one_prog [])) k /\
  priority w k = Rpower (Rabs a + eps) alpha /\ palpha (pb w) = alpha /\ peps (pb w) = eps.
Proof.
  intros k Hk w. assert (Hw : in_window cap (length (p_added one_world one_prog [])) k).
  { rewrite one_added, repeat_length. auto. }
  split; auto.
  destruct (@whole_priority unit cap one_heap alpha 1%R eps one_world one_prog one_init one_no_alias k (tt, 1%R) (Rabs a + eps)%R Hw)
    as [P1 [P2 [P3 _]]].
  { rewrite one_items. destruct Hk as [Hk _]. now apply nth_error_repeat. }
  destruct one_galpha as [E1 E2]. rewrite E1 in P1, P2. rewrite E2 in P3. auto.
Qed.

End One.

Lemma big_int32 : forall k, (2147483648 <= Z.of_nat k)%Z -> to_int32 (Z.of_nat k) <> Z.of_nat k.
Proof.
  intros k H. unfold to_int32. assert (0 <= (Z.of_nat k + 2147483648) mod 4294967296 < 4294967296)%Z by (apply Z.mod_pos_bound; lia). lia.
Qed.

Lemma whole_large : forall Y cap (h : list (tbatch (Y * R))) alpha beta eps w0,
  prio_init h cap alpha beta eps = Ok w0 -> forall os, p_no_alias w0 os ->
  let w := prio_run w0 os in let n := length (p_added w0 os []) in
  forall k adv, in_window cap n k -> (2147483648 <= Z.of_nat k)%Z ->
  priority (fst (prio_update w [Z.of_nat k] [adv])) k = priority w k.
Proof.
  intros Y cap h alpha beta eps w0 Hi os Ha w n k adv Hw Hk.
  destruct (update_accepted cap n (map to_int32 [Z.of_nat k]) [adv]) eqn:E.
  - destruct (@whole_update_exact Y cap h alpha beta eps w0 os Hi Ha _ _ E) as [_ [_ [_ U]]]. fold w in U. rewrite (U k Hw).
    unfold last_hit. cbn [map combine rev app find fst]. destruct (Z.eqb _ _); auto.
    destruct (Z.eqb_spec (to_int32 (Z.of_nat k)) (Z.of_nat k)) as [C|C]; auto. exfalso. now apply (@big_int32 k).
  - destruct (@whole_update_rejected Y cap h alpha beta eps w0 os Hi Ha _ _ E) as [R1 _]. fold w in R1. now rewrite R1.
Qed.

Lemma whole_from_start : forall Y cap (h : list (tbatch (Y * R))) old new beta eps v0 w0 os,
  prio_init h cap old beta eps = Ok v0 -> prio_init h cap new beta eps = Ok w0 ->
  no_alpha os -> p_no_alias v0 os -> ~ too_close new old ->
  let v := prio_run v0 os in let w := prio_run w0 os in
  (forall x, In x (prio_values v) -> (x = 0 \/ floor_value <= x)%R) ->
  prio_values (fst (prio_set_alpha v new)) = prio_values w /\
  palpha (pb (fst (prio_set_alpha v new))) = palpha (pb w) /\
  prio_iter (fst (prio_set_alpha v new)) = prio_iter w.
Proof.
  intros Y cap h old new beta eps v0 w0 os Hv Hw.
  exact (@alpha_from_start Y cap (@cap_pos Y cap h old beta eps v0 Hv) h old new beta eps v0 w0 os Hv Hw).
Qed.
