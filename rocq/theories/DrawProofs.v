(** The distribution of batches of the prioritized buffer. *)
From Coq Require Import List ZArith Lia Bool Reals Lra Permutation.
From Verif Require Import PyCommon CommonProofs SegTreeModel SegTreeSpec SegTreeProofs SegTreeProofs3 ReplayModel ReplaySpec PrioModel PrioSpec
  PrioProofs PrioProofs2 PrioProofs3 PrioProofs4 MeanSpec MeanProofs.
Import ListNotations.
Open Scope R_scope.
Set Implicit Arguments.

(** One draw: brackets of a list of weights. *)
Section Brackets.
Variable v : list R.
Hypothesis nonneg : forall x, In x v -> 0 <= x.
Hypothesis pos : 0 < rsum v.
Notation total := (rsum v).
Notation pre := (prefix_sum v).

Lemma nth_nonneg : forall i, 0 <= nth i v 0.
Proof. intros i. destruct (nth_in_or_default i v 0) as [H| ->]; [auto|lra]. Qed.
Lemma pre_0 : pre 0 = 0. Proof. reflexivity. Qed.
Lemma pre_total : pre (length v) = total. Proof. unfold prefix_sum. now rewrite firstn_all. Qed.
Lemma pre_nonneg : forall i, 0 <= pre i.
Proof. intros i. rewrite <- pre_0. apply prefix_sum_mono; auto. lia. Qed.
Lemma pre_le_total : forall i, (i <= length v)%nat -> pre i <= total.
Proof. intros i H. rewrite <- pre_total. now apply prefix_sum_mono. Qed.

Lemma bracket_unit : forall i u, (i < length v)%nat -> pre i / total < u < pre (S i) / total -> pre i <= u * total < pre (S i).
Proof.
  intros i u Hi [H1 H2]. apply (Rmult_lt_compat_r total) in H1; auto. apply (Rmult_lt_compat_r total) in H2; auto.
  unfold Rdiv in *. rewrite Rmult_assoc, Rinv_l, Rmult_1_r in H1, H2 by lra. lra.
Qed.

Lemma steps_integral : forall F h n, (n <= length v)%nat -> (forall i u, (i < length v)%nat -> pre i <= u * total < pre (S i) -> F u = h i) ->
  integral F 0 (pre n / total) (sum_over (seq 0 n) (fun i => nth i v 0 / total * h i)).
Proof.
  intros F h n Hn H. induction n as [|n IH].
  - rewrite pre_0. unfold Rdiv. rewrite Rmult_0_l. apply integral_point.
  - rewrite seq_S, sum_over_app, sum_cons, sum_nil, Rplus_0_r. cbn [plus]. eapply integral_chasles; [apply IH; lia|].
    pose proof (@prefix_sum_S v n Hn) as E. assert (L : pre n / total <= pre (S n) / total).
    { apply Rmult_le_compat_r; [left; now apply Rinv_0_lt_compat|]. rewrite E. pose proof (nth_nonneg n). lra. }
    apply (@integral_ext (fun _ => h n)); auto.
    + intros u Hu. symmetry. apply H; [lia|]. apply bracket_unit; [lia|auto].
    + replace (nth n v 0 / total * h n) with (h n * (pre (S n) / total - pre n / total)); [apply integral_const|]. rewrite E. field. lra.
Qed.

Lemma steps_mean : forall F h, (forall i u, (i < length v)%nat -> pre i <= u * total < pre (S i) -> F u = h i) ->
  mean_over_unit F (sum_over (seq 0 (length v)) (fun i => nth i v 0 / total * h i)).
Proof.
  intros F h H. pose proof (@steps_integral F h (length v) (le_n _) H) as I. rewrite pre_total in I. unfold Rdiv in I at 1. rewrite Rinv_r in I by lra. exact I.
Qed.

Lemma bracket_unique : forall i j u, pre i <= u * total < pre (S i) -> pre j <= u * total < pre (S j) -> i = j.
Proof.
  intros i j u Hi Hj. destruct (Nat.lt_trichotomy i j) as [L|[E|L]]; auto; exfalso.
  - pose proof (@prefix_sum_mono v (S i) j nonneg L). lra.
  - pose proof (@prefix_sum_mono v (S j) i nonneg L). lra.
Qed.

Lemma bracket_rep : forall i, (i < length v)%nat -> 0 < nth i v 0 -> pre i <= pre i / total * total < pre (S i) /\ 0 <= pre i / total < 1.
Proof.
  intros i Hi P. pose proof (@prefix_sum_S v i Hi) as E. pose proof (pre_nonneg i) as N. pose proof (@pre_le_total (S i) Hi) as L.
  assert (X : pre i / total * total = pre i) by (field; lra). rewrite X. split; [lra|]. split; [apply Rmult_le_pos; auto; left; now apply Rinv_0_lt_compat|].
  apply (Rmult_lt_reg_r total); auto. rewrite X. lra.
Qed.
End Brackets.

(** Several draws. *)
Section Several.
Variables (K : Type) (keys : list K) (p : K -> R) (br : R -> K -> Prop) (rep : K -> R).
Hypothesis rep_ok : forall k : K, In k keys -> 0 <= rep k < 1 /\ br (rep k) k.
Hypothesis br_ex : forall u, 0 <= u < 1 -> exists k, In k keys /\ br u k.
Hypothesis one : forall F g, (forall u k, 0 <= u < 1 -> In k keys -> br u k -> F u = g k) -> mean_over_unit F (sum_over keys (fun k => p k * g k)).
Notation draws us ks := (Forall2 (fun u k => 0 <= u < 1 /\ In k keys /\ br u k) us ks).

Lemma draws_rep : forall ks, (forall k, In k ks -> In k keys) -> draws (map rep ks) ks.
Proof. induction ks as [|k ks IH]; intros H; constructor; [|apply IH; intros; apply H; now right]. destruct (rep_ok k (H k (or_introl eq_refl))). split; auto. split; auto. apply H. now left. Qed.

Lemma several : forall n F g, (forall us ks, length ks = n -> draws us ks -> F us = g ks) -> mean_units n F (expect keys p n g).
Proof.
  induction n as [|n IH]; intros F g H; cbn [mean_units expect]; [apply H; auto|].
  exists (fun u => expect keys p n (fun ks => F (u :: map rep ks))). split.
  - intros u Hu. assert (Hu' : 0 <= u < 1) by lra. destruct (br_ex Hu') as (k & K1 & K2). apply IH. intros us ks L D. transitivity (g (k :: ks)); [|symmetry]; apply H; cbn; auto. constructor; auto.
    apply draws_rep. clear - D. induction D as [|u k us ks (_ & X & _) _ IH]; [intros ? []|]. intros x [<-|I]; auto.
  - apply one. intros u k Hu K1 K2. apply expect_ext. intros ks L I. apply H; [cbn; lia|]. constructor; auto. now apply draws_rep.
Qed.
End Several.

Lemma largest_ge0 : forall l, 0 <= largest l.
Proof. induction l; cbn; [lra|]. eapply Rle_trans; [exact IHl|apply Rmax_r]. Qed.
Lemma largest_max : forall l, l <> [] -> (forall x, In x l -> 0 < x) -> is_max (largest l) l.
Proof.
  induction l as [|x l IH]; intros N P; [congruence|]. cbn [largest fold_right]. fold (largest l). pose proof (P x (or_introl eq_refl)) as Px. destruct l as [|y l].
  - cbn. rewrite Rmax_left by lra. split; [now left|]. intros z [<-|[]]. lra.
  - destruct IH as [I1 I2]; [discriminate|intros z Hz; apply P; now right|]. split.
    + unfold Rmax. destruct (Rle_dec x (largest (y :: l))); [now right|now left].
    + intros z [<-|Hz]; [apply Rmax_l|]. eapply Rle_trans; [now apply I2|apply Rmax_r].
Qed.
Lemma is_max_unique : forall m m' l, is_max m l -> is_max m' l -> m = m'.
Proof. intros m m' l [I M] [I' M']. apply Rle_antisym; auto. Qed.

Section Buffer.
Variable Y : Type.
Notation prow := (Y * R)%type.
Variable cap : nat.
Variables (h : list (tbatch prow)) (alpha beta eps : R) (w0 : pworld Y) (os : list (pop Y)).
Hypothesis Hinit : prio_init h cap alpha beta eps = Ok w0.
Hypothesis Hal : p_no_alias w0 os.
Notation w := (prio_run w0 os).
Notation log := (p_added w0 os []).
Notation g := (ghost_run cap w0 (mkG [] alpha eps) os).
Notation v := (prio_values w).
Notation P := (fun k => priority w k / rsum v).
Notation raw := (fun k => Rpower (priority w k / rsum v * INR (prio_len w)) (- pbeta (pb w))).
Notation keys := (stored cap (length log)).

Lemma capp : (1 <= cap)%nat. Proof. exact (cap_pos _ _ _ _ _ Hinit). Qed.
Lemma rch : @pinv Y cap w g. Proof. exact (@reach Y cap h alpha beta eps w0 os Hinit Hal). Qed.
Lemma stored_window : forall n k, In k (stored cap n) <-> in_window cap n k.
Proof. intros n k. unfold stored, in_window. rewrite in_seq. pose proof capp. lia. Qed.
Lemma llen : length (items g) = length log. Proof. exact (@log_length Y cap alpha eps w0 os). Qed.
Lemma vlen : length v = cap.
Proof. unfold prio_values. rewrite (values_length (i_tree rch)). exact (i_tcap rch). Qed.
Lemma vnonneg : forall x, In x v -> 0 <= x.
Proof. exact (values_nonneg capp rch). Qed.
Lemma capw : pcap (pb w) = cap. Proof. exact (i_cap rch). Qed.

Lemma priority_pos : forall k, In k keys -> 0 < priority w k.
Proof.
  intros k Hk. apply stored_window in Hk. rewrite <- llen in Hk. destruct (@window_item Y cap capp g k Hk) as [it Hit]. rewrite (priority_stored rch Hk Hit). apply Rpower_pos.
Qed.
Lemma priority_nth : forall k, priority w k = nth (k mod cap) v 0.
Proof. intros k. unfold priority. now rewrite capw. Qed.

Lemma stored_perm : Permutation (map (fun k => (k mod cap)%nat) keys) (seq 0 (Nat.min cap (length log))).
Proof.
  unfold stored. destruct (Nat.le_gt_cases cap (length log)) as [L|L].
  - rewrite Nat.min_l by auto. now apply perm_mod; [exact capp|].
  - rewrite Nat.min_r, Nat.sub_diag by lia. rewrite (map_ext_in _ (fun k => k)); [now rewrite map_id|]. intros k Hk. apply in_seq in Hk. apply Nat.mod_small. lia.
Qed.

Lemma free_zero : forall p, (length log <= p < cap)%nat -> nth p v 0 = 0.
Proof. intros p Hp. rewrite <- llen in Hp. destruct (i_free rch (p := p)) as [_ F]; [lia|]. now apply nth_error_nth. Qed.

Lemma slots_keys : forall f, (forall p, (length log <= p < cap)%nat -> f p = 0) -> sum_over (seq 0 cap) f = sum_over keys (fun k => f (k mod cap)%nat).
Proof.
  intros f Z0. rewrite <- (sum_over_map (fun k => (k mod cap)%nat) keys f), (sum_over_perm f stored_perm). set (m := Nat.min cap (length log)).
  replace cap with (m + (cap - m))%nat at 1 by lia. rewrite seq_app, sum_over_app. rewrite (sum_over_ext (seq (0 + m) (cap - m)) f (fun _ => 0)).
  - rewrite sum_over_const. ring.
  - intros p Hp. apply in_seq in Hp. apply Z0. lia.
Qed.

Hypothesis Hlog : log <> [].
Lemma tpos : 0 < rsum v.
Proof. apply (total_pos capp rch). rewrite llen. destruct log; [congruence|cbn; lia]. Qed.

Lemma rsum_sum : forall l, rsum l = sum_over (seq 0 (length l)) (fun i => nth i l 0).
Proof.
  induction l as [|x l IH]; [reflexivity|]. cbn [rsum length seq]. rewrite sum_cons, IH, <- seq_shift, sum_over_map. reflexivity.
Qed.
Lemma P_total : sum_over keys P = 1.
Proof.
  pose proof tpos as T. rewrite (sum_over_ext _ _ (fun k => / rsum v * nth (k mod cap) v 0)) by (intros k _; rewrite priority_nth; unfold Rdiv; ring).
  rewrite <- (@slots_keys (fun p => / rsum v * nth p v 0)) by (intros p Hp; rewrite free_zero by auto; ring). rewrite sum_over_scal. rewrite <- vlen, <- rsum_sum. field. lra.
Qed.
Lemma P_pos : forall k, In k keys -> 0 < P k.
Proof. intros k Hk. apply Rdiv_lt_0_compat; [now apply priority_pos|exact tpos]. Qed.

Notation br := (fun u k => prefix_sum v (k mod cap) <= u * rsum v < prefix_sum v (S (k mod cap))).
Notation rep := (fun k => prefix_sum v (k mod cap) / rsum v).

Lemma modcap : forall k, (k mod cap < length v)%nat.
Proof. intros k. rewrite vlen. apply Nat.mod_upper_bound. pose proof capp. lia. Qed.

Lemma reps : forall k, In k keys -> 0 <= rep k < 1 /\ br (rep k) k.
Proof.
  intros k Hk. destruct (@bracket_rep v vnonneg tpos (k mod cap)%nat (modcap k)) as [A B]; [rewrite <- priority_nth; now apply priority_pos|]. auto.
Qed.
Lemma brs : forall u, 0 <= u < 1 -> exists k, In k keys /\ br u k.
Proof.
  intros u Hu. destruct (@whole_sample Y cap h alpha beta eps w0 os Hinit Hal [u]) as (ks & m & out & _ & F & _); auto; [discriminate|intros x [<-|[]]; auto|].
  inversion F as [|? k ? ? [F1 F2]]; subst. exists k. split; [now apply stored_window|auto].
Qed.
Lemma keys_unique : forall k k' u, In k keys -> In k' keys -> br u k -> br u k' -> k = k'.
Proof.
  intros k k' u Hk Hk' B B'. pose proof (@bracket_unique v vnonneg (k mod cap)%nat (k' mod cap)%nat u B B') as E.
  apply stored_window in Hk, Hk'. destruct Hk, Hk'. destruct (Nat.lt_trichotomy k k') as [L|[X|L]]; auto; exfalso.
  - apply (@mod_window cap k k' capp); auto. lia.
  - apply (@mod_window cap k' k capp); auto. lia.
Qed.

Lemma one_draw : forall F f, (forall u k, 0 <= u < 1 -> In k keys -> br u k -> F u = f k) -> mean_over_unit F (sum_over keys (fun k => P k * f k)).
Proof.
  intros F f H. assert (S0 : forall i u, (i < length v)%nat -> prefix_sum v i <= u * rsum v < prefix_sum v (S i) -> F u = F (prefix_sum v i / rsum v)).
  { intros i u Hi Hb. rewrite vlen in Hi. destruct (Nat.lt_ge_cases i (length log)) as [L|L].
    - destruct (@slot_cover cap (length log) i capp Hi L) as (k & K1 & K2 & K3). assert (Hk : In k keys) by (apply stored_window; split; auto).
      subst i. transitivity (f k); [|symmetry; destruct (reps k Hk); now apply H]. apply H; auto.
      pose proof tpos. pose proof (@pre_nonneg v vnonneg (k mod cap)%nat) as N. pose proof (@pre_le_total v vnonneg (S (k mod cap)%nat) (modcap k)). split.
      + apply (Rmult_le_reg_r (rsum v)); auto. lra.
      + apply (Rmult_lt_reg_r (rsum v)); auto. lra.
    - exfalso. assert (Hv : (i < length v)%nat) by now rewrite vlen. rewrite (@prefix_sum_S v i Hv), free_zero in Hb by lia. lra. }
  pose proof (@steps_mean v vnonneg tpos F _ S0) as M. rewrite vlen in M.
  rewrite (slots_keys (fun i => nth i v 0 / rsum v * F (prefix_sum v i / rsum v))) in M.
  - rewrite (sum_over_ext _ _ (fun k => P k * f k)) in M; auto. intros k Hk. rewrite priority_nth. f_equal. destruct (reps k Hk). now apply H.
  - intros p Hp. rewrite free_zero by auto. unfold Rdiv. ring.
Qed.

Lemma raw_pos : forall k, 0 < raw k. Proof. intros k. apply Rpower_pos. Qed.

Lemma law : forall n (phi : list (Y * R * list Z) -> R) F, (1 <= n)%nat ->
  (forall us out, length us = n -> (forall u, In u us -> 0 <= u < 1) -> prio_sample w us = Ok out -> F us = phi out) ->
  mean_units n F (expect keys P n (fun ks => phi (delivered log raw ks))).
Proof.
  intros n phi F Hn HF. apply (@several nat keys P br rep reps brs one_draw). intros us ks L D.
  assert (Lu : length us = n) by (rewrite <- L; clear - D; induction D; cbn; auto).
  assert (U : forall u, In u us -> 0 <= u < 1). { clear - D. induction D as [|u k us ks (X & _) _ IH]; [intros ? []|]. intros x [<-|I]; auto. }
  destruct (@whole_sample Y cap h alpha beta eps w0 os Hinit Hal us) as (ks' & m & out & S1 & S2 & S3 & S4); auto; [destruct us; [cbn in Lu; lia|discriminate]|].
  assert (E : ks' = ks).
  { clear - D S2 Hinit Hal Hlog. revert ks' S2. induction D as [|u k us ks (X1 & X2 & X3) _ IH]; intros ks' S2; inversion S2 as [|? k' ? ? [F1 F2] F3]; subst; auto. f_equal; auto. apply (@keys_unique k' k u); auto. now apply stored_window. }
  subst ks'. rewrite (HF us out Lu U S1). f_equal.
  assert (M : m = largest (map raw ks)). { apply (@is_max_unique _ _ (map raw ks) S3). apply largest_max; [destruct ks; [cbn in L; lia|discriminate]|]. intros x Hx. apply in_map_iff in Hx. destruct Hx as (k & <- & _). apply Rpower_pos. }
  unfold delivered. rewrite <- M. clear - S4. induction S4 as [|k o ks out (y & W & A & B) _ IH]; [reflexivity|]. cbn [flat_map]. rewrite A. cbn [app]. now rewrite <- B, <- IH.
Qed.

(** Weighted losses. *)
Lemma keys_log : forall k, In k keys -> exists y W, nth_error log k = Some (y, W).
Proof. intros k Hk. apply stored_window in Hk. destruct Hk as [Hk _]. destruct (nth_error log k) as [[y W]|] eqn:E; [eauto|]. apply nth_error_None in E. lia. Qed.

Lemma delivered_facts : forall c ks, (forall k, In k ks -> In k keys) ->
  let out := flat_map (fun k => match nth_error log k with Some (y, W) => [(y, W * (raw k / c), [Z.of_nat k])] | None => [] end) ks in
  length out = length ks /\ ids_of out = ks /\ forall f, sum_over out (fun e : Y * R * list Z => snd (fst e) * f (fst (fst e))) = sum_over ks (fun k => loss_of log f k * (raw k / c)).
Proof.
  intros c. induction ks as [|k ks IH]; intros H out; unfold out; [repeat split; reflexivity|]. cbn [flat_map]. destruct IH as (I1 & I2 & I3); [intros; apply H; now right|].
  destruct (@keys_log k (H k (or_introl eq_refl))) as (y & W & E). unfold loss_of at 1. rewrite E. cbn [app]. split; [cbn [length]; now f_equal|]. split; [unfold ids_of in *; cbn [flat_map snd map app]; rewrite Nat2Z.id; now f_equal|].
  intros f. rewrite !sum_cons, I3. cbn [fst snd]. f_equal. unfold loss_of. rewrite E. ring.
Qed.

Lemma lenp : 0 < INR (prio_len w).
Proof. apply (lt_INR 0). unfold prio_len. rewrite capw, (i_index rch), llen. pose proof capp. destruct log; [congruence|cbn [length]; lia]. Qed.
Lemma keys_len : length keys = prio_len w.
Proof. unfold stored, prio_len. rewrite seq_length, capw, (i_index rch), llen. reflexivity. Qed.
Lemma raw_one : pbeta (pb w) = 1 -> forall k, In k keys -> P k * raw k = / INR (prio_len w).
Proof.
  intros B k Hk. cbv beta. rewrite B. pose proof (P_pos k Hk) as PP. cbv beta in PP. pose proof lenp as LP. rewrite Rpower_Ropp, Rpower_1 by (apply Rmult_lt_0_compat; auto). field. split; [lra|]. split; [pose proof tpos; lra|pose proof (priority_pos k Hk); lra].
Qed.

Lemma loss_delivered : forall f ks, (forall k, In k ks -> In k keys) -> weighted_loss f (delivered log raw ks) = / largest (map raw ks) * (sum_over ks (fun k => raw k * loss_of log f k) / INR (length ks)).
Proof.
  intros f ks H. unfold weighted_loss, delivered. destruct (@delivered_facts (largest (map raw ks)) ks H) as (-> & _ & ->).
  rewrite (sum_over_ext _ _ (fun k => / largest (map raw ks) * (raw k * loss_of log f k))) by (intros; unfold Rdiv; ring). rewrite sum_over_scal. unfold Rdiv. ring.
Qed.
Lemma largest_pos : forall ks, ks <> [] -> 0 < largest (map raw ks).
Proof.
  intros ks N. assert (M : is_max (largest (map raw ks)) (map raw ks)). { apply largest_max; [destruct ks; [congruence|discriminate]|]. intros x Hx. apply in_map_iff in Hx. destruct Hx as (k & <- & _). apply Rpower_pos. }
  destruct M as [I _]. apply in_map_iff in I. destruct I as (k & <- & _). apply Rpower_pos.
Qed.

Lemma raw_mean : forall f n, (1 <= n)%nat -> pbeta (pb w) = 1 -> expect keys P n (fun ks => sum_over ks (fun k => raw k * loss_of log f k) / INR (length ks)) = sum_over keys (loss_of log f) / INR (prio_len w).
Proof.
  intros f n Hn B. assert (0 < INR n) by (apply (lt_INR 0); lia).
  rewrite (@expect_ext _ keys P n _ (fun ks => / INR n * sum_over ks (fun k => raw k * loss_of log f k))) by (intros l -> _; unfold Rdiv; ring).
  rewrite expect_scal, (expect_sum _ _ P_total). rewrite (sum_over_ext _ _ (fun k => / INR (prio_len w) * loss_of log f k)) by (intros k Hk; rewrite <- Rmult_assoc; now rewrite raw_one).
  rewrite sum_over_scal. field. split; [pose proof lenp|]; lra.
Qed.

Lemma unbiased : forall n f F, (1 <= n)%nat -> pbeta (pb w) = 1 ->
  (forall us out, length us = n -> (forall u, In u us -> 0 <= u < 1) -> prio_sample w us = Ok out -> F us = largest (map raw (ids_of out)) * weighted_loss f out) ->
  mean_units n F (sum_over keys (loss_of log f) / INR (prio_len w)).
Proof.
  intros n f F Hn B H. rewrite <- (@raw_mean f n Hn B).
  rewrite (@expect_ext _ keys P n _ (fun ks => (fun out => largest (map raw (ids_of out)) * weighted_loss f out) (delivered log raw ks))); [exact (@law n (fun out => largest (map raw (ids_of out)) * weighted_loss f out) F Hn H)|].
  intros ks L K. cbv beta. rewrite (@loss_delivered f ks K). unfold delivered. destruct (@delivered_facts (largest (map raw ks)) ks K) as (_ & -> & _).
  assert (0 < largest (map raw ks)) by (apply largest_pos; intros ->; cbn in L; lia). cbv beta. rewrite <- Rmult_assoc, Rinv_r by lra. ring.
Qed.

Lemma bounds : forall n f F lo hi, (1 <= n)%nat -> pbeta (pb w) = 1 -> 0 < lo -> (forall k, In k keys -> lo <= priority w k <= hi) -> (forall k, In k keys -> 0 <= loss_of log f k) ->
  (forall us out, length us = n -> (forall u, In u us -> 0 <= u < 1) -> prio_sample w us = Ok out -> F us = weighted_loss f out) ->
  exists E, mean_units n F E /\ let N := INR (prio_len w) in let U := sum_over keys (loss_of log f) / N in N * lo / rsum v * U <= E <= N * hi / rsum v * U.
Proof.
  intros n f F lo hi Hn B Hlo Hp Hf H. eexists. split; [apply (@law n (weighted_loss f) F Hn H)|]. cbv zeta. rewrite <- (@raw_mean f n Hn B), <- !expect_scal. pose proof lenp as NP. pose proof tpos as TP.
  assert (RB : forall k, In k keys -> rsum v / (INR (prio_len w) * hi) <= raw k <= rsum v / (INR (prio_len w) * lo)).
  { intros k Hk. destruct (Hp k Hk) as [H1 H2]. pose proof (raw_one B k Hk) as E. cbv beta in E. assert (X : raw k = rsum v / (INR (prio_len w) * priority w k)).
    { apply (Rmult_eq_reg_l (priority w k / rsum v)); [|apply Rgt_not_eq; apply Rdiv_lt_0_compat; lra]. rewrite E. field. repeat split; lra. }
    cbv beta in X. rewrite X. split; apply Rmult_le_compat_l; try lra; apply Rinv_le_contravar; try (apply Rmult_lt_0_compat; lra); apply Rmult_le_compat_l; lra. }
  assert (LB : forall ks, ks <> [] -> (forall k, In k ks -> In k keys) -> INR (prio_len w) * lo / rsum v <= / largest (map raw ks) <= INR (prio_len w) * hi / rsum v).
  { intros ks N K. assert (M : is_max (largest (map raw ks)) (map raw ks)). { apply largest_max; [destruct ks; [congruence|discriminate]|]. intros x Hx. apply in_map_iff in Hx. destruct Hx as (k & <- & _). apply Rpower_pos. }
    destruct M as [I _]. apply in_map_iff in I. destruct I as (k & <- & Ik). destruct (RB k (K k Ik)) as [R1 R2]. destruct (Hp k (K k Ik)) as [H1 H2].
    assert (0 < rsum v / (INR (prio_len w) * hi)) by (apply Rdiv_lt_0_compat; [lra|]; apply Rmult_lt_0_compat; lra).
    replace (INR (prio_len w) * lo / rsum v) with (/ (rsum v / (INR (prio_len w) * lo))) by (field; lra). replace (INR (prio_len w) * hi / rsum v) with (/ (rsum v / (INR (prio_len w) * hi))) by (field; lra).
    split; apply Rinv_le_contravar; auto. lra. }
  assert (SP : forall ks, (forall k, In k ks -> In k keys) -> 0 <= sum_over ks (fun k => raw k * loss_of log f k) / INR (length ks)).
  { intros ks K. destruct ks as [|k0 ks]; [unfold Rdiv; rewrite sum_nil; lra|]. apply Rmult_le_pos; [|left; apply Rinv_0_lt_compat, (lt_INR 0); cbn [length]; lia].
    apply sum_over_nonneg. intros k Hk. apply Rmult_le_pos; [left; apply Rpower_pos|]. apply Hf. auto. }
  split; apply expect_le; try (intros k Hk; left; now apply P_pos); intros ks L K; rewrite (@loss_delivered f ks K); apply Rmult_le_compat_r; try (now apply SP); apply LB; auto; intros ->; cbn in L; lia.
Qed.

Lemma batch_of_one : forall f F, (forall u out, 0 <= u < 1 -> prio_sample w [u] = Ok out -> F u = weighted_loss f out) -> mean_over_unit F (sum_over keys (fun k => P k * loss_of log f k)).
Proof.
  intros f F H. apply one_draw. intros u k Hu Hk Hb. destruct (@whole_sample Y cap h alpha beta eps w0 os Hinit Hal [u]) as (ks & m & out & S1 & S2 & S3 & S4); auto; [discriminate|intros x [<-|[]]; auto|].
  rewrite (H u out Hu S1). inversion S2 as [|? k' ? ? [F1 F2] F3]; subst. inversion F3; subst. inversion S4 as [|? o ? ? (y & W & A & E) S5]; subst. inversion S5; subst.
  assert (k' = k) by (apply (@keys_unique k' k u); auto; now apply stored_window). subst k'. unfold weighted_loss, loss_of. rewrite A, sum_cons, sum_nil. cbn [fst snd length INR].
  destruct S3 as [[M|[]] _]. rewrite <- M. field. pose proof (Rpower_pos (priority w k / rsum v * INR (prio_len w)) (- pbeta (pb w))). lra.
Qed.

Lemma position : forall n j f F, (j < n)%nat -> (forall us out y W i, length us = n -> (forall u, In u us -> 0 <= u < 1) -> prio_sample w us = Ok out -> nth_error out j = Some (y, W, i) -> F us = f i) ->
  mean_units n F (sum_over keys (fun k => P k * f [Z.of_nat k])).
Proof.
  intros n j f F Hj H. assert (E : forall n j (q : nat -> R), (j < n)%nat -> expect keys P n (fun ks => match nth_error ks j with Some k => q k | None => 0 end) = sum_over keys (fun k => P k * q k)).
  { clear - Hinit Hal Hlog. induction n as [|n IH]; intros j q Hj; [lia|]. cbn [expect]. destruct j as [|j].
    - apply sum_over_ext. intros k Hk. cbn [nth_error]. now rewrite (expect_const _ _ P_total).
    - cbn [nth_error]. rewrite (sum_over_ext _ _ (fun k => sum_over keys (fun k => P k * q k) * P k)) by (intros k Hk; rewrite IH by lia; ring). rewrite sum_over_scal, P_total. ring. }
  pose proof (E n j (fun k => f [Z.of_nat k]) Hj) as E1. cbv beta in E1 |- *. rewrite <- E1. clear E1. pose (phi := fun out : list (Y * R * list Z) => match nth_error out j with Some (_, i) => f i | None => 0 end).
  rewrite (@expect_ext _ keys P n _ (fun ks => phi (delivered log raw ks))).
  - apply (@law n phi F); [lia|]. intros us out L U S. unfold phi. destruct (nth_error out j) as [[[y W] i]|] eqn:N; [eauto|]. exfalso. apply nth_error_None in N.
    destruct (@whole_sample Y cap h alpha beta eps w0 os Hinit Hal us) as (ks & m & out' & S1 & S2 & S3 & S4); auto; [destruct us; [cbn in L; lia|discriminate]|].
    rewrite S in S1. injection S1 as <-. assert (length us = length ks) by (clear - S2; induction S2; cbn; auto). assert (length ks = length out) by (clear - S4; induction S4; cbn; auto). lia.
  - intros ks _ K. unfold phi, delivered. generalize (largest (map raw ks)). intros c. clear - K Hinit Hal Hlog. revert j. induction ks as [|k ks IH]; intros j; [now destruct j|]. cbn [flat_map].
    destruct (@keys_log k (K k (or_introl eq_refl))) as (y & W & E). rewrite E. destruct j as [|j]; cbn [nth_error app]; [reflexivity|]. apply IH. intros; apply K. now right.
Qed.
End Buffer.
