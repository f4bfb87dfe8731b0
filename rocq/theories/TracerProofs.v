(** N-step tracing: every schedule of calls. *)
From Coq Require Import List ZArith Lia Bool Reals Lra.
From Verif Require Import PyCommon CommonProofs SegTreeSpec TracerModel TracerSpec.
Import ListNotations.
Set Implicit Arguments.

Lemma skipn_cons : forall A (l : list A) p v, nth_error l p = Some v -> skipn p l = v :: skipn (S p) l.
Proof.
  induction l as [|x l IH]; intros [|p] v H; try discriminate; cbn in *.
  - now injection H as ->.
  - now apply IH.
Qed.

Lemma nth_error_ext' : forall A (l m : list A), (forall k, nth_error l k = nth_error m k) -> l = m.
Proof.
  induction l as [|x l IH]; intros [|y m] H; auto; try (specialize (H 0); discriminate).
  pose proof (H 0) as H0. injection H0 as ->. f_equal. apply IH. intros k. exact (H (S k)).
Qed.

Lemma nth_skipn : forall A (l : list A) t k d, nth k (skipn t l) d = nth (t + k) l d.
Proof.
  induction l as [|x l IH]; intros [|t] k d; cbn; auto. destruct k; auto.
Qed.

Lemma nth_error_skipn : forall A (l : list A) t k, nth_error (skipn t l) k = nth_error l (t + k).
Proof.
  induction l as [|x l IH]; intros [|t] k; cbn; auto. now destruct k.
Qed.

Lemma skipn_skipn' : forall A (l : list A) a b, skipn a (skipn b l) = skipn (b + a) l.
Proof. intros A l a b. revert l. induction b as [|b IH]; intros [|x l]; cbn; auto. now rewrite skipn_nil. Qed.

Lemma skipn_map : forall A B (f : A -> B) l k, skipn k (map f l) = map f (skipn k l).
Proof. induction l as [|x l IH]; intros [|k]; cbn; auto. Qed.

Lemma skipn_seq : forall n a k, skipn k (seq a n) = seq (a + k) (n - k).
Proof.
  induction n as [|n IH]; intros a [|k]; cbn [skipn seq Nat.sub]; rewrite ?Nat.add_0_r; auto.
  rewrite IH. now rewrite <- plus_n_Sm.
Qed.

(** Discounted sums. *)
Lemma disc_sum_skipn : forall gamma rs t m, disc_sum gamma rs t m = disc_sum gamma (skipn t rs) 0 m.
Proof.
  induction m as [|m IH]; cbn [disc_sum]; auto. rewrite IH. do 2 f_equal. cbn [Nat.add]. now rewrite nth_skipn.
Qed.

Lemma disc_sum_prefix : forall gamma rs more t m, t + m <= length rs ->
  disc_sum gamma (rs ++ more) t m = disc_sum gamma rs t m.
Proof.
  induction m as [|m IH]; intros H; cbn [disc_sum]; auto. rewrite IH by lia. do 2 f_equal. apply app_nth1. lia.
Qed.

Lemma disc_sum_rsum : forall gamma rs m t, disc_sum gamma rs t m = rsum (map (fun k => gamma ^ k * nth (t + k) rs 0)%R (seq 0 m)).
Proof.
  assert (Happ : forall l x, rsum (l ++ [x]) = (rsum l + x)%R).
  { induction l as [|y l IH]; intros x; cbn [rsum app]; [ring|]. rewrite IH. ring. }
  induction m as [|m IH]; intros t; cbn [disc_sum]; auto. rewrite seq_S, map_app. cbn [map]. rewrite Happ, IH. reflexivity.
Qed.

Lemma rsum_map_zero : forall A (f : A -> R) l, (forall x, In x l -> f x = 0%R) -> rsum (map f l) = 0%R.
Proof. induction l as [|x l IH]; intros H; cbn [rsum map]; auto. rewrite IH by (intros; apply H; now right). rewrite H by now left. ring. Qed.

Lemma partial_return_sum : forall n gamma rs, partial_return n gamma rs = disc_sum gamma rs 0 n.
Proof.
  intros n gamma rs. unfold partial_return. rewrite firstn_all2.
  2:{ rewrite combine_length, map_length, seq_length. lia. }
  rewrite disc_sum_rsum.
  assert (H : forall n a rs acc, fold_left (fun acc xr => acc + fst xr * snd xr)%R (combine (map (fun k => gamma ^ k)%R (seq a n)) rs) acc
            = (acc + rsum (map (fun k => gamma ^ k * nth (k - a) rs 0)%R (seq a n)))%R).
  { clear. induction n as [|n IH]; intros a rs acc; [cbn; ring|]. destruct rs as [|r rs].
    - rewrite rsum_map_zero; [cbn; ring|]. intros k _. destruct (k - a); cbn; ring.
    - cbn [seq map combine fold_left rsum fst snd]. rewrite IH. rewrite Nat.sub_diag. cbn [nth].
      rewrite (map_ext_in (fun k => gamma ^ k * nth (k - a) (r :: rs) 0)%R (fun k => gamma ^ k * nth (k - S a) rs 0)%R).
      + ring.
      + intros k Hk. apply in_seq in Hk. replace (k - a) with (S (k - S a)) by lia. reflexivity. }
  rewrite H. rewrite Rplus_0_l. f_equal. apply map_ext. intros k. now rewrite Nat.sub_0_r.
Qed.

Section N.
Variables S A : Type.
Notation step := (step S A).
Notation episode := (episode S A).
Notation single := (single S A).

(** extra_info. *)
Lemma extra_loop_nth : forall (l : list (step * R)) done0 sdone E,
  (forall i, E (Datatypes.S i) = match nth_error (map fst l) i, nth_error (map snd l) i with
         | Some x, Some r => mkEntry x r (done0 || (Nat.eqb (i + 1) (length (map fst l)) && sdone))
         | _, _ => mkEntry (e_step (E i)) (e_r (E i)) true end) ->
  forall left i, length (extra_loop left i (E i) done0 (map fst l) (map snd l) sdone) = left /\
  forall k, k < left -> nth_error (extra_loop left i (E i) done0 (map fst l) (map snd l) sdone) k = Some (E (i + k)).
Proof.
  intros l done0 sdone E HE. induction left as [|left IH]; intros i; cbn [extra_loop].
  - split; auto. intros k Hk. lia.
  - rewrite <- HE. replace (i + 1) with (Datatypes.S i) by lia. destruct (IH (Datatypes.S i)) as [I1 I2]. split; [cbn; now rewrite I1|].
    intros [|k] Hk; cbn [nth_error]; [now rewrite Nat.add_0_r|]. rewrite I2 by lia. do 2 f_equal. lia.
Qed.

Lemma extra_closed : forall (l : list (step * R)) x r sdone n,
  let es := extra_loop (n + 1) 0 (mkEntry x r (Nat.eqb (length (map fst l)) 0)) (Nat.eqb (length (map fst l)) 0) (map fst l) (map snd l) sdone in
  length es = n + 1 /\
  forall k, k <= n -> exists y q d, nth_error ((x, r) :: l) (Nat.min k (length l)) = Some (y, q) /\
    nth_error es k = Some (mkEntry y q d) /\
    d = (if Nat.eqb k 0 then Nat.eqb (length l) 0 else if Nat.leb k (length l) then Nat.eqb k (length l) && sdone else true).
Proof.
  intros l x r sdone n. rewrite !map_length. set (d0 := Nat.eqb (length l) 0).
  set (E := fix E i := match i with
     | O => mkEntry x r d0
     | Datatypes.S i => match nth_error (map fst l) i, nth_error (map snd l) i with
         | Some x, Some r => mkEntry x r (d0 || (Nat.eqb (i + 1) (length (map fst l)) && sdone))
         | _, _ => mkEntry (e_step (E i)) (e_r (E i)) true end end).
  destruct (@extra_loop_nth l d0 sdone E (fun i => eq_refl) (n + 1) 0) as [L1 L2].
  change (E 0) with (mkEntry x r d0) in L1, L2. cbv zeta. split; auto. intros k Hk.
  assert (HE : forall k, exists y q d, nth_error ((x, r) :: l) (Nat.min k (length l)) = Some (y, q) /\ E k = mkEntry y q d /\
    d = (if Nat.eqb k 0 then d0 else if Nat.leb k (length l) then Nat.eqb k (length l) && sdone else true)).
  { clear. induction k as [|k IH].
    - exists x, r, d0. auto.
    - destruct (Nat.lt_ge_cases k (length l)) as [H|H].
      + destruct (nth_error l k) as [[y q]|] eqn:El. 2:{ apply nth_error_None in El. lia. }
        exists y, q, (Nat.eqb (Datatypes.S k) (length l) && sdone). rewrite Nat.min_l by lia. split; [exact El|]. split.
        * cbn [E]. rewrite (map_nth_error _ _ _ El), (map_nth_error _ _ _ El). cbn [fst snd]. rewrite map_length.
          replace (k + 1) with (Datatypes.S k) by lia. f_equal. unfold d0. destruct (Nat.eqb_spec (length l) 0); [lia|reflexivity].
        * cbn [Nat.eqb]. destruct (Nat.leb_spec (Datatypes.S k) (length l)); [reflexivity|lia].
      + destruct IH as [y [q [d [I1 [I2 I3]]]]]. exists y, q, true. rewrite Nat.min_r in I1 by lia. rewrite Nat.min_r by lia.
        split; [exact I1|]. split.
        * assert (N1 : nth_error (map fst l) k = None) by (apply nth_error_None; rewrite map_length; lia).
          change (E (Datatypes.S k)) with (match nth_error (map fst l) k, nth_error (map snd l) k with
            | Some x, Some r => mkEntry x r (d0 || (Nat.eqb (k + 1) (length (map fst l)) && sdone))
            | _, _ => mkEntry (e_step (E k)) (e_r (E k)) true end). rewrite N1, I2. reflexivity.
        * cbn [Nat.eqb]. destruct (Nat.leb_spec (Datatypes.S k) (length l)); [lia|reflexivity]. }
  destruct (HE k) as [y [q [d [H1 [H2 H3]]]]]. exists y, q, d. split; [auto|]. split; auto. rewrite L2 by lia. cbn [Nat.add]. now rewrite H2.
Qed.

Variables (n : nat) (gamma : R) (extra : bool).
Hypothesis Hn : 1 <= n.
Hypothesis Hg : (0 <= gamma <= 1)%R.

Lemma pow_unit : forall m, (0 <= gamma ^ m <= 1)%R.
Proof.
  clear Hn. induction m as [|m IH]; cbn [pow]; [lra|]. nra.
Qed.

Lemma from_single_ok : forall s a logp r done g s' a' logp' w info, (logp <= 0)%R -> (0 <= g <= 1)%R -> (logp' <= 0)%R -> (0 < w)%R ->
  @from_single S A s a logp r done g s' a' logp' w true info = Ok (mkSingle s a logp r (g * (1 - if done then 1 else 0)) s' a' logp' w info).
Proof.
  clear. intros. unfold from_single. destruct (Rle_dec logp 0); [|lra]. destruct (Rle_dec 0 g); [|lra]. destruct (Rle_dec g 1); [|lra].
  destruct (Rle_dec logp' 0); [|lra]. destruct (Rlt_dec 0 w); [reflexivity|lra].
Qed.

(** The tracer state that holds the steps of [cur] from position [p] on. *)
Definition nview (cur : episode) (fin : bool) (p : nat) : nstate S A :=
  mkN (map fst (skipn p cur)) (map snd (skipn p cur)) fin.

Lemma nview_len : forall cur fin p, nstep_len (nview cur fin p) = length cur - p.
Proof. intros. unfold nstep_len, nview. cbn. now rewrite map_length, skipn_length. Qed.

Lemma nview_bool : forall cur fin p, p <= length cur -> nstep_bool n (nview cur fin p) = (Nat.ltb p (length cur) && (fin || Nat.ltb (p + n) (length cur))).
Proof.
  intros cur fin p Hp. unfold nstep_bool. rewrite nview_len. cbn [nview n_done].
  destruct (Nat.eqb_spec (length cur - p) 0), (Nat.ltb_spec p (length cur)); try lia; auto. cbn [negb andb]. f_equal.
  destruct (Nat.ltb_spec n (length cur - p)), (Nat.ltb_spec (p + n) (length cur)); auto; lia.
Qed.

Lemma nview_pop : forall cur fin p more fin', valid_episode cur -> p <= length cur ->
  nstep_bool n (nview cur fin p) = true ->
  (fin = true -> more = [] /\ fin' = true) -> (fin = false -> fin' = true -> more <> []) ->
  exists y, nstep_pop n gamma extra (nview cur fin p) = (nview cur fin (Datatypes.S p), Ok y) /\
    nstep_spec n gamma extra (cur ++ more) fin' p y.
Proof.
  intros cur fin p more fin' Hval Hp Hb Hfin Hunf. unfold nstep_pop. rewrite Hb. cbn [negb].
  rewrite (nview_bool _ _ Hp) in Hb. apply andb_true_iff in Hb. destruct Hb as [Hlt Hb]. apply Nat.ltb_lt in Hlt.
  destruct (nth_error cur p) as [[x r]|] eqn:Ep. 2:{ apply nth_error_None in Ep. lia. }
  pose proof (skipn_cons _ _ Ep) as Esk. set (l := skipn (Datatypes.S p) cur) in *.
  assert (E1 : n_s (nview cur fin p) = x :: map fst l) by (unfold nview; cbn [n_s]; now rewrite Esk).
  assert (E2 : n_r (nview cur fin p) = r :: map snd l) by (unfold nview; cbn [n_r]; now rewrite Esk).
  change (n_done (nview cur fin p)) with fin. rewrite E1, E2.
  assert (Ll : length l = length cur - Datatypes.S p) by apply skipn_length.
  rewrite !map_length.
  pose proof (Hval x r (nth_error_In _ _ Ep)) as [V1 [V2 V3]].
  assert (Hcond : fin = true /\ more = [] /\ fin' = true \/ fin = false /\ p + n < length cur /\ (fin' = true -> more <> [])).
  { destruct fin; [left; split; auto|right]. split; auto. cbn in Hb. apply Nat.ltb_lt in Hb. auto. }
  assert (HRn : partial_return n gamma (map snd (skipn p cur)) = disc_sum gamma (rewards (cur ++ more)) p n).
  { rewrite partial_return_sum. unfold rewards. rewrite map_app.
    destruct Hcond as [[_ [-> _]]|[_ [H _]]].
    - rewrite app_nil_r. rewrite (disc_sum_skipn _ _ p). now rewrite skipn_map.
    - rewrite disc_sum_prefix by (rewrite map_length; lia). rewrite (disc_sum_skipn _ _ p). now rewrite skipn_map. }
  assert (Hinfo : forall y, x_extra y = (if extra then
                      Some (extra_loop (n + 1) 0 (mkEntry x r (Nat.eqb (length l) 0)) (Nat.eqb (length l) 0) (map fst l) (map snd l) fin)
                    else None) ->
      (if extra then exists es, x_extra y = Some es /\ length es = n + 1 /\ forall k, k <= n -> nth_error es k = extra_entry (cur ++ more) fin' p k
     else x_extra y = None)).
  { intros y Hy. destruct extra; [|exact Hy]. eexists. split; [exact Hy|].
    pose proof (@extra_closed l x r fin n) as HC. cbv zeta in HC. rewrite !map_length in HC. destruct HC as [C1 C2]. split; [exact C1|].
    intros k Hk. destruct (C2 k Hk) as [y' [q [d [D1 [D2 D3]]]]]. rewrite D2. unfold extra_entry.
    rewrite app_length.
    assert (Em : nth_error (cur ++ more) (Nat.min (p + k) (length cur + length more - 1)) = Some (y', q)).
    { replace ((x, r) :: l) with (skipn p cur) in D1. rewrite nth_error_skipn in D1.
      destruct Hcond as [[_ [-> _]]|[_ [H _]]].
      - rewrite app_nil_r. cbn [length]. rewrite <- D1. f_equal. lia.
      - rewrite nth_error_app1 by lia. rewrite <- D1. f_equal. lia. }
    rewrite Em. do 2 f_equal. rewrite D3.
    destruct Hcond as [[-> [-> ->]]|[-> [H Hm]]].
    - cbn [length andb]. destruct (Nat.eqb_spec k 0) as [->|Hk0].
      + destruct (Nat.eqb_spec (length l) 0), (Nat.leb_spec (length cur + 0 - 1) (p + 0)); auto; lia.
      + destruct (Nat.leb_spec k (length l)).
        * destruct (Nat.eqb_spec k (length l)), (Nat.leb_spec (length cur + 0 - 1) (p + k)); auto; lia.
        * destruct (Nat.leb_spec (length cur + 0 - 1) (p + k)); auto; lia.
    - assert (F : fin' && (length cur + length more - 1 <=? p + k) = false).
      { destruct fin'; auto. specialize (Hm eq_refl). cbn [andb]. apply Nat.leb_gt. destruct more; [congruence|cbn; lia]. }
      rewrite F. destruct (Nat.eqb_spec k 0) as [->|Hk0].
      + destruct (Nat.eqb_spec (length l) 0); auto; lia.
      + destruct (Nat.leb_spec k (length l)); [|lia]. apply andb_false_r. }
  assert (Hnth : nth_error (cur ++ more) p = Some (x, r)) by (rewrite nth_error_app1; auto).
  destruct (Nat.leb_spec n (length l)) as [Hle|Hle].
  - assert (Em : match n with O => nth_error (map fst l) (length l - 1) | Datatypes.S m => nth_error (map fst l) m end
                 = nth_error (map fst l) (n - 1)).
    { clear - Hn. destruct n; [lia|]. cbn. now rewrite Nat.sub_0_r. }
    rewrite Em. clear Em. destruct (nth_error l (n - 1)) as [[x' r']|] eqn:El. 2:{ apply nth_error_None in El. lia. }
    rewrite (map_nth_error _ _ _ El). cbn [fst].
    assert (El2 : nth_error cur (p + n) = Some (x', r')). { unfold l in El. rewrite nth_error_skipn in El. rewrite <- El. f_equal. lia. }
    pose proof (Hval x' r' (nth_error_In _ _ El2)) as [V1' _].
    rewrite V3, from_single_ok; auto using pow_unit. eexists. split; [reflexivity|].
    exists x, r. cbn [x_s x_a x_logp x_w x_rn x_in x_s_next x_a_next x_logp_next]. split; [auto|].
    do 4 (split; [reflexivity|]). split; [rewrite <- HRn, Esk; reflexivity|]. split; [|split].
    + intros _. split; [ring|]. exists x', r'. split; [|auto]. rewrite nth_error_app1; auto. lia.
    + intros H. rewrite app_length in H. lia.
    + apply Hinfo. reflexivity.
  - destruct Hcond as [[-> [-> ->]]|[-> [H Hm]]]; [|lia].
    rewrite V3, from_single_ok; auto using pow_unit. eexists. split; [reflexivity|].
    exists x, r. cbn [x_s x_a x_logp x_w x_rn x_in x_s_next x_a_next x_logp_next]. split; [auto|].
    do 4 (split; [reflexivity|]). split; [rewrite <- HRn, Esk; reflexivity|]. split; [|split].
    + intros H. rewrite app_length in H. cbn in H. lia.
    + intros _. split; [ring|auto].
    + apply Hinfo. reflexivity.
Qed.

(** Due lists, with the current episode made explicit. *)
Definition due' (cur : episode) (ins : list (step * R * bool)) : list (episode * bool * nat) :=
  let (eps, rest) := cut cur ins in
  flat_map (fun ep => map (fun t => (ep, true, t)) (seq 0 (length ep))) eps ++
  map (fun t => (rest, false, t)) (seq 0 (length rest - n)).

Definition due_from (cur : episode) (fin : bool) (p : nat) (ins : list (step * R * bool)) : list (episode * bool * nat) :=
  if fin then map (fun t => (cur, true, t)) (seq p (length cur - p)) ++ due' [] ins
  else skipn p (due' cur ins).

Lemma due'_done : forall cur x r ins, due' cur ((x, r, true) :: ins) =
  map (fun t => (cur ++ [(x, r)], true, t)) (seq 0 (length (cur ++ [(x, r)]))) ++ due' [] ins.
Proof.
  intros. unfold due'. cbn [cut]. destruct (cut [] ins) as [eps rest]. cbn [flat_map]. now rewrite app_assoc.
Qed.

Lemma due'_more : forall cur x r ins, due' cur ((x, r, false) :: ins) = due' (cur ++ [(x, r)]) ins.
Proof. reflexivity. Qed.

(** An element that is due now is due for the eventual episode. *)
Lemma due'_nth : forall ins cur p, p + n < length cur ->
  exists more fin', nth_error (due' cur ins) p = Some (cur ++ more, fin', p) /\ (fin' = true -> more <> []).
Proof.
  induction ins as [|[[x r] d] ins IH]; intros cur p Hp.
  - exists [], false. rewrite app_nil_r. split; [|discriminate]. unfold due'. cbn [cut flat_map app].
    rewrite nth_error_map. rewrite (nth_error_nth' _ 0) by (rewrite seq_length; lia). rewrite seq_nth by lia. reflexivity.
  - destruct d.
    + exists [(x, r)], true. split; [|discriminate]. rewrite due'_done.
      rewrite nth_error_app1 by (rewrite map_length, seq_length, app_length; lia).
      rewrite nth_error_map. rewrite (nth_error_nth' _ 0) by (rewrite seq_length, app_length; lia).
      rewrite seq_nth by (rewrite app_length; lia). reflexivity.
    + rewrite due'_more. destruct (IH (cur ++ [(x, r)]) p) as [more [fin' [H1 H2]]]; [rewrite app_length; lia|].
      exists ((x, r) :: more), fin'. rewrite <- app_assoc in H1. split; auto. discriminate.
Qed.

Lemma due_step : forall cur fin p ins, p < length cur -> (fin = true \/ p + n < length cur) ->
  exists more fin', due_from cur fin p ins = (cur ++ more, fin', p) :: due_from cur fin (Datatypes.S p) ins /\
    (fin = true -> more = [] /\ fin' = true) /\ (fin = false -> fin' = true -> more <> []).
Proof.
  intros cur fin p ins Hp Hc. destruct fin; cbn [due_from].
  - exists [], true. rewrite app_nil_r. replace (length cur - p) with (Datatypes.S (length cur - Datatypes.S p)) by lia.
    cbn [seq map app]. repeat split; auto. discriminate.
  - destruct Hc as [Hc|Hc]; [discriminate|]. destruct (@due'_nth ins cur p Hc) as [more [fin' [H1 H2]]]. exists more, fin'.
    split; [now apply skipn_cons|]. split; [discriminate|auto].
Qed.

Lemma due_drained : forall cur fin p, p <= length cur -> nstep_bool n (nview cur fin p) = false -> due_from cur fin p [] = [].
Proof.
  intros cur fin p Hp Hb. rewrite nview_bool in Hb by auto. destruct fin; unfold due_from, due'; cbn [cut flat_map app length Nat.sub seq map].
  - cbn [orb] in Hb. rewrite andb_true_r in Hb. apply Nat.ltb_ge in Hb. replace (length cur - p) with 0 by lia. reflexivity.
  - apply skipn_all2. rewrite map_length, seq_length.
    destruct (Nat.ltb_spec p (length cur)); [|lia]. cbn in Hb. apply Nat.ltb_ge in Hb. lia.
Qed.

Notation nrun := (trun (@nstep_add S A) (nstep_pop n gamma extra)).

Definition due_ok (d : episode * bool * nat) (y : single) : Prop := nstep_spec n gamma extra (fst (fst d)) (snd (fst d)) (snd d) y.

Lemma nrun_due : forall os cur fin p, valid_episode cur -> p <= length cur -> prog_valid os ->
  let '(t, (ins, (outs, errs))) := nrun (nview cur fin p) os in
  exists pre post, due_from cur fin p ins = pre ++ post /\ Forall2 due_ok pre outs /\
    (nstep_bool n t = false -> post = []).
Proof.
  induction os as [|o os IH]; intros cur fin p Hval Hp Hos.
  - cbn [trun]. exists [], (due_from cur fin p []). split; [auto|]. split; [constructor|]. intros Hb. now apply due_drained.
  - assert (Hos' : prog_valid os) by (intros x r d H; apply (Hos x r d); now right).
    destruct o as [x r d|]; cbn [trun].
    + unfold nstep_add at 1. rewrite nview_len. cbn [nview n_done].
      destruct (fin && negb (Nat.eqb (length cur - p) 0)) eqn:Erej.
      * specialize (IH cur fin p Hval Hp Hos'). fold (nview cur fin p).
        destruct (nrun (nview cur fin p) os) as [t2 [ins [outs errs]]]. exact IH.
      * assert (Hx : valid_step x) by (apply (Hos x r d); now left).
        destruct fin.
        -- cbn [andb] in Erej. apply negb_false_iff in Erej. apply Nat.eqb_eq in Erej. assert (p = length cur) by lia. subst p.
           cbn [nview n_s n_r]. rewrite skipn_all2 by lia. cbn [map app].
           assert (Hv1 : valid_episode [(x, r)]) by (intros x0 r0 [E|[]]; injection E as <- <-; auto).
           specialize (IH [(x, r)] d 0 Hv1 ltac:(cbn; lia) Hos').
           change (nview [(x, r)] d 0) with (mkN [x] [r] d) in IH.
           destruct (nrun (mkN [x] [r] d) os) as [t2 [ins [outs errs]]].
           destruct IH as [pre [post [I1 [I2 I3]]]]. exists pre, post. split; [|auto].
           rewrite <- I1. unfold due_from. rewrite Nat.sub_diag. cbn [seq map app]. destruct d.
           ++ rewrite due'_done. reflexivity.
           ++ rewrite due'_more. reflexivity.
        -- assert (Hv1 : valid_episode (cur ++ [(x, r)])).
           { intros x0 r0 H0. apply in_app_or in H0. destruct H0 as [H0|[E|[]]]; [eauto|injection E as <- <-; auto]. }
           specialize (IH (cur ++ [(x, r)]) d p Hv1 ltac:(rewrite app_length; lia) Hos').
           assert (Ev : nview (cur ++ [(x, r)]) d p = mkN (map fst (skipn p cur) ++ [x]) (map snd (skipn p cur) ++ [r]) d).
           { unfold nview. rewrite skipn_app. replace (p - length cur) with 0 by lia. cbn [skipn]. now rewrite !map_app. }
           rewrite Ev in IH. cbn [nview n_s n_r].
           destruct (nrun (mkN (map fst (skipn p cur) ++ [x]) (map snd (skipn p cur) ++ [r]) d) os) as [t2 [ins [outs errs]]].
           destruct IH as [pre [post [I1 [I2 I3]]]]. exists pre, post. split; [|auto]. rewrite <- I1. unfold due_from. destruct d.
           ++ rewrite due'_done. rewrite skipn_app, map_length, seq_length. rewrite skipn_map, skipn_seq.
              replace (p - length (cur ++ [(x, r)])) with 0 by (rewrite app_length; lia). reflexivity.
           ++ now rewrite due'_more.
    + destruct (nstep_bool n (nview cur fin p)) eqn:Eb.
      * pose proof Eb as Eb2. rewrite nview_bool in Eb2 by auto. apply andb_true_iff in Eb2. destruct Eb2 as [B1 B2].
        apply Nat.ltb_lt in B1.
        assert (Hc : fin = true \/ p + n < length cur). { destruct fin; [now left|right]. cbn in B2. now apply Nat.ltb_lt. }
        assert (Hsucc : forall ins, exists more fin' y, due_from cur fin p ins = (cur ++ more, fin', p) :: due_from cur fin (Datatypes.S p) ins /\
           nstep_pop n gamma extra (nview cur fin p) = (nview cur fin (Datatypes.S p), Ok y) /\ due_ok (cur ++ more, fin', p) y).
        { intros ins. destruct (@due_step cur fin p ins B1 Hc) as [more [fin' [D1 [D2 D3]]]].
          destruct (@nview_pop cur fin p more fin' Hval Hp Eb D2 D3) as [y [P1 P2]]. exists more, fin', y. auto. }
        destruct (Hsucc []) as [more0 [fin0 [y [_ [P1 _]]]]]. rewrite P1.
        specialize (IH cur fin (Datatypes.S p) Hval ltac:(lia) Hos').
        destruct (nrun (nview cur fin (Datatypes.S p)) os) as [t2 [ins [outs errs]]].
        destruct IH as [pre [post [I1 [I2 I3]]]].
        destruct (Hsucc ins) as [more [fin' [y' [D1 [P1' P2]]]]]. rewrite P1 in P1'. injection P1' as <-.
        exists ((cur ++ more, fin', p) :: pre), post. split; [rewrite D1, I1; reflexivity|]. split; [now constructor|auto].
      * unfold nstep_pop at 1. rewrite Eb. cbn [negb]. specialize (IH cur fin p Hval Hp Hos').
        destruct (nrun (nview cur fin p) os) as [t2 [ins [outs errs]]]. exact IH.
Qed.

Lemma nrun_fresh : forall os, prog_valid os ->
  let '(t, (ins, (outs, errs))) := nrun (nstep_reset S A) os in
  exists pre post, nstep_due n ins = pre ++ post /\ Forall2 due_ok pre outs /\ (nstep_bool n t = false -> post = []).
Proof.
  intros os Hos. pose proof (@nrun_due os [] false 0) as H. change (nview [] false 0) with (nstep_reset S A) in H.
  apply H; auto. intros x r [].
Qed.

(** The specification determines the transition. *)
Lemma nstep_spec_unique : forall ep fin t (y z : single), nstep_spec n gamma extra ep fin t y -> nstep_spec n gamma extra ep fin t z -> y = z.
Proof.
  clear Hn Hg. intros ep fin t y z (x & r & Y1 & Y2 & Y3 & Y4 & Y5 & Y6 & Y7 & Y8 & Y9) (x' & r' & Z1 & Z2 & Z3 & Z4 & Z5 & Z6 & Z7 & Z8 & Z9).
  rewrite Y1 in Z1. injection Z1 as <- <-.
  assert (Eex : x_extra y = x_extra z).
  { destruct extra; [|congruence]. destruct Y9 as [es [E1 [E2 E3]]], Z9 as [fs [F1 [F2 F3]]]. rewrite E1, F1. f_equal.
    apply nth_error_ext'. intros k. destruct (Nat.le_gt_cases k n) as [H|H]; [now rewrite E3, F3|].
    rewrite !(proj2 (nth_error_None _ _)); auto; lia. }
  destruct (Nat.lt_ge_cases (t + n) (length ep)) as [H|H].
  - destruct (Y7 H) as [A1 (u & q & A2 & A3 & A4 & A5)], (Z7 H) as [B1 (u' & q' & B2 & B3 & B4 & B5)].
    rewrite A2 in B2. injection B2 as <- <-. destruct y, z; cbn in *; subst; congruence.
  - destruct (Y8 H) as [A1 [A2 [A3 A4]]], (Z8 H) as [B1 [B2 [B3 B4]]]. destruct y, z; cbn in *; subst; congruence.
Qed.

Lemma due_ok_unique : forall ds ys zs, Forall2 due_ok ds ys -> Forall2 due_ok ds zs -> ys = zs.
Proof.
  induction ds as [|d ds IH]; intros ys zs F G; inversion F; inversion G; subst; auto. f_equal; [|now apply IH].
  eapply nstep_spec_unique; eauto.
Qed.

(** Two schedules that were drained produce the same. *)
Lemma nrun_schedule : forall os1 os2, prog_valid os1 -> prog_valid os2 ->
  let '(t1, (ins1, (outs1, _))) := nrun (nstep_reset S A) os1 in
  let '(t2, (ins2, (outs2, _))) := nrun (nstep_reset S A) os2 in
  ins1 = ins2 -> nstep_bool n t1 = false -> nstep_bool n t2 = false -> outs1 = outs2.
Proof.
  intros os1 os2 V1 V2. pose proof (nrun_fresh V1) as H1. pose proof (nrun_fresh V2) as H2.
  destruct (nrun (nstep_reset S A) os1) as [t1 [ins1 [outs1 e1]]]. destruct (nrun (nstep_reset S A) os2) as [t2 [ins2 [outs2 e2]]].
  intros -> B1 B2. destruct H1 as [p1 [q1 [D1 [F1 G1]]]], H2 as [p2 [q2 [D2 [F2 G2]]]]. rewrite (G1 B1), app_nil_r in D1. rewrite (G2 B2), app_nil_r in D2.
  subst p1 p2. eapply due_ok_unique; eauto.
Qed.

(** Flush after a complete episode. *)
Lemma flush_episode : forall cur p, valid_episode cur -> p < length cur ->
  forall fuel, length cur - p <= fuel ->
  exists ys, flush_loop (nstep_bool n) (nstep_pop n gamma extra) fuel (nview cur true p) = (nview cur true (length cur), Ok ys) /\
    Forall2 due_ok (map (fun t => (cur, true, t)) (seq p (length cur - p))) ys.
Proof.
  intros cur p Hval. remember (length cur - p) as m eqn:Em. revert p Em. induction m as [|m IH]; intros p Em Hp fuel Hf; [lia|].
  destruct fuel as [|fuel]; [lia|]. cbn [flush_loop].
  assert (Eb : nstep_bool n (nview cur true p) = true). { rewrite nview_bool by lia. destruct (Nat.ltb_spec p (length cur)); auto; lia. }
  rewrite Eb. destruct (@nview_pop cur true p [] true Hval ltac:(lia) Eb) as [y [P1 P2]]; auto; [discriminate|].
  rewrite P1. rewrite app_nil_r in P2. destruct (Nat.eq_dec (Datatypes.S p) (length cur)) as [E|E].
  - assert (Eb2 : nstep_bool n (nview cur true (Datatypes.S p)) = false). { rewrite nview_bool by lia. destruct (Nat.ltb_spec (Datatypes.S p) (length cur)); auto; lia. }
    assert (m = 0) by lia. subst m. exists [y]. split; [|constructor; [exact P2|constructor]].
    destruct fuel; cbn [flush_loop]; rewrite ?Eb2; rewrite E; reflexivity.
  - destruct (IH (Datatypes.S p) ltac:(lia) ltac:(lia) fuel ltac:(lia)) as [ys [Y1 Y2]]. rewrite Y1. exists (y :: ys). split; [reflexivity|].
    cbn [seq map]. constructor; [exact P2|exact Y2].
Qed.

End N.
