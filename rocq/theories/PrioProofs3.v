(** Prioritized buffer: update, sampling and alpha in terms of priorities. *)
From Coq Require Import List ZArith Lia Bool Reals Lra Permutation.
From Verif Require Import NatDivLia PyCommon CommonProofs SegTreeModel SegTreeSpec SegTreeProofs SegTreeProofs2
  SegTreeProofs3 ReplayModel ReplaySpec ReplayProofs PrioModel PrioSpec PrioProofs PrioProofs2.
Import ListNotations.
Set Implicit Arguments.

Lemma to_int32_id : forall z, (-2147483648 <= z < 2147483648)%Z -> to_int32 z = z.
Proof. intros z H. unfold to_int32. rewrite Z.mod_small by lia. lia. Qed.

Lemma rsum_pos : forall l, (forall x, In x l -> (0 <= x)%R) -> (exists x, In x l /\ (0 < x)%R) -> (0 < rsum l)%R.
Proof.
  induction l as [|y l IH]; intros Hnn [x [Hin Hx]]; [destruct Hin|]. cbn [rsum].
  assert (Hr : forall l, (forall x, In x l -> (0 <= x)%R) -> (0 <= rsum l)%R).
  { clear. induction l as [|y l IH]; intros H; cbn [rsum]; [lra|]. assert (0 <= y)%R by (apply H; now left).
    assert (0 <= rsum l)%R by (apply IH; intros; apply H; now right). lra. }
  destruct Hin as [<-|Hin].
  - assert (0 <= rsum l)%R by (apply Hr; intros; apply Hnn; now right). lra.
  - assert (0 < rsum l)%R by (apply IH; [intros; apply Hnn; now right|exists x; auto]).
    assert (0 <= y)%R by (apply Hnn; now left). lra.
Qed.

Lemma fold_Rmax : forall l x, let m := fold_left Rmax l x in (m = x \/ In m l) /\ (x <= m)%R /\ (forall y, In y l -> (y <= m)%R).
Proof.
  induction l as [|y l IH]; intros x; cbn [fold_left].
  - split; [now left|]. split; [lra|intros y []].
  - destruct (IH (Rmax x y)) as [H1 [H2 H3]]. split; [|split].
    + destruct H1 as [H1|H1]; [|right; now right]. rewrite H1. unfold Rmax. destruct (Rle_dec x y); [right; now left|now left].
    + apply Rle_trans with (Rmax x y); [apply Rmax_l|auto].
    + intros z [<-|Hz]; auto. apply Rle_trans with (Rmax x y); [apply Rmax_r|auto].
Qed.

Lemma rmax_is_max : forall l, l <> [] -> is_max (rmax_list l) l.
Proof.
  intros [|x l] H; [congruence|]. cbn [rmax_list]. destruct (fold_Rmax l x) as [H1 [H2 H3]]. split.
  - destruct H1 as [->|H1]; [now left|now right].
  - intros y [<-|Hy]; auto.
Qed.

Lemma inverse_cdf_list : forall t us, sum_ok t -> (0 < rsum (values t))%R -> (forall u, In u us -> (0 <= u < 1)%R) ->
  inverse_cdf t us = Ok (map (inverse_cdf1 t) us).
Proof.
  intros t us Ht Hpos Hu. unfold inverse_cdf. rewrite (root_reduce Rplus_associative Rplus_unit Ht), rsum_reduce.
  destruct (Rle_dec (rsum (values t)) 0) as [H|_]; [lra|].
  assert (E : forallb (fun u => if Rgt_dec u 1 then false else if Rlt_dec u 0 then false else true) us = true).
  { apply forallb_forall. intros u Hin. specialize (Hu u Hin).
    destruct (Rgt_dec u 1); [lra|]. destruct (Rlt_dec u 0); [lra|reflexivity]. }
  now rewrite E.
Qed.

Section Facts.
Variable Y : Type.
Notation prow := (Y * R)%type.
Variable cap : nat.
Hypothesis Hcap : 1 <= cap.
Notation pinv := (@pinv Y cap).

Lemma priority_stored : forall w g k it, pinv w g -> in_window cap (length (items g)) k -> nth_error (items g) k = Some it ->
  priority w k = Rpower (snd it) (galpha g).
Proof.
  intros w g k it I Hw Hit. destruct (i_win I Hw Hit) as [r [_ [_ S3]]]. unfold priority, prio_values. rewrite (i_cap I).
  now apply nth_error_nth.
Qed.

Lemma window_item : forall g k, in_window cap (length (@items Y g)) k -> exists it, nth_error (items g) k = Some it.
Proof.
  intros g k [H _]. destruct (nth_error (items g) k) as [it|] eqn:E; [now exists it|]. apply nth_error_None in E. lia.
Qed.

Lemma update_exact : forall w g idx advs, pinv w g ->
  update_accepted cap (length (items g)) (map to_int32 idx) advs = true ->
  let w' := fst (prio_update w idx advs) in
  snd (prio_update w idx advs) = None /\ prio_iter w' = prio_iter w /\
  (forall p, length (items g) <= p < cap -> nth p (prio_values w') 0%R = 0%R) /\
  forall k, in_window cap (length (items g)) k ->
    priority w' k = match last_hit cap (map to_int32 idx) advs k with
                    | Some (i, adv) => if Z.eqb i (Z.of_nat k) then Rpower (Rabs adv + peps (pb w)) (palpha (pb w)) else priority w k
                    | None => priority w k
                    end.
Proof.
  intros w g idx advs I Hacc w'. destruct (update_pinv Hcap idx advs I) as [J [J2 _]]. fold w' in J.
  split; [now apply J2|]. cbn [ghost_step] in J. cbv zeta in J. rewrite Hacc in J.
  split.
  { unfold w', prio_update. destruct (negb _); [reflexivity|]. destruct (Nat.eqb _ 0); [reflexivity|].
    destruct (bind _ _) as [[refs olds]|e]; [|reflexivity]. destruct (set_values_eff _ _ _ _ _). reflexivity. }
  split.
  { intros p Hp. destruct (i_free J (p := p)) as [_ F]; [cbn [items]; now rewrite map_items_length|].
    unfold prio_values. now apply nth_error_nth. }
  intros k Hw. destruct (window_item _ Hw) as [it Hit].
  rewrite (@priority_stored _ _ k (fst it, updated_base cap (geps g) (map to_int32 idx) advs k (snd it)) J).
  2:{ cbn [items]. now rewrite map_items_length. }
  2:{ cbn [items]. rewrite nth_map_items, Hit. reflexivity. }
  cbn [galpha snd]. unfold updated_base. rewrite (priority_stored I Hw Hit), (i_eps I), (i_alpha I).
  destruct (last_hit _ _ advs k) as [[i adv]|]; auto. destruct (Z.eqb _ _); auto.
Qed.

Lemma update_named : forall w g idx advs, pinv w g ->
  update_accepted cap (length (items g)) idx advs = true ->
  (forall i, In i idx -> (-2147483648 <= i < 2147483648)%Z) ->
  (forall i j, In i idx -> In j idx -> (i mod Z.of_nat cap = j mod Z.of_nat cap)%Z -> i = j) ->
  let w' := fst (prio_update w idx advs) in
  snd (prio_update w idx advs) = None /\ prio_iter w' = prio_iter w /\
  (forall p, length (items g) <= p < cap -> nth p (prio_values w') 0%R = 0%R) /\
  forall k, in_window cap (length (items g)) k ->
    priority w' k = match find (fun ia : Z * R => Z.eqb (fst ia) (Z.of_nat k)) (rev (combine idx advs)) with
                    | Some (_, adv) => Rpower (Rabs adv + peps (pb w)) (palpha (pb w))
                    | None => priority w k
                    end.
Proof.
  intros w g idx advs I Hacc Hr Hcol w'.
  assert (Eid : map to_int32 idx = idx).
  { rewrite <- (map_id idx) at 2. apply map_ext_in. intros z Hz. apply to_int32_id. auto. }
  destruct (update_exact idx advs I) as [U1 [U2 [U3 U4]]]; [now rewrite Eid|].
  split; [auto|]. split; [auto|]. split; [auto|]. intros k Hw. unfold w'. rewrite (U4 k Hw). rewrite Eid.
  unfold last_hit.
  destruct (find (fun ia => (fst ia =? Z.of_nat k)%Z) (rev (combine idx advs))) as [[i adv]|] eqn:Ef.
  - pose proof (find_some _ _ Ef) as [Hin Hi]. cbn [fst] in Hi. apply Z.eqb_eq in Hi. subst i.
    apply in_rev in Hin. apply in_combine_l in Hin.
    rewrite (find_ext_in _ (fun ia => (fst ia =? Z.of_nat k)%Z)).
    + rewrite Ef. now rewrite Z.eqb_refl.
    + intros [j a] Hj. cbn [fst]. apply in_rev in Hj. apply in_combine_l in Hj.
      destruct (Z.eqb_spec j (Z.of_nat k)) as [->|Hne]; [apply Z.eqb_refl|].
      apply Z.eqb_neq. intros E. apply Hne. now apply Hcol.
  - match goal with |- context [find ?f ?l] => destruct (find f l) as [[i adv]|] eqn:Eg end; auto.
    apply find_some in Eg. destruct Eg as [Hin _].
    pose proof (find_none _ _ Ef _ Hin) as Hn. cbn [fst] in Hn. now rewrite Hn.
Qed.

Lemma values_nonneg : forall w g, pinv w g -> forall x, In x (prio_values w) -> (0 <= x)%R.
Proof.
  intros w g I x Hx. apply In_nth_error in Hx. destruct Hx as [p Hp]. unfold prio_values in Hp.
  assert (Hpc : p < cap). { rewrite <- (i_tcap I), <- (values_length (i_tree I)). apply nth_error_Some. congruence. }
  destruct (Nat.lt_ge_cases p (length (items g))) as [L|L].
  - destruct (pinv_slot Hcap I Hpc L) as [k [it [_ [K [_ [r [_ [_ S3]]]]]]]]. rewrite K, Hp in S3. injection S3 as ->.
    left. apply Rpower_pos.
  - destruct (i_free I (p := p)) as [_ F]; [lia|]. rewrite Hp in F. injection F as ->. lra.
Qed.

Lemma total_pos : forall w g, pinv w g -> 1 <= length (items g) -> (0 < rsum (prio_values w))%R.
Proof.
  intros w g I Hn. apply rsum_pos; [now apply (values_nonneg I)|].
  destruct (pinv_slot Hcap I (p := 0)) as [k [it [_ [_ [_ [r [_ [_ S3]]]]]]]]; [lia|lia|].
  exists (Rpower (snd it) (galpha g)). split; [eapply nth_error_In; eauto|apply Rpower_pos].
Qed.

Lemma empty_sample : forall w g us, pinv w g -> items g = [] -> us <> [] -> prio_sample w us = Err ERuntime.
Proof.
  intros w g us I Hn Hus. unfold prio_sample. destruct (Nat.eqb_spec (length us) 0) as [E|E]; [destruct us; [congruence|discriminate]|].
  assert (Hz : (rsum (values (ptree (pb w))) = 0)%R).
  { assert (Hall : forall x, In x (values (ptree (pb w))) -> x = 0%R).
    { intros x Hx. apply In_nth_error in Hx. destruct Hx as [p Hp].
      assert (Hpc : p < cap). { rewrite <- (i_tcap I), <- (values_length (i_tree I)). apply nth_error_Some. congruence. }
      destruct (i_free I (p := p)) as [_ F]; [rewrite Hn; cbn; lia|]. congruence. }
    clear - Hall. induction (values (ptree (pb w))) as [|x l IH]; [reflexivity|]. cbn [rsum].
    rewrite (Hall x) by now left. rewrite IH by (intros; apply Hall; now right). ring. }
  unfold inverse_cdf. rewrite (root_reduce Rplus_associative Rplus_unit (i_tree I)), rsum_reduce, Hz.
  destruct (Rle_dec 0 0); [reflexivity|lra].
Qed.

Lemma sample_ok : forall w g us, pinv w g -> 1 <= length (items g) -> us <> [] -> (forall u, In u us -> (0 <= u < 1)%R) ->
  let v := prio_values w in let total := rsum v in
  let raw := fun k => Rpower (priority w k / total * INR (prio_len w)) (- pbeta (pb w)) in
  exists ks m out, prio_sample w us = Ok out /\
    Forall2 (fun u k => in_window cap (length (items g)) k /\
              (prefix_sum v (k mod cap) <= u * total < prefix_sum v (S (k mod cap)))%R) us ks /\
    is_max m (map raw ks) /\
    Forall2 (fun k o => exists y W base, nth_error (items g) k = Some ((y, W), base) /\ o = (y, W * (raw k / m), [Z.of_nat k])%R) ks out.
Proof.
  intros w g us I Hn Hus Hu v total raw. set (n := length (items g)) in *.
  pose proof (total_pos I Hn) as Htot. fold v in Htot. fold total in Htot.
  set (t := ptree (pb w)). assert (Hv : values t = v) by reflexivity.
  set (ps := map (inverse_cdf1 t) us).
  set (kof := fun p => p + cap * ((n - 1 - p) / cap)).
  assert (Hspec : forall u, In u us -> let p := inverse_cdf1 t u in p < cap /\ p < n /\
            (prefix_sum v p <= u * total < prefix_sum v (S p))%R).
  { intros u Hin p. destruct (@inverse_cdf1_spec t u (i_tree I) Htot (Hu u Hin)) as [P1 [P2 P3]].
    fold p in P1, P2, P3. unfold t in P1. rewrite (i_tcap I) in P1. split; auto. split; auto.
    destruct (Nat.lt_ge_cases p n) as [L|L]; auto. exfalso.
    destruct (i_free I (p := p)) as [_ F]; [split; auto|].
    pose proof (nth_error_nth _ _ 0%R F) as F2. unfold t in P2. rewrite F2 in P2. lra. }
  assert (Hk : forall p, p < cap -> p < n -> in_window cap n (kof p) /\ kof p mod cap = p).
  { intros p H1 H2. unfold kof.
    pose proof (Nat.div_mod (n - 1 - p) cap ltac:(lia)) as D.
    assert (M : (n - 1 - p) mod cap < cap) by (apply Nat.mod_upper_bound; lia).
    split; [split; lia|]. rewrite Nat.mul_comm, Nat.mod_add by lia. now apply Nat.mod_small. }
  set (ks := map kof ps).
  assert (Hps : forall p, In p ps -> p < cap /\ p < n).
  { intros p Hp. unfold ps in Hp. apply in_map_iff in Hp. destruct Hp as [u [<- Hin]]. specialize (Hspec u Hin). cbv zeta in Hspec. tauto. }
  set (W := map (fun p => Rpower (p * INR (prio_len w)) (- pbeta (pb w))) (map (fun v0 => v0 / root_value 0%R t)%R (map (fun p => nth p v 0%R) ps))).
  assert (HW : W = map raw ks).
  { unfold W, ks. rewrite !map_map. apply map_ext_in. intros p Hp. destruct (Hps p Hp) as [H1 H2]. unfold raw, priority.
    rewrite (i_cap I). rewrite (proj2 (Hk p H1 H2)).
    unfold t. rewrite (root_reduce Rplus_associative Rplus_unit (i_tree I)), rsum_reduce. reflexivity. }
  exists ks, (rmax_list W).
  set (rf := fun p => match nth p (pstore (pb w)) None with Some r => r | None => 0 end).
  set (out := flat_map (fun tw : tbatch prow * R =>
                    map (fun yw : prow => (fst yw, snd yw * snd tw, ids (fst tw))%R) (rows (fst tw)))
                 (combine (map (deref (pheap w)) (map rf ps)) (map (fun x => x / rmax_list W)%R W))).
  exists out. split; [|split; [|split]].
  - unfold prio_sample. destruct (Nat.eqb_spec (length us) 0) as [E|E]; [destruct us; [congruence|discriminate]|].
    fold t. rewrite (@inverse_cdf_list t us (i_tree I)); [|exact Htot|auto]. cbn [bind]. fold ps. rewrite Hv.
    rewrite (@gather_ok _ v 0%R).
    2:{ intros p Hp. rewrite <- Hv. unfold t. rewrite (values_length (i_tree I)), (i_tcap I). now apply Hps. }
    cbn [bind]. rewrite (@gather_ok _ (pstore (pb w)) None).
    2:{ intros p Hp. rewrite (i_slen I). now apply Hps. }
    cbn [bind]. rewrite (@all_some_map _ _ _ rf).
    2:{ intros p Hp. destruct (Hps p Hp) as [H1 H2]. destruct (pinv_slot Hcap I H1 H2) as [k [it [_ [K [_ [r [S1 _]]]]]]]. rewrite K in S1.
        unfold rf. now rewrite (nth_error_nth _ _ None S1). }
    cbn [bind]. fold W. reflexivity.
  - unfold ks, ps. clear - Hspec Hk I. induction us as [|u us IH]; constructor.
    + specialize (Hspec u (or_introl eq_refl)). cbv zeta in Hspec. destruct Hspec as [P1 [P2 P3]].
      destruct (Hk _ P1 P2) as [K1 K2]. rewrite K2. auto.
    + apply IH. intros u' Hu'. apply Hspec. now right.
  - rewrite <- HW. apply rmax_is_max. rewrite HW. unfold ks, ps. destruct us; [congruence|discriminate].
  - unfold out. rewrite HW. fold ks. unfold ks. generalize (rmax_list (map raw (map kof ps))) as m. intros m.
    clearbody W. clear HW out. revert Hps. clear - I Hk Hcap. generalize ps as l. induction l as [|p l IH]; intros Hps; [constructor|].
    cbn [map combine flat_map]. destruct (Hps p (or_introl eq_refl)) as [H1 H2]. destruct (Hk p H1 H2) as [K1 K2].
    destruct (window_item _ K1) as [[[y W0] base] Hit]. destruct (i_win I K1 Hit) as [r [S1 [S2 _]]]. rewrite K2 in S1.
    assert (Erf : rf p = r). { unfold rf. now rewrite (nth_error_nth _ _ None S1). }
    assert (Ed : deref (pheap w) (rf p) = mkTB [(y, W0)] [Z.of_nat (kof p)]).
    { unfold deref. rewrite Erf. now rewrite (nth_error_nth _ _ _ S2). }
    rewrite Ed. cbn [fst snd rows ids map app].
    constructor.
    + exists y, W0, base. split; auto.
    + apply IH. intros q Hq. apply Hps. now right.
Qed.

Lemma alpha_exact : forall w g a, pinv w g -> (0 < a)%R -> ~ too_close a (palpha (pb w)) ->
  let w' := fst (prio_set_alpha w a) in
  snd (prio_set_alpha w a) = None /\ palpha (pb w') = a /\
  (forall p, length (items g) <= p < cap -> nth p (prio_values w') 0%R = 0%R) /\
  forall k, in_window cap (length (items g)) k ->
    ((floor_value <= priority w k)%R -> priority w' k = Rpower (priority w k) (a / palpha (pb w))) /\
    ((priority w k < floor_value)%R -> priority w' k = Rpower floor_value (a / palpha (pb w))).
Proof.
  intros w g a I Ha Hc w'. destruct (alpha_pinv Hcap a I) as [J J2]. fold w' in J. cbn [ghost_step] in J.
  unfold too_close in Hc. rewrite (i_alpha I) in *.
  destruct (Rle_dec a 0); [lra|]. destruct (Rle_dec (Rabs (a - galpha g)) _); [contradiction|].
  split; [now apply J2|]. split; [apply (i_alpha J)|]. split.
  { intros p Hp. destruct (i_free J (p := p)) as [_ F]; [cbn [items]; now rewrite map_items_length|].
    unfold prio_values. now apply nth_error_nth. }
  intros k Hw. destruct (window_item _ Hw) as [it Hit]. pose proof (i_alpha_pos I) as Hpos.
  rewrite (@priority_stored w' _ k (fst it, if Rlt_dec (Rpower (snd it) (galpha g)) floor_value then Rpower floor_value (1 / galpha g) else snd it) J).
  2:{ cbn [items]. now rewrite map_items_length. }
  2:{ cbn [items]. rewrite nth_map_items, Hit. reflexivity. }
  cbn [galpha snd]. rewrite (priority_stored I Hw Hit).
  split; intros H; destruct (Rlt_dec _ floor_value); try lra.
  - rewrite Rpower_mult. f_equal. field. lra.
  - rewrite Rpower_mult. f_equal. field. lra.
Qed.

(** Programs without alpha changes build the same bases, whatever alpha is. *)
Definition alike (w1 w2 : pworld Y) (g1 g2 : ghost Y) : Prop :=
  pheap w1 = pheap w2 /\ pstore (pb w1) = pstore (pb w2) /\ items g1 = items g2 /\ geps g1 = geps g2.

Lemma alike_step : forall w1 w2 g1 g2 o, pinv w1 g1 -> pinv w2 g2 -> alike w1 w2 g1 g2 -> (forall a, o <> PAlpha a) ->
  alike (fst (prio_step w1 o)) (fst (prio_step w2 o)) (ghost_step cap (pheap w1) g1 o) (ghost_step cap (pheap w2) g2 o).
Proof.
  intros w1 w2 g1 g2 o I1 I2 [A1 [A2 [A3 A4]]] Hna.
  assert (Ei : pindex (pb w1) = pindex (pb w2)). { rewrite (i_index I1), (i_index I2). now rewrite A3. }
  assert (Ec : pcap (pb w1) = pcap (pb w2)). { now rewrite (i_cap I1), (i_cap I2). }
  unfold alike. rewrite A1. destruct o as [b|r i|r advs|idx advs|a|b|e|]; cbn [prio_step ghost_step].
  - cbn [fst pheap pb]. rewrite A1. auto.
  - cbn [fst pheap pb]. rewrite A1. auto.
  - split; [|split; [|split]].
    + unfold prio_add. rewrite A1. destruct (nth_error (pheap w2) r) as [b|]; [|exact A1]. rewrite Ei.
      destruct (negb _); [reflexivity|]. destruct (to_singles _ r) as [h2 refs].
      destruct (set_values_eff _ _ (ptree (pb w1)) _ _) as [t1 e1]. destruct (set_values_eff _ _ (ptree (pb w2)) _ _) as [t2 e2].
      destruct e1, e2; reflexivity.
    + unfold prio_add. rewrite A1. destruct (nth_error (pheap w2) r) as [b|]; [|exact A2]. rewrite Ei.
      destruct (negb _); [exact A2|]. destruct (to_singles _ r) as [h2 refs]. rewrite Ec, A2.
      destruct (set_values_eff _ _ (ptree (pb w1)) _ _) as [t1 e1]. destruct (set_values_eff _ _ (ptree (pb w2)) _ _) as [t2 e2].
      destruct e1, e2; reflexivity.
    + rewrite A3, A4. destruct (nth_error (pheap w2) r); auto. destruct (Nat.eqb _ _); auto.
    + destruct (nth_error (pheap w2) r); auto. destruct (Nat.eqb _ _); auto.
  - assert (Hsame : forall w, pheap (fst (prio_update (Y:=Y) w idx advs)) = pheap w /\ pstore (pb (fst (prio_update w idx advs))) = pstore (pb w)).
    { intros w. unfold prio_update. destruct (negb _); [auto|]. destruct (Nat.eqb _ 0); [auto|].
      destruct (bind _ _) as [[refs olds]|]; [|auto]. destruct (set_values_eff _ _ _ _ _). auto. }
    destruct (Hsame w1) as [-> ->]. destruct (Hsame w2) as [-> ->]. split; [auto|]. split; [auto|].
    cbv zeta. rewrite A3, A4. destruct (update_accepted _ _ _ _); auto.
  - exfalso. now apply (Hna a).
  - unfold prio_set_beta. destruct (Rle_dec b 0); cbn [fst pheap pb pstore]; auto.
  - unfold prio_set_eps. destruct (Rle_dec e 0); cbn [fst pheap pb pstore items geps]; auto.
  - unfold prio_clear. cbn [fst pheap pb pstore items geps]. rewrite Ec. auto.
Qed.

Lemma alike_run : forall os (w1 w2 : pworld Y) g1 g2, pinv w1 g1 -> pinv w2 g2 -> alike w1 w2 g1 g2 -> no_alpha os ->
  p_no_alias w1 os ->
  p_no_alias w2 os /\ alike (prio_run w1 os) (prio_run w2 os) (ghost_run cap w1 g1 os) (ghost_run cap w2 g2 os) /\
  galpha (ghost_run cap w1 g1 os) = galpha g1 /\ galpha (ghost_run cap w2 g2 os) = galpha g2.
Proof.
  induction os as [|o os IH]; intros w1 w2 g1 g2 I1 I2 A Hna Hal; [repeat split; apply A|].
  cbn [p_no_alias] in *. destruct Hal as [G1 Hal].
  assert (G2 : match o with PAdd r _ => ~ In (Some r) (pstore (pb w2)) | PTouch r _ => ~ In (Some r) (pstore (pb w2)) | _ => True end).
  { destruct A as [_ [A2 _]]. now rewrite <- A2. }
  assert (Ho : forall a, o <> PAlpha a). { intros a ->. apply (Hna a). now left. }
  assert (Hga : forall w g, galpha (ghost_step cap (pheap w) g o) = galpha g).
  { intros w g. destruct o; cbn [ghost_step]; auto.
    - destruct (nth_error _ _); auto. destruct (Nat.eqb _ _); auto.
    - cbv zeta. destruct (update_accepted _ _ _ _); auto.
    - exfalso. eapply Ho; reflexivity.
    - destruct (Rle_dec e 0); auto. }
  destruct (IH (fst (prio_step w1 o)) (fst (prio_step w2 o)) (ghost_step cap (pheap w1) g1 o) (ghost_step cap (pheap w2) g2 o)) as [H1 [H2 [H3 H4]]];
    try (now apply step_pinv); auto.
  - now apply alike_step.
  - intros a Hin. apply (Hna a). now right.
  - split; [auto|]. split; [exact H2|]. cbn [ghost_run]. rewrite H3, H4, !Hga. auto.
Qed.

Lemma alpha_from_start : forall h old new beta eps (v0 w0 : pworld Y) os,
  prio_init h cap old beta eps = Ok v0 -> prio_init h cap new beta eps = Ok w0 ->
  no_alpha os -> p_no_alias v0 os -> ~ too_close new old ->
  let v := prio_run v0 os in let w := prio_run w0 os in
  (forall x, In x (prio_values v) -> (x = 0 \/ floor_value <= x)%R) ->
  prio_values (fst (prio_set_alpha v new)) = prio_values w /\
  palpha (pb (fst (prio_set_alpha v new))) = palpha (pb w) /\
  prio_iter (fst (prio_set_alpha v new)) = prio_iter w.
Proof.
  intros h old new beta eps v0 w0 os Hv0 Hw0 Hna Hal Hc v w Hfl.
  destruct (init_pinv Hcap _ _ _ _ Hv0) as [Iv0 Ehv]. destruct (init_pinv Hcap _ _ _ _ Hw0) as [Iw0 Ehw].
  assert (A0 : alike v0 w0 (mkG [] old eps) (mkG [] new eps)).
  { split; [congruence|]. split; [|split; reflexivity].
    unfold prio_init in *. destruct (Nat.eqb cap 0); [discriminate|]. destruct (Rle_dec old 0); [discriminate|].
    destruct (Rle_dec new 0); [discriminate|]. destruct (Rle_dec beta 0); [discriminate|]. destruct (Rle_dec eps 0); [discriminate|].
    injection Hv0 as <-. injection Hw0 as <-. reflexivity. }
  destruct (@alike_run os _ _ _ _ Iv0 Iw0 A0 Hna Hal) as [Hal2 [[A1 [A2 [A3 A4]]] [G1 G2]]].
  pose proof (@run_pinv Y cap Hcap os _ _ Iv0 Hal) as Iv. pose proof (@run_pinv Y cap Hcap os _ _ Iw0 Hal2) as Iw.
  fold v in Iv, A1, A2. fold w in Iw, A1, A2.
  set (gv := ghost_run cap v0 _ os) in *. set (gw := ghost_run cap w0 _ os) in *. cbn [galpha] in G1, G2.
  assert (Hnew : (0 < new)%R). { rewrite <- G2. apply (i_alpha_pos Iw). }
  assert (Hold : palpha (pb v) = old). { rewrite (i_alpha Iv). exact G1. }
  destruct (@alpha_exact v gv new Iv Hnew) as [E1 [E2 [E3 E4]]]; [now rewrite Hold|].
  destruct (alpha_pinv Hcap new Iv) as [J _]. set (v' := fst (prio_set_alpha v new)) in *.
  assert (Jlen : forall w, pinv w gw -> length (prio_values w) = cap).
  { intros w1 I1. unfold prio_values. rewrite (values_length (i_tree I1)). apply (i_tcap I1). }
  split; [|split].
  - apply list_eq_nth with (d := 0%R).
    { rewrite (Jlen w Iw). unfold prio_values. rewrite (values_length (i_tree J)). apply (i_tcap J). }
    intros p Hp. unfold prio_values in Hp. rewrite (values_length (i_tree J)), (i_tcap J) in Hp.
    destruct (Nat.lt_ge_cases p (length (items gv))) as [L|L].
    + destruct (pinv_slot Hcap Iv Hp L) as [k [it [K1 [K2 [K3 _]]]]].
      destruct (E4 k K1) as [E5 _].
      assert (Hpv : priority v k = Rpower (snd it) old). { rewrite (priority_stored Iv K1 K3). now rewrite G1. }
      assert (Hge : (floor_value <= priority v k)%R).
      { destruct (Hfl (priority v k)) as [Z|Z]; auto.
        - unfold priority. rewrite (i_cap Iv), K2. apply nth_In. unfold prio_values. rewrite (values_length (i_tree Iv)), (i_tcap Iv). auto.
        - exfalso. rewrite Hpv in Z. pose proof (Rpower_pos (snd it) old). lra. }
      specialize (E5 Hge). rewrite Hold, Hpv, Rpower_mult in E5.
      assert (Hop : (0 < old)%R). { rewrite <- G1. apply (i_alpha_pos Iv). }
      replace (old * (new / old))%R with new in E5 by (field; lra).
      assert (Hw : priority w k = Rpower (snd it) new).
      { rewrite <- G2. apply (@priority_stored w gw k it Iw); [|congruence]. now rewrite <- A3. }
      unfold priority in E5, Hw. rewrite (i_cap Iw), K2 in Hw. rewrite (i_cap J), K2 in E5. congruence.
    + rewrite E3 by auto. destruct (i_free Iw (p := p)) as [_ F]; [rewrite <- A3; auto|].
      symmetry. now apply nth_error_nth.
  - rewrite E2, (i_alpha Iw). auto.
  - assert (Hs : pheap v' = pheap v /\ pstore (pb v') = pstore (pb v)).
    { unfold v', prio_set_alpha. destruct (Rle_dec new 0); [auto|]. destruct (isclose_alpha _ _); [auto|].
      destruct (set_values_eff _ _ _ _ _) as [t [e|]]; auto. }
    destruct Hs as [H1 H2]. unfold prio_iter, prio_len.
    rewrite H1, H2, A1, A2, (i_cap J), (i_cap Iw), (i_index J), (i_index Iw). 
    assert (HL : length (items (ghost_step cap (pheap v) gv (PAlpha new))) = length (items gw)).
    { rewrite <- A3. cbn [ghost_step]. destruct (Rle_dec new 0); auto. destruct (Rle_dec _ _); auto. cbn [items]. apply map_items_length. }
    now rewrite HL.
Qed.

End Facts.

(** Algebra of the importance weights. *)
Lemma weight_facts : forall beta ps m, (0 < beta)%R -> (forall p, In p ps -> (0 < p)%R) -> 
  is_max m (map (fun p => Rpower p (- beta)) ps) ->
  (forall p, In p ps -> (0 < Rpower p (- beta) / m <= 1)%R) /\
  (exists p, In p ps /\ (Rpower p (- beta) / m = 1)%R) /\
  (forall p q, In p ps -> In q ps -> (p <= q)%R -> (Rpower q (- beta) / m <= Rpower p (- beta) / m)%R) /\
  (forall c m', (0 < c)%R -> is_max m' (map (fun p => Rpower (p * c) (- beta)) ps) ->
     forall p, In p ps -> (Rpower (p * c) (- beta) / m' = Rpower p (- beta) / m)%R).
Proof.
  intros beta ps m Hb Hp [Hin Hm].
  assert (Hmpos : (0 < m)%R). { apply in_map_iff in Hin. destruct Hin as [p [<- _]]. apply Rpower_pos. }
  split; [|split; [|split]].
  - intros p Hpin. pose proof (Rpower_pos p (- beta)). split; [now apply Rdiv_lt_0_compat|].
    assert (Rpower p (- beta) <= m)%R by (apply Hm; apply (in_map (fun p => Rpower p (- beta))); auto).
    apply Rmult_le_reg_r with m; auto. unfold Rdiv. rewrite Rmult_assoc, Rinv_l by lra. lra.
  - apply in_map_iff in Hin. destruct Hin as [p [E Hpin]]. exists p. split; auto. rewrite E. field. lra.
  - intros p q Hpi Hqi Hle. unfold Rdiv. apply Rmult_le_compat_r; [left; now apply Rinv_0_lt_compat|].
    unfold Rpower. assert (Hln : (ln p <= ln q)%R).
    { destruct (Rle_lt_or_eq_dec _ _ Hle) as [L| ->]; [|lra]. left. apply ln_increasing; auto. }
    assert (Hexp : forall x y, (x <= y)%R -> (exp x <= exp y)%R).
    { intros x y [L| ->]; [left; now apply exp_increasing|lra]. }
    apply Hexp. nra.
  - intros c m' Hc [Hin' Hm'] p Hpin.
    assert (Hmul : forall q, In q ps -> Rpower (q * c) (- beta) = (Rpower q (- beta) * Rpower c (- beta))%R).
    { intros q Hq. symmetry. apply Rpower_mult_distr; auto. }
    assert (Hcp : (0 < Rpower c (- beta))%R) by apply Rpower_pos.
    assert (Em : m' = (m * Rpower c (- beta))%R).
    { apply Rle_antisym.
      - apply in_map_iff in Hin'. destruct Hin' as [q [<- Hq]]. rewrite Hmul by auto. apply Rmult_le_compat_r; [lra|].
        apply Hm. apply (in_map (fun p => Rpower p (- beta))). auto.
      - apply in_map_iff in Hin. destruct Hin as [q [<- Hq]]. rewrite <- Hmul by auto. apply Hm'.
        apply (in_map (fun p => Rpower (p * c) (- beta))). auto. }
    rewrite Hmul, Em by auto. field. split; lra.
Qed.
