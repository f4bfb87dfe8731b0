(** Prioritized buffer: alpha changes, whole programs, sampling. *)
From Coq Require Import List ZArith Lia Bool Reals Lra Permutation.
From Verif Require Import NatDivLia PyCommon CommonProofs SegTreeModel SegTreeSpec SegTreeProofs SegTreeProofs2
  SegTreeProofs3 ReplayModel ReplaySpec ReplayProofs PrioModel PrioSpec PrioProofs.
Import ListNotations.
Set Implicit Arguments.

Lemma Rpower_pos : forall x y, (0 < Rpower x y)%R.
Proof. intros. unfold Rpower. apply exp_pos. Qed.

Lemma floor_pos : (0 < floor_value)%R.
Proof. unfold floor_value. lra. Qed.

Lemma alpha_value_spec : forall new old b, (0 < old)%R ->
  alpha_value new old (Rpower b old) =
  Rpower (if Rlt_dec (Rpower b old) floor_value then Rpower floor_value (1 / old) else b) new.
Proof.
  intros new old b Ho. unfold alpha_value. pose proof (Rpower_pos b old) as Hp.
  destruct (Rle_dec (Rpower b old) 0) as [H|_]; [lra|]. fold floor_value.
  destruct (Rlt_dec (Rpower b old) floor_value) as [H|H].
  - rewrite Rmax_right by lra. unfold Rpower. rewrite ln_exp. f_equal. field. lra.
  - rewrite Rmax_left by lra. unfold Rpower. rewrite ln_exp. f_equal. field. lra.
Qed.

Section Refine.
Variable Y : Type.
Notation prow := (Y * R)%type.
Variable cap : nat.
Hypothesis Hcap : 1 <= cap.

Notation pinv := (@pinv Y cap).

Lemma alpha_pinv : forall w g a, pinv w g ->
  pinv (fst (prio_set_alpha w a)) (ghost_step cap (pheap w) g (PAlpha a)) /\
  (snd (prio_set_alpha w a) = None <-> (0 < a)%R).
Proof.
  intros w g a I. cbn [ghost_step]. unfold prio_set_alpha, isclose_alpha. rewrite (i_alpha I).
  destruct (Rle_dec a 0) as [Ha|Ha]. { cbn [fst snd]. split; [exact I|]. split; [discriminate|lra]. }
  destruct (Rle_dec (Rabs (a - galpha g)) _) as [Hc|Hc]. { cbn [fst snd]. split; [exact I|]. split; [lra|reflexivity]. }
  assert (Hel : ellipsis_idx (ptree (pb w)) = map Z.of_nat (seq 0 cap)).
  { unfold ellipsis_idx. rewrite (tree_ok_size (i_tree I)), (i_tcap I). reflexivity. }
  assert (Hvl : length (values (ptree (pb w))) = cap). { rewrite (values_length (i_tree I)). apply (i_tcap I). }
  destruct (@set_values_scatter (ptree (pb w)) (ellipsis_idx (ptree (pb w)))
              (map (alpha_value a (galpha g)) (values (ptree (pb w)))) (i_tree I)) as [t' [E1 [E2 [E3 E4]]]].
  { rewrite Hel. intros z Hz. apply in_map_iff in Hz. destruct Hz as [k [<- Hk]]. apply in_seq in Hk. rewrite (i_tcap I). lia. }
  { rewrite Hel, !map_length, seq_length. exact Hvl. }
  rewrite E1. cbn [fst snd].
  assert (E5 : values t' = map (alpha_value a (galpha g)) (values (ptree (pb w)))).
  { rewrite E4, Hel, map_map. rewrite (map_ext _ (fun k => k)) by (intros; apply Nat2Z.id). rewrite map_id.
    pose proof (@scatter_all _ (map (alpha_value a (galpha g)) (values (ptree (pb w)))) (values (ptree (pb w))) []) as S.
    cbn [app length] in S. rewrite map_length in S. rewrite Hvl in S. apply S. reflexivity. }
  split; [|split; [lra|reflexivity]].
  split; cbn [pb pcap pindex palpha peps ptree pstore pheap items galpha geps]; try apply I; auto.
  - rewrite map_items_length. apply (i_index I).
  - lra.
  - rewrite E3. apply (i_tcap I).
  - intros it Hin. apply in_map_items in Hin. destruct Hin as [k [it0 [Hin ->]]]. cbn [snd].
    destruct (Rlt_dec _ _); [apply Rpower_pos|now apply (i_base I)].
  - rewrite map_items_length. intros k it Hw Hit. rewrite nth_map_items in Hit.
    destruct (nth_error (items g) k) as [it0|] eqn:Eit; [|discriminate]. injection Hit as <-.
    destruct (i_win I Hw Eit) as [r [S1 [S2 S3]]]. exists r. cbn [pb pstore pheap ptree fst snd]. repeat split; auto.
    rewrite E5. rewrite (map_nth_error _ _ _ S3). f_equal. apply alpha_value_spec. apply (i_alpha_pos I).
  - rewrite map_items_length. intros p Hp. destruct (i_free I Hp) as [F1 F2]. split; auto.
    rewrite E5. rewrite (map_nth_error _ _ _ F2). f_equal. unfold alpha_value. destruct (Rle_dec 0 0); [reflexivity|lra].
Qed.

Lemma clear_pinv : forall w g, pinv w g -> pinv (prio_clear w) (mkG [] (galpha g) (geps g)).
Proof.
  intros w g I. pose proof (i_alpha_pos I). pose proof (i_eps_pos I).
  assert (E : prio_init (pheap w) cap (galpha g) 1 (geps g) =
     Ok (mkPW (pheap w) (mkPB cap (galpha g) 1 (geps g) (repeat None cap) (sumtree_init cap) 0))).
  { unfold prio_init. destruct (Nat.eqb_spec cap 0); [lia|]. destruct (Rle_dec (galpha g) 0); [lra|].
    destruct (Rle_dec 1 0); [lra|]. destruct (Rle_dec (geps g) 0); [lra|]. reflexivity. }
  destruct (init_pinv Hcap _ _ _ _ E) as [J _].
  destruct J as [J1 J2 J3 J3' J4 J4' J5 J6 J7 J8 J9 J10]. cbn [pb pcap pindex palpha peps ptree pstore pheap items galpha geps] in *.
  unfold prio_clear. rewrite (i_cap I), (i_alpha I), (i_eps I).
  split; cbn [pb pcap pindex palpha peps ptree pstore pheap items galpha geps]; auto.
Qed.

Lemma step_pinv : forall w g o, pinv w g ->
  match o with PAdd r _ => ~ In (Some r) (pstore (pb w)) | PTouch r _ => ~ In (Some r) (pstore (pb w)) | _ => True end ->
  pinv (fst (prio_step w o)) (ghost_step cap (pheap w) g o).
Proof.
  intros w g o I Hg. destruct o as [b|r i|r advs|idx advs|a|b|e|]; cbn [prio_step].
  - apply pinv_heap; auto. intros r Hr. apply nth_error_app1. eapply pinv_store_valid; eauto.
  - apply pinv_heap; auto. intros q Hq. apply set_ids_other. intros ->. auto.
  - now apply add_pinv.
  - now apply update_pinv.
  - now apply alpha_pinv.
  - cbn [ghost_step]. unfold prio_set_beta. destruct (Rle_dec b 0); cbn [fst]; auto.
    destruct I as [I1 I2 I3 I3' I4 I4' I5 I6 I7 I8 I9 I10]. split; auto.
  - cbn [ghost_step]. unfold prio_set_eps. destruct (Rle_dec e 0); cbn [fst]; auto.
    destruct I as [I1 I2 I3 I3' I4 I4' I5 I6 I7 I8 I9 I10].
    split; cbn [pb pcap pindex palpha peps ptree pstore pheap items galpha geps]; auto. lra.
  - cbn [ghost_step fst]. now apply clear_pinv.
Qed.

Lemma run_pinv : forall os w g, pinv w g -> p_no_alias w os -> pinv (prio_run w os) (ghost_run cap w g os).
Proof.
  induction os as [|o os IH]; intros w g I Hna; [exact I|]. cbn [p_no_alias] in Hna. destruct Hna as [Hg Hna].
  unfold prio_run. cbn [fold_left ghost_run]. apply IH; auto. now apply step_pinv.
Qed.

Lemma reach_pinv : forall h alpha beta eps w0 os, prio_init h cap alpha beta eps = Ok w0 -> p_no_alias w0 os ->
  pinv (prio_run w0 os) (ghost_run cap w0 (mkG [] alpha eps) os).
Proof. intros. apply run_pinv; auto. eapply init_pinv; eauto. Qed.

(** The window. *)
Lemma perm_mod : forall n, cap <= n -> Permutation (map (fun k => k mod cap) (seq (n - cap) cap)) (seq 0 cap).
Proof.
  intros n Hn. apply NoDup_Permutation_bis.
  - assert (H : forall l, NoDup l -> (forall k, In k l -> n - cap <= k < n) -> NoDup (map (fun k => k mod cap) l)).
    { induction l as [|k l IH]; intros Hnd Hr; [constructor|]. inversion Hnd; subst. cbn [map]. constructor.
      - intros Hin. apply in_map_iff in Hin. destruct Hin as [j [Ej Hj]].
        assert (Rk := Hr k (or_introl eq_refl)). assert (Rj := Hr j (or_intror Hj)).
        destruct (Nat.lt_trichotomy j k) as [L|[L|L]].
        + apply (@mod_window cap j k); auto; lia.
        + subst. contradiction.
        + apply (@mod_window cap k j); auto; lia.
      - apply IH; auto. intros; apply Hr; now right. }
    apply H; [apply seq_NoDup|]. intros k Hk. apply in_seq in Hk. lia.
  - rewrite map_length, !seq_length. lia.
  - intros p Hp. apply in_map_iff in Hp. destruct Hp as [k [<- _]]. apply in_seq.
    split; [lia|]. apply Nat.mod_upper_bound. lia.
Qed.

Lemma nth_error_firstn' : forall A k (l : list A) p, p < k -> nth_error (firstn k l) p = nth_error l p.
Proof. induction k; intros [|x l] [|p] H; simpl; auto; try lia. apply IHk. lia. Qed.

Lemma iter_slot : forall w g k it, pinv w g -> in_window cap (length (items g)) k -> nth_error (items g) k = Some it ->
  nth_error (prio_iter w) (k mod cap) = Some (Some (as_single (fst it, Z.of_nat k))).
Proof.
  intros w g k it I Hw Hit. destruct (i_win I Hw Hit) as [r [S1 [S2 _]]]. unfold prio_iter.
  assert (Hl : k mod cap < prio_len w).
  { unfold prio_len. rewrite (i_cap I), (i_index I). destruct Hw as [W1 W2].
    assert (k mod cap < cap) by (apply Nat.mod_upper_bound; lia). assert (k mod cap <= k) by (apply Nat.mod_le; lia). lia. }
  assert (E : nth_error (firstn (prio_len w) (pstore (pb w))) (k mod cap) = Some (Some r)).
  { rewrite nth_error_firstn'; auto. }
  rewrite (map_nth_error _ _ _ E). cbn [option_map]. unfold deref. now rewrite (nth_error_nth _ _ _ S2).
Qed.

Lemma iter_window : forall w g, pinv w g ->
  prio_len w = Nat.min cap (length (items g)) /\
  Permutation (prio_iter w) (map Some (map as_single (lastn cap (numbered (map fst (items g)))))).
Proof.
  intros w g I. set (n := length (items g)).
  assert (Hlen : prio_len w = Nat.min cap n). { unfold prio_len. now rewrite (i_cap I), (i_index I). }
  split; auto.
  set (D := fun p => nth p (prio_iter w) None).
  assert (Hil : length (prio_iter w) = Nat.min cap n).
  { unfold prio_iter. rewrite map_length, firstn_length, (i_slen I), Hlen. lia. }
  assert (HL : prio_iter w = map D (seq 0 (Nat.min cap n))).
  { apply list_eq_nth with (d := None); [rewrite map_length, seq_length; auto|].
    intros i Hi. rewrite Hil in Hi. rewrite (nth_indep _ None (D 0)) at 1 by lia.
    rewrite (nth_indep (map D _) None (D 0)) by (rewrite map_length, seq_length; auto).
    rewrite map_nth, seq_nth by auto. unfold D. apply nth_indep. lia. }
  assert (HR : map Some (map as_single (lastn cap (numbered (map fst (items g))))) =
               map D (map (fun k => k mod cap) (seq (n - cap) (Nat.min cap n)))).
  { apply list_eq_nth with (d := None).
    { rewrite !map_length, seq_length, lastn_length. unfold numbered. rewrite combine_length, !map_length, seq_length. fold n. lia. }
    intros j Hj.
    assert (Hj' : j < Nat.min cap n).
    { rewrite !map_length, lastn_length in Hj. unfold numbered in Hj. rewrite combine_length, !map_length, seq_length in Hj. fold n in Hj. lia. }
    set (k := n - cap + j).
    assert (Hk : k < n) by (unfold k; lia).
    destruct (nth_error (items g) k) as [it|] eqn:Eit; [|apply nth_error_None in Eit; fold n in Eit; lia].
    assert (Hw : in_window cap n k) by (unfold k; split; lia).
    rewrite (nth_error_nth (map D _) j None (x := D (k mod cap))).
    2:{ rewrite map_map. apply (map_nth_error (fun x => D (x mod cap))).
        rewrite (nth_error_nth' _ 0) by (now rewrite seq_length). rewrite seq_nth by auto. reflexivity. }
    unfold D. rewrite (nth_error_nth _ _ None (iter_slot I Hw Eit)).
    apply nth_error_nth. apply map_nth_error. apply map_nth_error.
    unfold lastn. assert (Enl : length (numbered (map fst (items g))) = n).
    { unfold numbered. rewrite combine_length, !map_length, seq_length. fold n. lia. }
    rewrite Enl. assert (Esk : forall A m (l : list A) j, nth_error (skipn m l) j = nth_error l (m + j)).
    { clear. induction m; intros l j; [reflexivity|]. destruct l; [now destruct j|]. apply IHm. }
    rewrite Esk. fold k. unfold numbered.
    assert (Hcomb : forall A B (l : list A) (l' : list B) j x y, nth_error l j = Some x -> nth_error l' j = Some y ->
              nth_error (combine l l') j = Some (x, y)).
    { clear. induction l as [|a l IH]; intros [|c l'] [|j] x y H1 H2; simpl in *; try discriminate; auto. congruence. }
    apply Hcomb; [now apply map_nth_error|]. apply map_nth_error.
    rewrite (nth_error_nth' _ 0) by (rewrite seq_length, map_length; exact Hk).
    rewrite seq_nth by (rewrite map_length; exact Hk). reflexivity. }
  rewrite HL, HR. apply Permutation_map. symmetry.
  destruct (Nat.le_gt_cases cap n) as [L|L].
  - rewrite Nat.min_l by lia. now apply perm_mod.
  - rewrite Nat.min_r by lia. replace (n - cap) with 0 by lia.
    rewrite (map_ext_in _ (fun k => k)); [rewrite map_id; apply Permutation_refl|].
    intros k Hk. apply in_seq in Hk. apply Nat.mod_small. lia.
Qed.

End Refine.
