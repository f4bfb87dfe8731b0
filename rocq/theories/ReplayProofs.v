(** Proofs about SimpleReplayBuffer. *)
From Coq Require Import List ZArith Lia Bool.
From Verif Require Import NatDivLia PyCommon CommonProofs ReplayModel ReplaySpec.
Import ListNotations.
Set Implicit Arguments.

Lemma trim_lastn : forall cap l, trim cap l = lastn cap l.
Proof.
  intros cap l. unfold lastn. induction l as [|x l IH]; [reflexivity|].
  cbn [trim]. destruct (Nat.leb_spec (length (x :: l)) cap) as [H|H].
  - replace (length (x :: l) - cap) with 0 by lia. reflexivity.
  - rewrite IH. cbn [length] in *. replace (S (length l) - cap) with (S (length l - cap)) by lia. reflexivity.
Qed.

Lemma lastn_length : forall A k (l : list A), length (lastn k l) = Nat.min k (length l).
Proof. intros. unfold lastn. rewrite skipn_length. lia. Qed.

Lemma skipn_skipn' : forall A a b (l : list A), skipn a (skipn b l) = skipn (a + b) l.
Proof.
  intros A a b. induction b as [|b IH]; intros l; [now rewrite Nat.add_0_r|].
  rewrite Nat.add_succ_r. destruct l; [now rewrite !skipn_nil|]. cbn [skipn]. apply IH.
Qed.

Lemma lastn_app_lastn : forall A k (l m : list A), lastn k (lastn k l ++ m) = lastn k (l ++ m).
Proof.
  intros A k l m. unfold lastn. rewrite !app_length, skipn_length.
  destruct (Nat.le_gt_cases (length l) k) as [H|H].
  - replace (length l - k) with 0 by lia. rewrite skipn_O. f_equal. lia.
  - rewrite !skipn_app. rewrite skipn_length, skipn_skipn'.
    f_equal; f_equal; lia.
Qed.

Lemma lastn_map : forall A B (f : A -> B) k l, lastn k (map f l) = map f (lastn k l).
Proof.
  intros A B f k l. unfold lastn. rewrite map_length. generalize (length l - k) as m. intros m. revert l.
  induction m as [|m IH]; intros l; [reflexivity|]. destruct l; [reflexivity|]. simpl. apply IH.
Qed.

Lemma lastn_incl : forall A k (l : list A) x, In x (lastn k l) -> In x l.
Proof. intros A k l x H. unfold lastn in H. rewrite <- (firstn_skipn (length l - k) l). apply in_or_app. now right. Qed.

Lemma combine_app : forall A B (l1 l2 : list A) (m1 m2 : list B), length l1 = length m1 ->
  combine (l1 ++ l2) (m1 ++ m2) = combine l1 m1 ++ combine l2 m2.
Proof. induction l1; destruct m1; intros; simpl in *; try discriminate; auto. f_equal. apply IHl1. lia. Qed.

Lemma numbered_app : forall A (l m : list A),
  numbered (l ++ m) = numbered l ++ combine m (zrange (length l) (length m)).
Proof.
  intros. unfold numbered, zrange. rewrite app_length, seq_app, map_app. rewrite combine_app; [reflexivity|].
  now rewrite map_length, seq_length.
Qed.

Lemma zrange_length : forall a n, length (zrange a n) = n.
Proof. intros. unfold zrange. now rewrite map_length, seq_length. Qed.

Section HeapLemmas.
Variable X : Type.

Lemma set_ids_length : forall (h : heap X) r i, length (set_ids h r i) = length h.
Proof. intros. unfold set_ids. destruct (nth_error h r); auto. apply upd_length. Qed.

Lemma set_ids_same : forall (h : heap X) r i b, nth_error h r = Some b -> nth_error (set_ids h r i) r = Some (mkTB (rows b) i).
Proof.
  intros h r i b H. unfold set_ids. rewrite H. rewrite nth_error_upd. rewrite Nat.eqb_refl.
  assert (r < length h) by (apply nth_error_Some; congruence).
  destruct (Nat.ltb_spec r (length h)); [reflexivity|lia].
Qed.

Lemma set_ids_other : forall (h : heap X) r i q, q <> r -> nth_error (set_ids h r i) q = nth_error h q.
Proof.
  intros h r i q H. unfold set_ids. destruct (nth_error h r) eqn:E; auto. rewrite nth_error_upd.
  destruct (Nat.eqb_spec r q); [congruence|reflexivity].
Qed.

Lemma singles_view : forall (h : heap X) r b i h2 refs, nth_error h r = Some b -> length i = length (rows b) ->
  to_singles (set_ids h r i) r = (h2, refs) ->
  map (nth_error h2) refs = map (fun xi => Some (as_single xi)) (combine (rows b) i) /\
  (forall q, q <> r -> q < length h -> nth_error h2 q = nth_error h q).
Proof.
  intros h r b i h2 refs Hr Hlen H. unfold to_singles in H. rewrite (@set_ids_same h r i b Hr) in H. cbn [rows ids] in H.
  destruct (Nat.eqb_spec (length (rows b)) 1) as [E|E]; injection H as <- <-.
  - split.
    + cbn [map]. rewrite (@set_ids_same h r i b Hr). destruct (rows b) as [|x [|? ?]]; try discriminate.
      destruct i as [|z [|? ?]]; try discriminate. reflexivity.
    + intros q Hq _. now apply set_ids_other.
  - split.
    + apply list_eq_nth with (d := None).
      { rewrite !map_length, seq_length, combine_length. lia. }
      intros k Hk. rewrite map_length, seq_length in Hk.
      rewrite (nth_indep _ None (nth_error (set_ids h r i ++ map (fun xi => mkTB [fst xi] [snd xi]) (combine (rows b) i)) 0))
        by (now rewrite map_length, seq_length).
      rewrite map_nth. rewrite seq_nth by auto. rewrite nth_error_app2 by lia.
      replace (length (set_ids h r i) + k - length (set_ids h r i)) with k by lia.
      assert (Hc : k < length (combine (rows b) i)) by (rewrite combine_length; lia).
      destruct (combine (rows b) i) as [|xi0 c'] eqn:Ec; [cbn in Hc; lia|]. rewrite <- Ec in *.
      rewrite (nth_indep _ None (Some (as_single xi0))) by (rewrite map_length; auto).
      rewrite (map_nth (fun xi => Some (as_single xi))).
      rewrite (nth_error_nth' _ (as_single xi0)) by (rewrite map_length; auto).
      f_equal. exact (map_nth (fun xi => mkTB [fst xi] [snd xi]) (combine (rows b) i) xi0 k).
    + intros q Hq Hql. rewrite nth_error_app1 by (rewrite set_ids_length; auto). now apply set_ids_other.
Qed.

End HeapLemmas.

Section Proofs.
Variable X : Type.
Variable G : Type.
Variable draw : G -> nat -> nat -> list nat * G.

Notation world := (sworld X G).

Definition inv (w : world) (log : list X) : Prop :=
  sindex (sb w) = length log /\
  map (nth_error (sheap w)) (sstore (sb w)) =
    map (fun xi => Some (as_single xi)) (lastn (scap (sb w)) (numbered log)).

Lemma inv_store_valid : forall w log r, inv w log -> In r (sstore (sb w)) -> r < length (sheap w).
Proof.
  intros w log r [_ H] Hin. apply (in_map (nth_error (sheap w))) in Hin. rewrite H in Hin.
  apply in_map_iff in Hin. destruct Hin as [xi [E _]]. apply nth_error_Some. congruence.
Qed.

Lemma step_inv : forall w log o,
  inv w log ->
  match o with SAdd r => ~ In r (sstore (sb w)) | STouch r _ => ~ In r (sstore (sb w)) | _ => True end ->
  inv (fst (simple_step draw w o))
      (match o with
       | SAdd r => match nth_error (sheap w) r with Some b => log ++ rows b | None => log end
       | SClear => []
       | _ => log
       end) /\ scap (sb (fst (simple_step draw w o))) = scap (sb w).
Proof.
  intros w log o Hinv Hg. pose proof Hinv as [Hi Hv]. destruct o as [b|r i|r| |k|g]; cbn [simple_step fst].
  - split; [|reflexivity]. split; [exact Hi|]. cbn [sheap sb]. rewrite <- Hv. apply map_ext_in. intros r Hr.
    apply nth_error_app1. eapply inv_store_valid; eauto.
  - split; [|reflexivity]. split; [exact Hi|]. cbn [sheap sb]. rewrite <- Hv. apply map_ext_in. intros q Hq.
    apply set_ids_other. intros ->. auto.
  - unfold simple_add. destruct (nth_error (sheap w) r) as [b|] eqn:Er; [|split; auto].
    destruct (to_singles (set_ids (sheap w) r (zrange (sindex (sb w)) (length (rows b)))) r) as [h2 refs] eqn:Es.
    split; [|reflexivity]. destruct (@singles_view _ _ _ _ _ _ _ Er (zrange_length _ _) Es) as [V1 V2].
    split; cbn [sb sindex sheap sstore scap].
    + rewrite app_length. lia.
    + rewrite trim_lastn. rewrite <- (lastn_map (nth_error h2)). rewrite map_app, V1.
      assert (E : map (nth_error h2) (sstore (sb w)) = map (nth_error (sheap w)) (sstore (sb w))).
      { apply map_ext_in. intros q Hq. apply V2; [intros ->; auto|eapply inv_store_valid; eauto]. }
      rewrite E, Hv, <- map_app, lastn_map, lastn_app_lastn. rewrite numbered_app. now rewrite Hi.
  - split; [|reflexivity]. split; reflexivity.
  - unfold simple_sample. destruct (Nat.ltb _ k); [split; auto|]. destruct (draw _ _ k) as [ps g'].
    destruct (Nat.eqb k 0); split; auto.
  - split; [|reflexivity]. split; auto.
Qed.

Lemma run_inv : forall os w log, inv w log -> no_alias draw w os ->
  inv (fst (simple_run draw w os)) (added draw w os log) /\ scap (sb (fst (simple_run draw w os))) = scap (sb w).
Proof.
  induction os as [|o os IH]; intros w log Hinv Hna; [split; auto|].
  cbn [simple_run added no_alias] in *. destruct Hna as [Hg Hna].
  destruct (step_inv o Hinv Hg) as [H1 H2]. destruct (IH _ _ H1 Hna) as [H3 H4].
  destruct (simple_step draw w o) as [w1 out]. cbn [fst] in *.
  destruct (simple_run draw w1 os) as [w2 outs]. cbn [fst] in *. split; [exact H3|congruence].
Qed.

Lemma inv_view : forall w log, inv w log ->
  simple_iter w = map as_single (lastn (scap (sb w)) (numbered log)) /\
  simple_len w = Nat.min (scap (sb w)) (length log).
Proof.
  intros w log [Hi Hv]. split.
  - unfold simple_iter. assert (E : forall rs ys, map (nth_error (sheap w)) rs = map (fun xi : X * Z => Some (as_single xi)) ys ->
      map (deref (sheap w)) rs = map as_single ys).
    { induction rs as [|r rs IH]; intros [|y ys] H; try discriminate; auto. injection H as H1 H2. cbn [map]. f_equal; auto.
      unfold deref. now apply nth_error_nth. }
    now apply E.
  - unfold simple_len. apply (f_equal (@length _)) in Hv. rewrite !map_length, lastn_length in Hv. rewrite Hv.
    unfold numbered. rewrite combine_length, map_length, seq_length. lia.
Qed.

Lemma simple_window : forall (h : heap X) cap (g : G) os, no_alias draw (simple_init h cap g) os ->
  let w := fst (simple_run draw (simple_init h cap g) os) in
  let log := added draw (simple_init h cap g) os [] in
  simple_iter w = map as_single (lastn cap (numbered log)) /\ simple_len w = Nat.min cap (length log).
Proof.
  intros h cap g os Hna. destruct (run_inv (log := []) os (w := simple_init h cap g)) as [H1 H2]; auto.
  { split; reflexivity. }
  cbv zeta. destruct (inv_view H1) as [H3 H4]. rewrite H2 in H3, H4. auto.
Qed.

(** Isolation. *)
Definition same_but_global (w1 w2 : world) : Prop := sheap w1 = sheap w2 /\ sb w1 = sb w2.

Lemma step_isolated : forall w1 w2 o, same_but_global w1 w2 ->
  same_but_global (fst (simple_step draw w1 o)) (fst (simple_step draw w2 o)) /\
  snd (simple_step draw w1 o) = snd (simple_step draw w2 o).
Proof.
  intros [h1 b1 g1] [h2 b2 g2] o [E1 E2]. cbn [sheap sb] in E1, E2. subst h2 b2.
  destruct o as [b|r i|r| |k|g]; cbn [simple_step fst snd]; try (split; [split|]; reflexivity).
  - split; [|reflexivity]. unfold simple_add. cbn [sheap sb]. destruct (nth_error h1 r); [|split; reflexivity].
    destruct (to_singles _ r). split; reflexivity.
Qed.

Lemma run_isolated : forall os w1 w2, same_but_global w1 w2 ->
  snd (simple_run draw w1 os) = snd (simple_run draw w2 (without_foreign os)) /\
  same_but_global (fst (simple_run draw w1 os)) (fst (simple_run draw w2 (without_foreign os))).
Proof.
  induction os as [|o os IH]; intros w1 w2 H; [split; auto|].
  assert (Hne : without_foreign (o :: os) = o :: without_foreign os ->
    snd (simple_run draw w1 (o :: os)) = snd (simple_run draw w2 (without_foreign (o :: os))) /\
    same_but_global (fst (simple_run draw w1 (o :: os))) (fst (simple_run draw w2 (without_foreign (o :: os))))).
  { intros E. rewrite E. cbn [simple_run]. destruct (step_isolated o H) as [S1 S2].
    destruct (simple_step draw w1 o) as [w1' out1]. destruct (simple_step draw w2 o) as [w2' out2].
    cbn [fst snd] in S1, S2. subst out2. specialize (IH w1' w2' S1).
    destruct (simple_run draw w1' os) as [v1 outs1]. destruct (simple_run draw w2' (without_foreign os)) as [v2 outs2].
    cbn [fst snd] in *. destruct IH as [-> I2]. split; auto. }
  destruct o as [b|r i|r| |k|g]; try (apply Hne; reflexivity).
  cbn [simple_run simple_step without_foreign]. specialize (IH (mkSW (sheap w1) (sb w1) g) w2 H).
  destruct (simple_run draw (mkSW (sheap w1) (sb w1) g) os) as [w' outs]. exact IH.
Qed.

(** A sample: distinct stored transitions, provided random.sample returns distinct positions. *)
Lemma sample_spec : forall (w : world) k,
  (forall g n k, k <= n -> length (fst (draw g n k)) = k /\ NoDup (fst (draw g n k)) /\ (forall p, In p (fst (draw g n k)) -> p < n)) ->
  (simple_len w < k -> snd (simple_sample draw w k) = Err EValue) /\
  (1 <= k <= simple_len w -> exists ps, length ps = k /\ NoDup ps /\ (forall p, In p ps -> p < simple_len w) /\
     snd (simple_sample draw w k) = Ok (map (fun p => nth p (simple_iter w) (mkTB [] [])) ps)).
Proof.
  intros w k Hd. unfold simple_sample, simple_len. split; intros H.
  - destruct (Nat.ltb_spec (length (sstore (sb w))) k); [reflexivity|lia].
  - destruct (Nat.ltb_spec (length (sstore (sb w))) k); [lia|].
    destruct (Hd (srand (sb w)) (length (sstore (sb w))) k) as [D1 [D2 D3]]; [lia|].
    destruct (draw _ _ k) as [ps g']. cbn [fst] in *. destruct (Nat.eqb_spec k 0); [lia|].
    exists ps. repeat split; auto. cbn [snd]. f_equal. apply map_ext_in. intros p Hp. unfold simple_iter.
    rewrite (nth_indep _ (mkTB [] []) (deref (sheap w) 0)) by (rewrite map_length; auto). now rewrite map_nth.
Qed.

End Proofs.

Lemma sample_overwrites : forall X G (draw : G -> nat -> nat -> list nat * G) (w : sworld X G) k g1 g2,
  sglob (fst (simple_run draw w [SForeign g1; SSample k])) = sglob (fst (simple_run draw w [SForeign g2; SSample k])).
Proof.
  intros X G draw w k g1 g2. cbn. unfold simple_sample. cbn [sb sheap sglob].
  destruct (Nat.ltb _ k); [reflexivity|]. destruct (draw _ _ k) as [ps g']. destruct (Nat.eqb k 0); reflexivity.
Qed.
