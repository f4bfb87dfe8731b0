(** Proofs about the Connect Four environment. *)
From Coq Require Import List ZArith NArith Lia Bool Arith.
From Verif Require Import PyCommon ConnectFourModel ConnectFourSpec.
Import ListNotations.
Set Implicit Arguments.

(** * Lists *)
Lemma upd_length : forall A (l : list A) i x, length (upd l i x) = length l.
Proof. induction l as [|y l IH]; intros [|i] x; cbn; auto. Qed.

Lemma upd_nth : forall A (l : list A) i x j d, i < length l -> nth j (upd l i x) d = if Nat.eqb j i then x else nth j l d.
Proof.
  induction l as [|y l IH]; intros i x j d H; [cbn in H; lia|]. destruct i as [|i], j as [|j]; cbn; auto.
  rewrite IH by (cbn in H; lia). reflexivity.
Qed.

Lemma upd_Forall : forall A (P : A -> Prop) l i x, Forall P l -> P x -> Forall P (upd l i x).
Proof. intros A P l. induction l as [|y l IH]; intros [|i] x H Hx; cbn; auto; inversion H; constructor; auto. Qed.

(** * Cells *)
Lemma row_length : forall b i, shaped b -> i < 6 -> length (nth i b []) = 7.
Proof. intros b i [H1 H2] Hi. rewrite Forall_forall in H2. apply H2. apply nth_In. lia. Qed.

Lemma set_cell_shaped : forall b i j v, shaped b -> shaped (set_cell b i j v).
Proof.
  intros b i j v [H1 H2]. unfold set_cell. destruct (nth_error b i) as [r|] eqn:E; [|split; auto].
  split; [now rewrite upd_length|]. apply upd_Forall; auto. rewrite upd_length. rewrite Forall_forall in H2. apply H2. eapply nth_error_In; eauto.
Qed.

Lemma set_cell_cell : forall b i j v i' j', shaped b -> i < 6 -> j < 7 ->
  cell (set_cell b i j v) i' j' = if Nat.eqb i' i && Nat.eqb j' j then v else cell b i' j'.
Proof.
  intros b i j v i' j' H Hi Hj. unfold cell, set_cell. pose proof (row_length H Hi) as HR. destruct H as [H1 H2].
  rewrite (nth_error_nth' b []) by lia. rewrite upd_nth by lia. destruct (Nat.eqb i' i) eqn:E; cbn; auto.
  rewrite upd_nth by lia. apply Nat.eqb_eq in E. subst. reflexivity.
Qed.

Lemma cell_out : forall b i j, shaped b -> ~ (i < 6 /\ j < 7) -> cell b i j = 0.
Proof.
  intros b i j [H1 H2] H. unfold cell. destruct (le_lt_dec 6 i).
  - rewrite (nth_overflow b) by lia. destruct j; reflexivity.
  - apply nth_overflow. rewrite row_length; [lia|split; auto|auto].
Qed.

(** * Counting *)
Lemma count_upd : forall l i v p, i < length l ->
  count_occ Nat.eq_dec (upd l i v) p + (if Nat.eq_dec (nth i l 0) p then 1 else 0) = count_occ Nat.eq_dec l p + (if Nat.eq_dec v p then 1 else 0).
Proof.
  induction l as [|y l IH]; intros i v p H; [cbn in H; lia|]. destruct i as [|i]; cbn [upd count_occ nth].
  - destruct (Nat.eq_dec v p), (Nat.eq_dec y p); lia.
  - specialize (IH i v p ltac:(cbn in H; lia)). destruct (Nat.eq_dec y p); lia.
Qed.

Lemma count_upd_concat : forall (b : board) i r v p, nth_error b i = Some r ->
  count_occ Nat.eq_dec (concat (upd b i v)) p + count_occ Nat.eq_dec r p = count_occ Nat.eq_dec (concat b) p + count_occ Nat.eq_dec v p.
Proof.
  induction b as [|y b IH]; intros [|i] r v p H; try discriminate; cbn [upd concat]; rewrite !count_occ_app.
  - injection H as ->. lia.
  - specialize (IH i r v p H). lia.
Qed.

Lemma tokens_set : forall b i j v p, shaped b -> i < 6 -> j < 7 -> cell b i j = 0 ->
  tokens (set_cell b i j v) p + (if Nat.eq_dec 0 p then 1 else 0) = tokens b p + (if Nat.eq_dec v p then 1 else 0).
Proof.
  intros b i j v p H Hi Hj H0. unfold tokens, set_cell. pose proof (row_length H Hi) as HR. destruct H as [H1 H2]. unfold cell in H0.
  rewrite (nth_error_nth' b []) by lia. pose proof (@count_upd_concat b i (nth i b []) (upd (nth i b []) j v) p ltac:(now apply nth_error_nth'; lia)) as E1.
  pose proof (@count_upd (nth i b []) j v p ltac:(lia)) as E2. rewrite H0 in E2.
  destruct (Nat.eq_dec 0 p), (Nat.eq_dec v p); lia.
Qed.

Lemma concat_length_shaped : forall b, shaped b -> length (concat b) = 42.
Proof.
  intros b [H1 H2]. assert (E : forall n (b : board), length b = n -> Forall (fun r => length r = 7) b -> length (concat b) = n * 7).
  { clear. induction n as [|n IH]; intros [|r b] H1 H2; try discriminate; auto. inversion H2; subst. cbn. rewrite app_length, (IH b); auto. lia. }
  rewrite (E 6 b); auto.
Qed.

Lemma In_concat_cell : forall b x, shaped b -> In x (concat b) <-> exists i j, i < 6 /\ j < 7 /\ cell b i j = x.
Proof.
  intros b x H. rewrite in_concat. split.
  - intros [r [H1 H2]]. destruct (In_nth b r [] H1) as [i [Hi E]]. destruct (In_nth r x 0 H2) as [j [Hj E2]]. exists i, j.
    destruct H as [Hl HF]. rewrite Hl in Hi. rewrite Forall_forall in HF. rewrite (HF r H1) in Hj. unfold cell. rewrite E. auto.
  - intros [i [j [Hi [Hj E]]]]. exists (nth i b []). pose proof (row_length H Hi). destruct H as [Hl HF]. split; [apply nth_In; lia|].
    subst x. unfold cell. apply nth_In. lia.
Qed.

Lemma count_split : forall l, (forall x, In x l -> x <= 2) ->
  count_occ Nat.eq_dec l 0 + count_occ Nat.eq_dec l 1 + count_occ Nat.eq_dec l 2 = length l.
Proof.
  induction l as [|x l IH]; intros H; auto. cbn [count_occ length]. specialize (IH ltac:(intros; apply H; now right)).
  assert (x <= 2) by (apply H; now left). destruct x as [|[|[|x]]]; cbn; try lia.
Qed.

Lemma tokens_total : forall b, shaped b -> (forall i j, cell b i j <= 2) -> tokens b 0 + tokens b 1 + tokens b 2 = 42.
Proof.
  intros b H Hc. unfold tokens. rewrite count_split; [now apply concat_length_shaped|].
  intros x Hx. apply In_concat_cell in Hx; auto. destruct Hx as [i [j [_ [_ <-]]]]. apply Hc.
Qed.

Lemma full_tokens : forall b, shaped b -> full b <-> tokens b 0 = 0.
Proof.
  intros b H. unfold tokens. rewrite <- count_occ_not_In, In_concat_cell by auto. unfold full. split.
  - intros F [i [j [Hi [Hj E]]]]. eapply F; eauto.
  - intros F i j Hi Hj E. apply F. eauto.
Qed.

(** * Available actions *)
Lemma available_spec : forall e, legal e -> available_actions e = filter (fun j => Nat.eqb (cell (e_board e) 0 j) 0) (seq 0 7).
Proof.
  intros e H. unfold available_actions. rewrite (l_len H). apply filter_ext_in. intros j Hj. apply in_seq in Hj.
  rewrite (nth_error_nth' _ 0) by (rewrite (l_len H); lia).
  pose proof (l_levels H) as HL. specialize (HL j 0 ltac:(lia) ltac:(lia)). unfold num_rows.
  destruct (Nat.ltb_spec (nth j (e_levels e) 0) 6), (Nat.eqb_spec (cell (e_board e) 0 j) 0); auto; exfalso.
  - apply n. apply HL. lia.
  - apply HL in e0. lia.
Qed.

Lemma column_top : forall e i j, legal e -> i < 6 -> j < 7 -> cell (e_board e) 0 j <> 0 -> cell (e_board e) i j <> 0.
Proof.
  intros e i j H Hi Hj H0. induction i as [|i IH]; auto. pose proof (l_gap H) as HG. replace (S i) with (i + 1) by lia.
  apply HG; [lia|lia|]. apply IH. lia.
Qed.

Lemma full_available : forall e, legal e -> full (e_board e) <-> available_actions e = [].
Proof.
  intros e H. rewrite available_spec by auto. split.
  - intros F. destruct (filter _ _) as [|x l] eqn:E; auto. exfalso.
    assert (In x (x :: l)) as HI by now left. rewrite <- E in HI. apply filter_In in HI. destruct HI as [H1 H2].
    apply in_seq in H1. apply Nat.eqb_eq in H2. apply (F 0 x); lia.
  - intros E i j Hi Hj. apply column_top; auto. intros H0.
    assert (HI : In j []) by (rewrite <- E; apply filter_In; split; [apply in_seq; lia|now apply Nat.eqb_eq]). destruct HI.
Qed.

(** * Four in a row *)
Lemma dot_mono : forall f s, length s = length f -> (forall x, In x f -> x <= 1) -> dot f s <= list_sum f.
Proof.
  induction f as [|x f IH]; intros [|b s] H Hf; try discriminate; cbn; auto.
  specialize (IH s ltac:(cbn in H; lia) ltac:(intros; apply Hf; now right)). unfold list_sum in *. destruct b; cbn; lia.
Qed.

Lemma dot_full : forall f s, length s = length f -> (forall x, In x f -> x <= 1) ->
  dot f s = list_sum f <-> forall k, k < length f -> nth k f 0 = 1 -> nth k s false = true.
Proof.
  induction f as [|x f IH]; intros [|b s] H Hf; try discriminate.
  - cbn. split; auto. intros; lia.
  - assert (Hs : length s = length f) by (cbn in H; lia). assert (Hf' : forall x, In x f -> x <= 1) by (intros; apply Hf; now right).
    specialize (IH s Hs Hf'). pose proof (@dot_mono f s Hs Hf') as HM. assert (Hx : x <= 1) by (apply Hf; now left).
    change (list_sum (x :: f)) with (x + list_sum f); cbn [dot]. split.
    + intros E [|k] Hk Hn.
      * cbn in *. subst x. destruct b; auto; cbn in E; lia.
      * cbn in *. apply IH; try lia. destruct b; cbn in E; destruct x as [|[|x]]; cbn in E; lia.
    + intros A. assert (D : dot f s = list_sum f) by (apply IH; intros k Hk Hn; apply (A (S k)); cbn; auto; lia).
      rewrite D. destruct x as [|[|x]]; cbn; try lia. specialize (A 0 ltac:(cbn; lia) eq_refl). cbn in A. subst b. cbn. lia.
Qed.

Lemma slice_nth : forall A (l : list A) i k d, k < 4 -> nth k (slice i (i + 4) l) d = nth (i + k) l d.
Proof.
  intros A l i k d Hk. unfold slice. replace (i + 4 - i) with 4 by lia.
  assert (E : forall n (m : list A) k, k < n -> nth k (firstn n m) d = nth k m d).
  { clear. induction n as [|n IH]; intros m k Hk; [lia|]. destruct m as [|x m], k as [|k]; cbn; auto. apply IH. lia. }
  rewrite E by auto. clear. revert l. induction i as [|i IH]; intros l; cbn; auto. destruct l as [|x l]; cbn; auto. destruct k; auto.
Qed.

Lemma slice_length : forall A (l : list A) i, i + 4 <= length l -> length (slice i (i + 4) l) = 4.
Proof. intros A l i H. unfold slice. rewrite firstn_length, skipn_length. lia. Qed.

(** Flattening a matrix with rows of length 4. *)
Lemma concat_nth4 : forall A (m : list (list A)) r c d, Forall (fun x => length x = 4) m -> c < 4 -> nth (4 * r + c) (concat m) d = nth c (nth r m []) d.
Proof.
  intros A m. induction m as [|x m IH]; intros r c d H Hc; cbn [concat].
  - destruct (4 * r + c), r, c; reflexivity.
  - inversion H; subst. destruct r as [|r].
    + cbn [Nat.mul Nat.add nth]. rewrite app_nth1 by lia. reflexivity.
    + rewrite app_nth2 by lia. rewrite H2. replace (4 * S r + c - 4) with (4 * r + c) by lia. rewrite IH by auto. reflexivity.
Qed.

Definition window (b : board) (p i0 j0 : nat) : list (list bool) :=
  map (slice j0 (j0 + 4)) (slice i0 (i0 + 4) (map (map (fun x => Nat.eqb x p)) b)).

Lemma window_cell : forall b p i0 j0 r c, shaped b -> i0 <= 2 -> j0 <= 3 -> r < 4 -> c < 4 ->
  nth c (nth r (window b p i0 j0) []) false = Nat.eqb (cell b (i0 + r) (j0 + c)) p.
Proof.
  intros b p i0 j0 r c H Hi Hj Hr Hc. unfold window. change (@nil bool) with (slice j0 (j0 + 4) (@nil bool)) at 1 || idtac.
  assert (L : length (slice i0 (i0 + 4) (map (map (fun x => Nat.eqb x p)) b)) = 4) by (apply slice_length; rewrite map_length; destruct H; lia).
  rewrite (nth_indep _ _ (slice j0 (j0 + 4) [])) by (rewrite map_length; lia). rewrite map_nth.
  rewrite slice_nth by auto. rewrite slice_nth by auto.
  rewrite (nth_indep _ _ (map (fun x => Nat.eqb x p) [])) by (rewrite map_length; destruct H; lia). rewrite map_nth.
  pose proof (@row_length b (i0 + r) H ltac:(lia)) as HR.
  rewrite (nth_indep _ _ (Nat.eqb 0 p)) by (rewrite map_length; lia). rewrite (map_nth (fun x => Nat.eqb x p)). reflexivity.
Qed.

Lemma window_shape : forall b p i0 j0, shaped b -> i0 <= 2 -> j0 <= 3 ->
  length (window b p i0 j0) = 4 /\ Forall (fun x => length x = 4) (window b p i0 j0).
Proof.
  intros b p i0 j0 H Hi Hj. unfold window. split.
  - rewrite map_length. apply slice_length. rewrite map_length. destruct H. lia.
  - rewrite Forall_map. apply Forall_forall. intros x Hx. apply slice_length.
    unfold slice in Hx. replace (i0 + 4 - i0) with 4 in Hx by lia.
    assert (In x (map (map (fun x => Nat.eqb x p)) b)) as HI.
    { assert (S1 : forall A (l : list A) n y, In y (firstn n l) -> In y l) by (intros A l n y Hy; rewrite <- (firstn_skipn n l); apply in_or_app; auto).
      assert (S2 : forall A (l : list A) n y, In y (skipn n l) -> In y l) by (intros A l n y Hy; rewrite <- (firstn_skipn n l); apply in_or_app; auto).
      apply S1 in Hx. apply S2 in Hx. exact Hx. }
    apply in_map_iff in HI. destruct HI as [r [<- HI]]. rewrite map_length. destruct H as [_ H]. rewrite Forall_forall in H. rewrite (H r HI). lia.
Qed.

(** A filter as the list of its ones. *)
Definition ones (f : list (list nat)) : list (nat * nat) :=
  filter (fun rc => Nat.eqb (nth (snd rc) (nth (fst rc) f []) 0) 1) (list_prod (seq 0 4) (seq 0 4)).

Definition good_filter (f : list (list nat)) : bool :=
  Nat.eqb (length f) 4 && forallb (fun r => Nat.eqb (length r) 4 && forallb (fun x => Nat.leb x 1) r) f && Nat.eqb (list_sum (concat f)) 4.

Lemma concat_len4 : forall A (m : list (list A)), length m = 4 -> Forall (fun x => length x = 4) m -> length (concat m) = 16.
Proof.
  intros A m L F. destruct m as [|a [|b [|c [|d [|]]]]]; try discriminate. inversion F as [|? ? A1 F1]; inversion F1 as [|? ? A2 F2]; inversion F2 as [|? ? A3 F3]; inversion F3 as [|? ? A4 F4]; subst.
  cbn. rewrite !app_length. cbn. lia.
Qed.

Lemma tensordot_ones : forall f b p i0 j0, good_filter f = true -> shaped b -> i0 <= 2 -> j0 <= 3 ->
  tensordot f (window b p i0 j0) = 4 <-> forall r c, In (r, c) (ones f) -> cell b (i0 + r) (j0 + c) = p.
Proof.
  intros f b p i0 j0 G H Hi Hj. unfold good_filter in G. rewrite !andb_true_iff in G. destruct G as [[G1 G2] G3].
  apply Nat.eqb_eq in G1. apply Nat.eqb_eq in G3. rewrite forallb_forall in G2.
  assert (F4 : Forall (fun x => length x = 4) f).
  { apply Forall_forall. intros r Hr. specialize (G2 r Hr). apply andb_true_iff in G2. now apply Nat.eqb_eq. }
  assert (Fle : forall x, In x (concat f) -> x <= 1).
  { intros x Hx. apply in_concat in Hx. destruct Hx as [r [Hr Hx]]. specialize (G2 r Hr). apply andb_true_iff in G2. destruct G2 as [_ G2].
    rewrite forallb_forall in G2. specialize (G2 x Hx). now apply Nat.leb_le. }
  destruct (@window_shape b p i0 j0 H Hi Hj) as [W1 W2].
  pose proof (concat_len4 G1 F4) as LF. pose proof (concat_len4 W1 W2) as LW.
  unfold tensordot. rewrite <- G3 at 1. rewrite dot_full by (auto; congruence). split.
  - intros A r c HI. unfold ones in HI. apply filter_In in HI. destruct HI as [HI HE]. apply in_prod_iff in HI. destruct HI as [Hr Hc].
    apply in_seq in Hr. apply in_seq in Hc. cbn [fst snd] in HE. apply Nat.eqb_eq in HE.
    specialize (A (4 * r + c) ltac:(lia)). rewrite concat_nth4 in A by (auto; lia). rewrite concat_nth4 in A by (auto; lia).
    specialize (A HE). rewrite window_cell in A by (auto; lia). now apply Nat.eqb_eq.
  - intros A k Hk Hn. rewrite LF in Hk. assert (Ek : k = 4 * (k / 4) + k mod 4) by (apply Nat.div_mod; lia).
    assert (Hr : k / 4 < 4) by (apply Nat.div_lt_upper_bound; lia). assert (Hc : k mod 4 < 4) by (apply Nat.mod_upper_bound; lia).
    rewrite Ek in Hn |- *. rewrite concat_nth4 in Hn |- * by auto. rewrite window_cell by auto. apply Nat.eqb_eq. apply A.
    unfold ones. apply filter_In. split; [apply in_prod_iff; split; apply in_seq; lia|]. cbn [fst snd]. now apply Nat.eqb_eq.
Qed.

(** All lines the code inspects, and all lines of the grid, as lists of grid points. *)
Definition code_lines : list (list (nat * nat)) :=
  flat_map (fun i0 => flat_map (fun j0 => map (fun f => map (fun rc => (i0 + fst rc, j0 + snd rc)) (ones f)) filters) (seq 0 4)) [2; 1; 0].

Definition zline (i j di dj : Z) : list (Z * Z) := map (fun k => (i + k * di, j + k * dj)%Z) [0; 1; 2; 3]%Z.
Definition on_grid (ij : Z * Z) : bool := ((0 <=? fst ij) && (fst ij <? 6) && (0 <=? snd ij) && (snd ij <? 7))%Z.
Definition spec_lines : list (list (Z * Z)) :=
  filter (forallb on_grid) (flat_map (fun i => flat_map (fun j => map (fun d => zline i j (fst d) (snd d)) [(0, 1); (1, 0); (1, 1); (1, -1)]%Z)
    (map Z.of_nat (seq 0 7))) (map Z.of_nat (seq 0 6))).

Lemma four_lines : forall b p, four b p <-> exists l, In l spec_lines /\ forall ij, In ij l -> cell b (Z.to_nat (fst ij)) (Z.to_nat (snd ij)) = p.
Proof.
  intros b p. split.
  - intros (i & j & di & dj & Hd & A). exists (zline i j di dj). pose proof (A 0%Z ltac:(lia)) as [A1 [A2 _]].
    split.
    + unfold spec_lines. apply filter_In. split.
      * apply in_flat_map. exists i. split; [apply in_map_iff; exists (Z.to_nat i); split; [lia|apply in_seq; lia]|].
        apply in_flat_map. exists j. split; [apply in_map_iff; exists (Z.to_nat j); split; [lia|apply in_seq; lia]|].
        apply in_map_iff. exists (di, dj). split; auto.
      * apply forallb_forall. intros ij HI. unfold zline in HI. apply in_map_iff in HI. destruct HI as [k [<- Hk]].
        assert (0 <= k < 4)%Z as HK by (cbn in Hk; lia). specialize (A k HK). destruct A as [B1 [B2 _]]. unfold on_grid. cbn [fst snd].
        rewrite !andb_true_iff, !Z.leb_le, !Z.ltb_lt. lia.
    + intros ij HI. unfold zline in HI. apply in_map_iff in HI. destruct HI as [k [<- Hk]].
      assert (0 <= k < 4)%Z as HK by (cbn in Hk; lia). apply (A k HK).
  - intros [l [HI A]]. unfold spec_lines in HI. apply filter_In in HI. destruct HI as [HI HG]. rewrite forallb_forall in HG.
    apply in_flat_map in HI. destruct HI as [i [_ HI]]. apply in_flat_map in HI. destruct HI as [j [_ HI]]. apply in_map_iff in HI. destruct HI as [[di dj] [E Hd]].
    exists i, j, di, dj. split; [exact Hd|]. intros k Hk. assert (In (i + k * di, j + k * dj)%Z l) as HL.
    { subst l. unfold zline. apply in_map_iff. exists k. split; [reflexivity|]. cbn. lia. }
    specialize (HG _ HL). unfold on_grid in HG. cbn [fst snd] in HG. rewrite !andb_true_iff, !Z.leb_le, !Z.ltb_lt in HG.
    split; [lia|]. split; [lia|]. apply (A _ HL).
Qed.

Definition to_z (ij : nat * nat) : Z * Z := (Z.of_nat (fst ij), Z.of_nat (snd ij)).
Definition to_n (ij : Z * Z) : nat * nat := (Z.to_nat (fst ij), Z.to_nat (snd ij)).
Definition pts_incl (l m : list (nat * nat)) : bool :=
  forallb (fun x => existsb (fun y => Nat.eqb (fst x) (fst y) && Nat.eqb (snd x) (snd y)) m) l.

(** Every inspected line is a line of the grid, and every line of the grid is inspected (by computation). *)
Lemma lines_ok : forallb (fun l => existsb (fun m => pts_incl (map to_n m) l) spec_lines) code_lines = true /\
  forallb (fun m => existsb (fun l => pts_incl l (map to_n m)) code_lines) spec_lines = true /\ forallb good_filter filters = true.
Proof. vm_compute. auto. Qed.

Lemma pts_incl_In : forall l m x, pts_incl l m = true -> In x l -> In x m.
Proof.
  intros l m [i j] H HI. unfold pts_incl in H. rewrite forallb_forall in H. specialize (H _ HI). apply existsb_exists in H.
  destruct H as [[i' j'] [H1 H2]]. cbn in H2. apply andb_true_iff in H2. rewrite !Nat.eqb_eq in H2. destruct H2 as [-> ->]. exact H1.
Qed.

Lemma win_check_lines : forall b p, shaped b ->
  win_check b p = true <-> exists l, In l code_lines /\ forall i j, In (i, j) l -> cell b i j = p.
Proof.
  intros b p H. destruct lines_ok as [_ [_ HG]]. rewrite forallb_forall in HG. unfold win_check. rewrite existsb_exists. split.
  - intros [i0 [Hi W]]. apply existsb_exists in W. destruct W as [j0 [Hj W]]. apply existsb_exists in W. destruct W as [f [Hf W]].
    apply Nat.eqb_eq in W. fold (window b p i0 j0) in W. assert (Hi2 : i0 <= 2) by (cbn in Hi; lia). pose proof Hj as Hj'. apply in_seq in Hj'.
    rewrite tensordot_ones in W by (auto; lia).
    exists (map (fun rc => (i0 + fst rc, j0 + snd rc)) (ones f)). split.
    + unfold code_lines. apply in_flat_map. exists i0. split; auto. apply in_flat_map. exists j0. split; auto. apply in_map_iff. exists f. auto.
    + intros i j HI. apply in_map_iff in HI. destruct HI as [[r c] [E HI]]. injection E as <- <-. now apply W.
  - intros [l [HI A]]. unfold code_lines in HI. apply in_flat_map in HI. destruct HI as [i0 [Hi HI]]. apply in_flat_map in HI. destruct HI as [j0 [Hj HI]].
    apply in_map_iff in HI. destruct HI as [f [E Hf]]. exists i0. split; auto. apply existsb_exists. exists j0. split; auto. apply existsb_exists. exists f. split; auto.
    apply Nat.eqb_eq. fold (window b p i0 j0). assert (Hi2 : i0 <= 2) by (cbn in Hi; lia). pose proof Hj as Hj'. apply in_seq in Hj'.
    apply tensordot_ones; auto; [lia|]. intros r c HI. apply A. subst l. apply in_map_iff. exists (r, c). auto.
Qed.

Lemma win_check_four : forall b p, shaped b -> win_check b p = true <-> four b p.
Proof.
  intros b p H. rewrite win_check_lines, four_lines by auto. destruct lines_ok as [L1 [L2 _]]. rewrite forallb_forall in L1, L2. split.
  - intros [l [HI A]]. specialize (L1 l HI). apply existsb_exists in L1. destruct L1 as [m [Hm Hinc]]. exists m. split; auto.
    intros [i j] Hij. apply A. eapply pts_incl_In; [exact Hinc|]. apply in_map_iff. exists (i, j). auto.
  - intros [m [HI A]]. specialize (L2 m HI). apply existsb_exists in L2. destruct L2 as [l [Hl Hinc]]. exists l. split; auto.
    intros i j Hij. pose proof (@pts_incl_In _ _ _ Hinc Hij) as HM. apply in_map_iff in HM. destruct HM as [ij [E HM]]. specialize (A _ HM).
    unfold to_n in E. injection E as <- <-. exact A.
Qed.
