(** Wasserstein distances on the atoms, the projection, and the fixed point of the projected Bellman equations. *)
From Coq Require Import List ZArith Lia Bool Arith Reals Lra.
From Verif Require Import PyCommon UtilsModel UtilsSpec UtilsProofs2 UtilsProofs3 DistModel DistSpec DistProofs DistProofs2 DistProofs3 LossModel MiscProofs TDModel TDSpec CoreModel LearnModel LearnProofs5 MbProofs4 CatModel CatSpec.
Import ListNotations.
Set Implicit Arguments.
Local Open Scope R_scope.

Lemma Rabs_le_iff : forall x c, - c <= x -> x <= c -> Rabs x <= c.
Proof. intros x c A B. unfold Rabs. destruct (Rcase_abs x); lra. Qed.

Lemma INR_to_nat : forall i, (0 <= i)%Z -> INR (Z.to_nat i) = IZR i.
Proof. intros i H. now rewrite INR_IZR_INZ, Z2Nat.id. Qed.

Section Atoms.
Variables (K : nat) (lo hi : R).
Hypotheses (HK : (2 <= K)%nat) (Hlh : lo < hi).
Notation z := (atom K lo hi).
Notation dz := ((hi - lo) / INR K).
Definition lip (h : nat -> R) : Prop := forall i j, (i < K)%nat -> (j < K)%nat -> Rabs (h i - h j) <= Rabs (z i - z j).
Definition lipc (c : R) (h : nat -> R) : Prop := forall i j, (i < K)%nat -> (j < K)%nat -> Rabs (h i - h j) <= c * Rabs (z i - z j).
Notation near := (near K lo hi).
Notation ev := (ev K).
Notation is_dist := (is_dist K).

Lemma Dz : 0 < dz. Proof. assert (0 < INR K) by (apply lt_0_INR; lia). apply Rdiv_lt_0_compat; lra. Qed.
Lemma zk : forall k, z k = z 0%nat + dz * INR k. Proof. intros k. assert (0 < INR K) by (apply lt_0_INR; lia). unfold atom. change (INR 0) with 0. field. lra. Qed.
Lemma z_diff : forall i j, z i - z j = dz * (INR i - INR j). Proof. intros i j. rewrite (zk i), (zk j). ring. Qed.
Lemma z_span : forall i j, (i < K)%nat -> (j < K)%nat -> Rabs (z i - z j) <= hi - lo.
Proof.
  intros i j Hi Hj. rewrite z_diff. pose proof Dz. rewrite Rabs_mult, (Rabs_right dz) by lra. apply Rle_trans with (dz * INR K).
  - apply Rmult_le_compat_l; [lra|]. pose proof (pos_INR i). pose proof (pos_INR j). apply lt_INR in Hi, Hj. apply Rabs_le_iff; lra.
  - right. field. assert (0 < INR K) by (apply lt_0_INR; lia). lra.
Qed.
Lemma z_sep : forall i j, i <> j -> dz <= Rabs (z i - z j).
Proof.
  intros i j N. rewrite z_diff. pose proof Dz. rewrite Rabs_mult, (Rabs_right dz) by lra. rewrite <- (Rmult_1_r dz) at 1. apply Rmult_le_compat_l; [lra|].
  destruct (Nat.lt_total i j) as [L|[E|L]]; [|congruence|]; apply le_INR in L; rewrite S_INR in L; unfold Rabs; destruct (Rcase_abs _); lra.
Qed.
Lemma ev_ext : forall p h h', (forall k, (k < K)%nat -> h k = h' k) -> ev p h = ev p h'.
Proof. intros p h h' E. apply total_ext. intros k Hk. apply in_seq in Hk. rewrite E by lia. auto. Qed.
Lemma ev_ext_l : forall p p' h, (forall k, (k < K)%nat -> p k = p' k) -> ev p h = ev p' h.
Proof. intros p h h' E. apply total_ext. intros k Hk. apply in_seq in Hk. rewrite E by lia. auto. Qed.
Lemma ev_scal : forall p h c, ev p (fun k => c * h k) = c * ev p h.
Proof. intros p h c. unfold CatSpec.ev. rewrite <- total_scal. apply total_ext. intros. ring. Qed.
Lemma ev_minus : forall p h h', ev p (fun k => h k - h' k) = ev p h - ev p h'.
Proof. intros p h c. unfold CatSpec.ev. rewrite <- total_minus. apply total_ext. intros. ring. Qed.
Lemma ev_const : forall p c, is_dist p -> ev p (fun _ => c) = c.
Proof. intros p c [_ P]. unfold CatSpec.ev. rewrite (@total_ext _ _ (fun k => c * p k)) by (intros; ring). rewrite total_scal. unfold CatSpec.is_dist in P. rewrite P. ring. Qed.
Lemma ev_shift : forall p h c, is_dist p -> ev p (fun k => h k - c) = ev p h - c.
Proof. intros p h c P. rewrite (ev_minus p h (fun _ => c)), ev_const; auto. Qed.
Lemma ev_le : forall p h h', is_dist p -> (forall k, (k < K)%nat -> h k <= h' k) -> ev p h <= ev p h'.
Proof. intros p h h' [P _] E. apply total_le. intros k Hk. apply in_seq in Hk. apply Rmult_le_compat_l; [apply P; lia|apply E; lia]. Qed.
Lemma ev_pick : forall p k, (k < K)%nat -> ev p (fun j => if Nat.eqb j k then 1 else 0) = p k.
Proof. intros p k Hk. unfold CatSpec.ev. rewrite (@total_pick (fun j => p j * (if Nat.eqb j k then 1 else 0)) K k Hk); [rewrite Nat.eqb_refl; ring|]. intros j Hj. destruct (Nat.eqb_spec j k); [congruence|ring]. Qed.
Lemma ev_sub : forall p q h, ev p h - ev q h = total (map (fun k => (p k - q k) * h k) (seq 0 K)).
Proof. intros p q h. unfold CatSpec.ev. rewrite <- total_minus. apply total_ext. intros. ring. Qed.
Lemma dist_le1 : forall p k, is_dist p -> (k < K)%nat -> p k <= 1.
Proof.
  intros p k [P T] Hk. rewrite <- T. assert (E := @total_pick (fun j => if Nat.eqb j k then p k else 0) K k Hk). cbv beta in E. rewrite Nat.eqb_refl in E. rewrite <- E by (intros j Hj; destruct (Nat.eqb_spec j k); congruence).
  apply total_le. intros j Hj. apply in_seq in Hj. destruct (Nat.eqb_spec j k) as [->|]; [lra|apply P; lia].
Qed.

(** * near *)
Lemma near_sym : forall D p q, near D p q -> near D q p.
Proof. intros D p q H h Hh. rewrite Rabs_minus_sym. now apply H. Qed.
Lemma near_refl : forall D p, 0 <= D -> near D p p.
Proof. intros D p H h Hh. rewrite Rminus_eq_0, Rabs_R0. auto. Qed.
Lemma near_mono : forall D D' p q, D <= D' -> near D p q -> near D' p q.
Proof. intros D D' p q HD H h Hh. eapply Rle_trans; [now apply H|auto]. Qed.
Lemma near_trans : forall D D' p q r, near D p q -> near D' q r -> near (D + D') p r.
Proof. intros D D' p q r H1 H2 h Hh. replace (ev p h - ev r h) with ((ev p h - ev q h) + (ev q h - ev r h)) by ring. eapply Rle_trans; [apply Rabs_triang|]. apply Rplus_le_compat; [now apply H1|now apply H2]. Qed.
Lemma near_ext : forall D p q p' q', (forall k, (k < K)%nat -> p k = p' k) -> (forall k, (k < K)%nat -> q k = q' k) -> near D p q -> near D p' q'.
Proof. intros D p q p' q' E1 E2 H h Hh. rewrite <- (@ev_ext_l p p' h E1), <- (@ev_ext_l q q' h E2). now apply H. Qed.
Lemma near_lipc : forall D p q c h, 0 <= c -> near D p q -> is_dist p -> is_dist q -> lipc c h -> Rabs (ev p h - ev q h) <= c * D.
Proof.
  intros D p q c h Hc H P Q Hh. destruct (Req_dec c 0) as [->|N].
  - assert (E : forall k, (k < K)%nat -> h k = h 0%nat). { intros k Hk. assert (X := Hh k 0%nat Hk ltac:(lia)). rewrite Rmult_0_l in X. pose proof (Rabs_pos (h k - h 0%nat)) as Y. assert (Z0 : Rabs (h k - h 0%nat) = 0) by lra. destruct (Req_dec (h k - h 0%nat) 0) as [E|E]; [lra|]. apply Rabs_no_R0 in E. contradiction. }
    rewrite (@ev_ext p h (fun _ => h 0%nat) E), (@ev_ext q h (fun _ => h 0%nat) E), !ev_const by auto. rewrite Rminus_eq_0, Rabs_R0. lra.
  - assert (L : lip (fun k => / c * h k)).
    { intros i j Hi Hj. rewrite <- Rmult_minus_distr_l, Rabs_mult, (Rabs_right (/ c)) by (apply Rle_ge; left; apply Rinv_0_lt_compat; lra). apply (Rmult_le_reg_l c); [lra|]. rewrite <- Rmult_assoc, Rinv_r, Rmult_1_l by lra. now apply Hh. }
    specialize (H _ L). rewrite !ev_scal, <- Rmult_minus_distr_l, Rabs_mult, (Rabs_right (/ c)) in H by (apply Rle_ge; left; apply Rinv_0_lt_compat; lra). apply (Rmult_le_compat_l c) in H; [|lra]. rewrite <- Rmult_assoc, Rinv_r, Rmult_1_l in H by lra. auto.
Qed.
Lemma near_entry : forall D p q k, near D p q -> (k < K)%nat -> Rabs (p k - q k) <= D / dz.
Proof.
  intros D p q k H Hk. pose proof Dz as HD. assert (L : lip (fun j => dz * (if Nat.eqb j k then 1 else 0))).
  { intros i j Hi Hj. destruct (Nat.eqb_spec i k) as [->|Ni], (Nat.eqb_spec j k) as [->|Nj]; try (rewrite Rminus_eq_0, Rabs_R0; apply Rabs_pos).
    - replace (dz * 1 - dz * 0) with dz by ring. rewrite Rabs_right by lra. apply z_sep. auto.
    - replace (dz * 0 - dz * 1) with (- dz) by ring. rewrite Rabs_Ropp, Rabs_right by lra. apply z_sep. auto. }
  specialize (H _ L). rewrite !ev_scal, !ev_pick, <- Rmult_minus_distr_l, Rabs_mult, (Rabs_right dz) in H by (auto; lra). apply (Rmult_le_reg_l dz); auto. replace (dz * (D / dz)) with D by (field; split; [|lra]; assert (0 < INR K) by (apply lt_0_INR; lia); lra). auto.
Qed.
Lemma near_one_sided : forall D p q, (forall h, lip h -> ev p h - ev q h <= D) -> near D p q.
Proof.
  intros D p q H h Hh. assert (A := H h Hh). assert (B : ev p (fun k => - 1 * h k) - ev q (fun k => - 1 * h k) <= D).
  { apply H. intros i j Hi Hj. replace (- 1 * h i - - 1 * h j) with (- (h i - h j)) by ring. rewrite Rabs_Ropp. now apply Hh. }
  rewrite !ev_scal in B. apply Rabs_le_iff; lra.
Qed.
Lemma lip_base : forall h k, lip h -> (k < K)%nat -> 0 <= h k - (h 0%nat - (hi - lo)) <= 2 * (hi - lo).
Proof. intros h k Hh Hk. assert (A := Hh k 0%nat Hk ltac:(lia)). assert (B := @z_span k 0 Hk ltac:(lia)). unfold Rabs in A at 1. destruct (Rcase_abs _); lra. Qed.
Lemma near_upper : forall p q e, is_dist p -> is_dist q -> 0 <= e -> (forall k, (k < K)%nat -> p k <= q k + e) -> near (2 * INR K * e * (hi - lo)) p q.
Proof.
  intros p q e P Q He H. apply near_one_sided. intros h Hh. set (c := h 0%nat - (hi - lo)). replace (ev p h - ev q h) with (ev p (fun k => h k - c) - ev q (fun k => h k - c)) by (rewrite !ev_shift; auto; ring).
  rewrite ev_sub. apply Rle_trans with (total (map (fun _ : nat => e * (2 * (hi - lo))) (seq 0 K))); [|rewrite total_const, seq_length; right; ring]. apply total_le. intros k Hk. apply in_seq in Hk. destruct (@lip_base h k Hh ltac:(lia)) as [A B]. fold c in A, B. specialize (H k ltac:(lia)).
  apply Rle_trans with (e * (h k - c)); [apply Rmult_le_compat_r; lra|apply Rmult_le_compat_l; auto].
Qed.
Lemma near_diam : forall p q, is_dist p -> is_dist q -> near (2 * (hi - lo)) p q.
Proof.
  intros p q P Q. apply near_one_sided. intros h Hh. set (c := h 0%nat - (hi - lo)). replace (ev p h - ev q h) with (ev p (fun k => h k - c) - ev q (fun k => h k - c)) by (rewrite !ev_shift; auto; ring).
  assert (A : ev p (fun k => h k - c) <= ev p (fun _ => 2 * (hi - lo))) by (apply ev_le; auto; intros k Hk; apply (@lip_base h k Hh Hk)). assert (B : ev q (fun _ => 0) <= ev q (fun k => h k - c)) by (apply ev_le; auto; intros k Hk; apply (@lip_base h k Hh Hk)).
  rewrite ev_const in A, B by auto. lra.
Qed.
Lemma near_zero : forall p q, near 0 p q -> forall k, (k < K)%nat -> p k = q k.
Proof. intros p q H k Hk. assert (E := near_entry H Hk). unfold Rdiv in E. rewrite Rmult_0_l in E. destruct (Req_dec (p k - q k) 0) as [C|C]; [lra|]. apply Rabs_pos_lt in C. lra. Qed.
Lemma near_lim : forall D p q, (forall e, 0 < e -> near (D + e) p q) -> near D p q.
Proof. intros D p q H h Hh. destruct (Rle_dec (Rabs (ev p h - ev q h)) D) as [C|C]; auto. specialize (H ((Rabs (ev p h - ev q h) - D) / 2) ltac:(lra) h Hh). lra. Qed.
Lemma lip_atoms : lip z. Proof. intros i j _ _. lra. Qed.
Lemma near_value : forall D p q, near D p q -> Rabs (ev p z - ev q z) <= D. Proof. intros D p q H. apply H, lip_atoms. Qed.

(** * The interpolation is Lipschitz *)
Lemma interp_floor : forall h b, lip h -> 0 <= b <= INR (K - 1) -> Rabs (interp h b - h (Z.to_nat (floor b))) <= dz * (b - IZR (floor b)).
Proof.
  intros h b Hh Hb. destruct (floor_range _ Hb) as [F C]. pose proof (floor_spec b) as FS. pose proof Dz as HD. unfold interp. destruct (floor_ceil b) as [[E1 E2]|E].
  - rewrite E1, Z.eqb_refl, <- E2. match goal with |- Rabs ?x <= _ => replace x with 0 by ring end. rewrite Rabs_R0. lra.
  - rewrite E. destruct (Z.eqb_spec (floor b) (floor b + 1)); [lia|]. rewrite plus_IZR. set (f := floor b) in *. match goal with |- Rabs ?x <= _ => replace x with ((b - IZR f) * (h (Z.to_nat (f + 1)) - h (Z.to_nat f))) by ring end.
    rewrite Rabs_mult, (Rabs_right (b - IZR f)), Rmult_comm by lra. apply Rmult_le_compat_r; [lra|]. eapply Rle_trans; [apply Hh; lia|]. rewrite z_diff, !INR_to_nat, plus_IZR by lia. replace (IZR f + 1 - IZR f) with 1 by ring. rewrite Rmult_1_r, Rabs_right; lra.
Qed.
Lemma interp_ceil : forall h b, lip h -> 0 <= b <= INR (K - 1) -> Rabs (interp h b - h (Z.to_nat (ceil b))) <= dz * (IZR (ceil b) - b).
Proof.
  intros h b Hh Hb. destruct (floor_range _ Hb) as [F C]. pose proof (floor_spec b) as FS. pose proof Dz as HD. unfold interp. destruct (floor_ceil b) as [[E1 E2]|E].
  - rewrite E1, Z.eqb_refl, <- E2. match goal with |- Rabs ?x <= _ => replace x with 0 by ring end. rewrite Rabs_R0. lra.
  - rewrite E. destruct (Z.eqb_spec (floor b) (floor b + 1)); [lia|]. rewrite plus_IZR. set (f := floor b) in *. match goal with |- Rabs ?x <= _ => replace x with ((IZR f + 1 - b) * (h (Z.to_nat f) - h (Z.to_nat (f + 1)))) by ring end.
    rewrite Rabs_mult, (Rabs_right (IZR f + 1 - b)), Rmult_comm by lra. apply Rmult_le_compat_r; [lra|]. eapply Rle_trans; [apply Hh; lia|]. rewrite Rabs_minus_sym, z_diff, !INR_to_nat, plus_IZR by lia. replace (IZR f + 1 - IZR f) with 1 by ring. rewrite Rmult_1_r, Rabs_right; lra.
Qed.
Lemma interp_lip_le : forall h b b', lip h -> 0 <= b -> b <= b' -> b' <= INR (K - 1) -> Rabs (interp h b - interp h b') <= dz * (b' - b).
Proof.
  intros h b b' Hh H0 H1 H2. assert (Hb : 0 <= b <= INR (K - 1)) by lra. assert (Hb' : 0 <= b' <= INR (K - 1)) by lra. pose proof Dz as HD. pose proof (floor_spec b) as FS. pose proof (floor_spec b') as FS'. pose proof (ceil_spec b) as CS.
  destruct (floor_range _ Hb) as [F C]. destruct (floor_range _ Hb') as [F' C']. destruct (Z_le_gt_dec (ceil b) (floor b')) as [L|G].
  - assert (A := interp_ceil Hh Hb). assert (B := interp_floor Hh Hb'). assert (M : Rabs (h (Z.to_nat (ceil b)) - h (Z.to_nat (floor b'))) <= dz * (IZR (floor b') - IZR (ceil b))).
    { eapply Rle_trans; [apply Hh; lia|]. rewrite Rabs_minus_sym, z_diff, !INR_to_nat by lia. apply IZR_le in L. rewrite Rabs_right; [lra|]. apply Rle_ge, Rmult_le_pos; lra. }
    replace (interp h b - interp h b') with ((interp h b - h (Z.to_nat (ceil b))) + ((h (Z.to_nat (ceil b)) - h (Z.to_nat (floor b'))) + - (interp h b' - h (Z.to_nat (floor b'))))) by ring. eapply Rle_trans; [apply Rabs_triang|]. eapply Rle_trans; [apply Rplus_le_compat_l, Rabs_triang|]. rewrite Rabs_Ropp. lra.
  - assert (FL : IZR (floor b) < IZR (floor b' + 1)) by (rewrite plus_IZR; lra). apply lt_IZR in FL. destruct (floor_ceil b) as [[E1 E2]|E]; [lia|]. assert (FE : floor b' = floor b) by lia. destruct (floor_ceil b') as [[E1' E2']|E'].
    + rewrite FE in E2'. assert (BB : b = b') by lra. rewrite BB, Rminus_eq_0, Rabs_R0. lra.
    + unfold interp. rewrite E, E', FE. destruct (Z.eqb_spec (floor b) (floor b + 1)); [lia|]. rewrite !plus_IZR. set (f := floor b) in *. match goal with |- Rabs ?x <= _ => replace x with ((b' - b) * (h (Z.to_nat f) - h (Z.to_nat (f + 1)))) by ring end.
      rewrite Rabs_mult, (Rabs_right (b' - b)), Rmult_comm by lra. apply Rmult_le_compat_r; [lra|]. eapply Rle_trans; [apply Hh; lia|]. rewrite Rabs_minus_sym, z_diff, !INR_to_nat, plus_IZR by lia. replace (IZR f + 1 - IZR f) with 1 by ring. rewrite Rmult_1_r, Rabs_right; lra.
Qed.
Lemma interp_lip : forall h b b', lip h -> 0 <= b <= INR (K - 1) -> 0 <= b' <= INR (K - 1) -> Rabs (interp h b - interp h b') <= dz * Rabs (b - b').
Proof.
  intros h b b' Hh Hb Hb'. destruct (Rle_dec b b') as [L|L].
  - rewrite (Rabs_minus_sym b b'), (Rabs_right (b' - b)) by lra. apply interp_lip_le; lra || auto.
  - rewrite Rabs_minus_sym, (Rabs_right (b - b')) by lra. apply interp_lip_le; lra || auto.
Qed.

(** * The projection *)
Notation proj := (proj K lo hi).
Definition tz (r g : R) (j : nat) : R := Rmin (Rmax (g * z j + r) (z 0%nat)) (z (K - 1)%nat).
Lemma proj_masses : forall r g p k, (k < K)%nat -> proj r g p k = nth k (di_masses K lo hi (fun x => x) (fun x => x) g r (map p (seq 0 K))) 0.
Proof.
  intros r g p k Hk. rewrite (@DistProofs3.masses_hat K lo hi (fun x => x) (fun x => x) g r (map p (seq 0 K)) HK Hlh) by (auto; rewrite map_length, seq_length; auto).
  unfold CatSpec.proj, CatSpec.ev. apply total_ext. intros j Hj. apply in_seq in Hj. rewrite (nth_indep _ 0 (p 0%nat)) by (rewrite map_length, seq_length; lia). rewrite map_nth, seq_nth by lia. reflexivity.
Qed.
Lemma proj_ev : forall r g p h, ev (proj r g p) h = ev p (fun j => interp h (di_b K lo hi (tz r g j))).
Proof.
  intros r g p h. assert (LM : length (map p (seq 0 K)) = K) by (now rewrite map_length, seq_length). destruct (@DistProofs3.masses_expect K lo hi (fun x => x) (fun x => x) g r (map p (seq 0 K)) HK Hlh LM h) as [L E].
  unfold expect in E. rewrite L in E. unfold CatSpec.ev. rewrite (@total_ext _ (fun k => proj r g p k * h k) (fun k => nth k (di_masses K lo hi (fun x => x) (fun x => x) g r (map p (seq 0 K))) 0 * h k)) by (intros k Hk; apply in_seq in Hk; rewrite proj_masses by lia; reflexivity).
  rewrite E. apply total_ext. intros j Hj. apply in_seq in Hj. rewrite (nth_indep _ 0 (p 0%nat)) by (rewrite map_length, seq_length; lia). rewrite map_nth, seq_nth by lia. reflexivity.
Qed.
Lemma tz_range : forall r g j, 0 <= di_b K lo hi (tz r g j) <= INR (K - 1).
Proof. intros r g j. apply (@DistProofs3.b_range K lo hi (fun x => x) (fun x => x) g r (repeat 0 K) HK Hlh (repeat_length 0 K)). Qed.
Lemma proj_dist : forall r g p, is_dist p -> is_dist (proj r g p).
Proof.
  intros r g p P. split.
  - intros k Hk. unfold CatSpec.proj. apply Rle_trans with (ev p (fun _ => 0)); [rewrite ev_const by auto; lra|]. apply ev_le; auto. intros j Hj. apply Rmax_l.
  - assert (E := proj_ev r g p (fun _ => 1)). rewrite (@ev_ext p _ (fun _ => 1)) in E by (intros; apply interp_const). rewrite (@ev_const p 1 P) in E. rewrite <- E. apply total_ext. intros. ring.
Qed.
Lemma proj_mean : forall r g p, ev (proj r g p) z = ev p (tz r g).
Proof.
  intros r g p. rewrite proj_ev. apply ev_ext. intros j Hj. rewrite (@interp_ext z (fun k => z 0%nat + dz * INR k) (K - 1)) by (try apply tz_range; intros; apply zk). rewrite (@interp_affine _ _ _ (K - 1)) by apply tz_range. rewrite (@DistProofs3.b_spec K lo hi (repeat 0 K) HK (repeat_length 0 K)). pose proof Dz. field.
  assert (0 < INR K) by (apply lt_0_INR; lia). split; lra.
Qed.
Lemma z_mono : forall i j, (i <= j)%nat -> z i <= z j.
Proof. intros i j H. pose proof (z_diff j i) as E. pose proof Dz. apply le_INR in H. nra. Qed.
Lemma tz_fits : forall r g j, 0 <= g -> (j < K)%nat -> z 0%nat <= g * z 0%nat + r -> g * z (K - 1)%nat + r <= z (K - 1)%nat -> tz r g j = g * z j + r.
Proof. intros r g j Hg Hj A B. assert (M1 := @z_mono 0 j ltac:(lia)). assert (M2 := @z_mono j (K - 1) ltac:(lia)). unfold tz. rewrite Rmax_left by nra. apply Rmin_left. nra. Qed.
Lemma proj_mean_fits : forall r g p, is_dist p -> 0 <= g -> z 0%nat <= g * z 0%nat + r -> g * z (K - 1)%nat + r <= z (K - 1)%nat -> ev (proj r g p) z = r + g * ev p z.
Proof. intros r g p P Hg A B. rewrite proj_mean. rewrite (@ev_ext p (tz r g) (fun k => g * z k - - r)) by (intros; rewrite tz_fits by auto; ring). rewrite ev_shift by auto. rewrite ev_scal. ring. Qed.
Lemma proj_near : forall D r g p q, 0 <= g -> is_dist p -> is_dist q -> near D p q -> near (g * D) (proj r g p) (proj r g q).
Proof.
  intros D r g p q Hg P Q H h Hh. rewrite !proj_ev. apply near_lipc; auto. intros i j Hi Hj. eapply Rle_trans; [apply interp_lip; auto using tz_range|]. rewrite !(@DistProofs3.b_spec K lo hi (repeat 0 K) HK (repeat_length 0 K)). pose proof Dz as HD.
  replace ((tz r g i - z 0%nat) / dz - (tz r g j - z 0%nat) / dz) with ((tz r g i - tz r g j) * / dz) by (field; assert (0 < INR K) by (apply lt_0_INR; lia); split; lra).
  rewrite Rabs_mult, (Rabs_right (/ dz)) by (apply Rle_ge; left; now apply Rinv_0_lt_compat). rewrite (Rmult_comm _ (/ dz)), <- Rmult_assoc, Rinv_r, Rmult_1_l by lra.
  eapply Rle_trans; [apply (@clip_nonexpansive (g * z i + r) (g * z j + r) (z 0%nat) (z (K - 1)%nat))|]. right. replace (g * z i + r - (g * z j + r)) with (g * (z i - z j)) by ring. rewrite Rabs_mult, (Rabs_right g); auto. lra.
Qed.

(** * Means over rows *)
Section Rows.
Variable rows : list row.
Lemma pair_count : forall s a, (exists x, In x rows /\ w_s x = s /\ w_a x = a) -> 0 < pair_sum s a (fun _ => 1) rows.
Proof.
  intros s a (x & Hx & E1 & E2). unfold pair_sum. assert (P : forall l, 0 <= total (map (fun x => if at_pair s a x then 1 else 0) l)) by (induction l as [|y l IH]; cbn [map]; [cbn; lra|rewrite total_cons; destruct (at_pair s a y); lra]).
  assert (Q : forall l, In x l -> 1 <= total (map (fun x => if at_pair s a x then 1 else 0) l)); [|specialize (Q rows Hx); lra].
  induction l as [|y l IH]; [intros []|]. intros [Hy|Hy]; cbn [map]; rewrite total_cons.
  - subst y. unfold at_pair at 1. rewrite E1, E2, !Nat.eqb_refl. cbn [andb]. specialize (P l). lra.
  - specialize (IH Hy). destruct (at_pair s a y); lra.
Qed.
Lemma pair_sum_bounds : forall s a h c, (forall x, In x rows -> w_s x = s -> w_a x = a -> Rabs (h x) <= c) -> Rabs (pair_sum s a h rows) <= c * pair_sum s a (fun _ => 1) rows.
Proof.
  intros s a h c H. unfold pair_sum. rewrite <- total_scal. assert (B : forall x, In x rows -> Rabs (if at_pair s a x then h x else 0) <= c * (if at_pair s a x then 1 else 0)).
  { intros x Hx. destruct (at_pair s a x) eqn:E; [|rewrite Rabs_R0; lra]. apply andb_prop in E. destruct E as [E1 E2]. apply Nat.eqb_eq in E1, E2. rewrite Rmult_1_r. auto. }
  clear H. apply Rabs_le_iff.
  - replace (- total (map (fun x => c * (if at_pair s a x then 1 else 0)) rows)) with (total (map (fun x => - 1 * (c * (if at_pair s a x then 1 else 0))) rows)) by (rewrite total_scal; ring). apply total_le. intros x Hx. specialize (B x Hx). unfold Rabs in B. destruct (Rcase_abs _); lra.
  - apply total_le. intros x Hx. specialize (B x Hx). unfold Rabs in B. destruct (Rcase_abs _); lra.
Qed.
Lemma pair_sum_ext : forall s a h h', (forall x, In x rows -> w_s x = s -> w_a x = a -> h x = h' x) -> pair_sum s a h rows = pair_sum s a h' rows.
Proof. intros s a h h' H. apply total_ext. intros x Hx. destruct (at_pair s a x) eqn:E; auto. apply andb_prop in E. destruct E as [E1 E2]. apply Nat.eqb_eq in E1, E2. auto. Qed.
Lemma pair_sum_minus : forall s a h h', pair_sum s a (fun x => h x - h' x) rows = pair_sum s a h rows - pair_sum s a h' rows.
Proof. intros s a h h'. unfold pair_sum. rewrite <- total_minus. apply total_ext. intros x _. destruct (at_pair s a x); lra. Qed.
Lemma pair_sum_scal : forall s a h c, pair_sum s a (fun x => c * h x) rows = c * pair_sum s a h rows.
Proof. intros s a h c. unfold pair_sum. rewrite <- total_scal. apply total_ext. intros x _. destruct (at_pair s a x); lra. Qed.
Lemma pair_sum_total : forall (A : Type) s a (h : row -> A -> R) l, pair_sum s a (fun x => total (map (h x) l)) rows = total (map (fun k => pair_sum s a (fun x => h x k) rows) l).
Proof.
  intros A s a h l. unfold pair_sum. induction l as [|k l IH]; cbn [map].
  - cbn [total]. rewrite (@total_ext _ _ (fun _ => 0)) by (intros x _; destruct (at_pair s a x); reflexivity). rewrite total_const. cbn. ring.
  - rewrite total_cons, <- IH, <- total_plus. apply total_ext. intros x _. rewrite total_cons. destruct (at_pair s a x); lra.
Qed.
Section Pair.
Variables s a : nat.
Hypothesis V : exists x, In x rows /\ w_s x = s /\ w_a x = a.
Notation pm h := (pair_mean s a h rows).
Lemma pm_minus : forall h h', pm (fun x => h x - h' x) = pm h - pm h'.
Proof. intros h h'. unfold pair_mean. rewrite pair_sum_minus. field. pose proof (pair_count V). lra. Qed.
Lemma pm_bound : forall h c, (forall x, In x rows -> w_s x = s -> w_a x = a -> Rabs (h x) <= c) -> Rabs (pm h) <= c.
Proof.
  intros h c H. pose proof (pair_count V) as C. unfold pair_mean, Rdiv. rewrite Rabs_mult, (Rabs_right (/ _)) by (apply Rle_ge; left; now apply Rinv_0_lt_compat). apply (Rmult_le_reg_r (pair_sum s a (fun _ => 1) rows)); auto. rewrite Rmult_assoc, Rinv_l, Rmult_1_r by lra. now apply pair_sum_bounds.
Qed.
Lemma pm_ext : forall h h', (forall x, In x rows -> w_s x = s -> w_a x = a -> h x = h' x) -> pm h = pm h'.
Proof. intros h h' H. unfold pair_mean. now rewrite (pair_sum_ext h h' H). Qed.
Lemma pm_const : forall c, pm (fun _ => c) = c.
Proof. intros c. unfold pair_mean. pose proof (pair_count V). rewrite (@pair_sum_ext s a (fun _ => c) (fun _ => c * 1)) by (intros; ring). rewrite pair_sum_scal. field. lra. Qed.
Lemma pm_nonneg : forall h, (forall x, In x rows -> w_s x = s -> w_a x = a -> 0 <= h x) -> 0 <= pm h.
Proof.
  intros h H. pose proof (pair_count V) as C. unfold pair_mean. apply Rmult_le_pos; [|left; now apply Rinv_0_lt_compat]. unfold pair_sum. apply Rle_trans with (total (map (fun _ : row => 0) rows)); [rewrite total_const; lra|]. apply total_le. intros x Hx. destruct (at_pair s a x) eqn:E; [|lra]. apply andb_prop in E. destruct E as [E1 E2]. apply Nat.eqb_eq in E1, E2. auto.
Qed.
Lemma pm_ev : forall (P : row -> nat -> R) h, ev (fun k => pm (fun x => P x k)) h = pm (fun x => ev (P x) h).
Proof.
  intros P h. unfold pair_mean, CatSpec.ev. rewrite pair_sum_total. unfold Rdiv. rewrite (Rmult_comm (total _)). rewrite <- total_scal. apply total_ext. intros k _.
  rewrite (@pair_sum_ext s a (fun x => P x k * h k) (fun x => h k * P x k)) by (intros; ring). rewrite pair_sum_scal. ring.
Qed.
Lemma pm_dist : forall P, (forall x, In x rows -> w_s x = s -> w_a x = a -> is_dist (P x)) -> is_dist (fun k => pm (fun x => P x k)).
Proof.
  intros P H. split.
  - intros k Hk. apply pm_nonneg. intros x H1 H2 H3. now apply (H x).
  - assert (E := pm_ev P (fun _ => 1)). rewrite (@pm_ext (fun x => ev (P x) (fun _ => 1)) (fun _ => 1)) in E by (intros; apply ev_const; auto). rewrite pm_const in E. rewrite <- E. apply total_ext. intros. ring.
Qed.
Lemma pm_near : forall D P Q, (forall x, In x rows -> w_s x = s -> w_a x = a -> near D (P x) (Q x)) -> near D (fun k => pm (fun x => P x k)) (fun k => pm (fun x => Q x k)).
Proof. intros D P Q H h Hh. rewrite !pm_ev, <- pm_minus. apply pm_bound. intros x H1 H2 H3. now apply (H x). Qed.
End Pair.
End Rows.

(** * The fixed point *)
Section Fix.
Variables (nS nA : nat) (gamma : R) (rows : list row).
Hypotheses (Hg : 0 <= gamma < 1) (HB : rows_in nS nA gamma rows) (AP : all_pairs nS nA rows).
Definition bell (e : nat -> nat -> nat -> R) (s a k : nat) : R := pair_mean s a (fun x => proj (w_r x) (w_in x) (e (w_next x) (w_anext x)) k) rows.
Definition dists (e : nat -> nat -> nat -> R) : Prop := forall s a, (s < nS)%nat -> (a < nA)%nat -> is_dist (e s a).
Definition close (D : R) (e e' : nat -> nat -> nat -> R) : Prop := forall s a, (s < nS)%nat -> (a < nA)%nat -> near D (e s a) (e' s a).
Lemma bell_dists : forall e, dists e -> dists (bell e).
Proof. intros e He s a Hs Ha. apply (@pm_dist rows s a (AP Hs Ha) (fun x => proj (w_r x) (w_in x) (e (w_next x) (w_anext x)))). intros x Hx _ _. apply proj_dist. destruct (HB x Hx) as (_ & _ & A & B & _). auto. Qed.
Lemma bell_close : forall D e e', 0 <= D -> dists e -> dists e' -> close D e e' -> close (gamma * D) (bell e) (bell e').
Proof.
  intros D e e' HD He He' H s a Hs Ha. apply (@pm_near rows s a (AP Hs Ha) (gamma * D) (fun x => proj (w_r x) (w_in x) (e (w_next x) (w_anext x))) (fun x => proj (w_r x) (w_in x) (e' (w_next x) (w_anext x)))). intros x Hx _ _. destruct (HB x Hx) as (_ & _ & A & B & C).
  apply near_mono with (w_in x * D); [apply Rmult_le_compat_r; lra|]. apply proj_near; auto; lra.
Qed.
Fixpoint iter (n : nat) : nat -> nat -> nat -> R := match n with O => fun _ _ k => if Nat.eqb k 0 then 1 else 0 | S n' => bell (iter n') end.
Lemma iter_dists : forall n, dists (iter n).
Proof.
  induction n as [|n IH]; [|now apply bell_dists]. intros s a _ _. split; cbn.
  - intros k _. destruct (Nat.eqb k 0); lra.
  - rewrite (@total_pick (fun k => if Nat.eqb k 0 then 1 else 0) K 0) by (try lia; intros k Hk; destruct (Nat.eqb_spec k 0); congruence). reflexivity.
Qed.
Notation C0 := (2 * (hi - lo)).
Lemma iter_close : forall n m, close (gamma ^ n * C0) (iter n) (iter (n + m)).
Proof.
  induction n as [|n IH]; intros m.
  - intros s a Hs Ha. rewrite pow_O, Rmult_1_l. apply near_diam; now apply iter_dists.
  - cbn [Nat.add iter]. replace (gamma ^ S n * C0) with (gamma * (gamma ^ n * C0)) by (cbn; ring). apply bell_close; auto using iter_dists. apply Rmult_le_pos; [apply pow_le; lra|lra].
Qed.
Lemma C0_pos : 0 < C0. Proof. lra. Qed.
Lemma iter_cauchy : forall s a k, (s < nS)%nat -> (a < nA)%nat -> (k < K)%nat -> Cauchy_crit (fun n => iter n s a k).
Proof.
  intros s a k Hs Ha Hk e He. pose proof Dz as HD. destruct (@pow_small gamma (C0 / dz) (e / 3) Hg) as (N & HN); [left; apply Rdiv_lt_0_compat; lra|lra|]. exists N.
  assert (B : forall n, (N <= n)%nat -> Rabs (iter N s a k - iter n s a k) <= e / 3).
  { intros n Hn. assert (X := @near_entry _ _ _ k (@iter_close N (n - N) s a Hs Ha) Hk). replace (N + (n - N))%nat with n in X by lia. eapply Rle_trans; [exact X|]. specialize (HN N (le_n N)). unfold Rdiv in HN |- *. rewrite Rmult_assoc. exact HN. }
  intros n m Hn Hm. unfold R_dist. replace (iter n s a k - iter m s a k) with (- (iter N s a k - iter n s a k) + (iter N s a k - iter m s a k)) by ring. eapply Rle_lt_trans; [apply Rabs_triang|]. rewrite Rabs_Ropp. pose proof (B n Hn). pose proof (B m Hm). lra.
Qed.
Definition lim_of (e : nat -> nat -> nat -> R) : Prop := forall s a k, (s < nS)%nat -> (a < nA)%nat -> (k < K)%nat -> Un_cv (fun n => iter n s a k) (e s a k).
Lemma lim_exists : exists e, lim_of e.
Proof.
  exists (fun s a k => match lt_dec s nS with left Hs => match lt_dec a nA with left Ha => match lt_dec k K with left Hk => proj1_sig (R_complete _ (iter_cauchy Hs Ha Hk)) | right _ => 0 end | right _ => 0 end | right _ => 0 end).
  intros s a k Hs Ha Hk. destruct (lt_dec s nS) as [Hs'|]; [|contradiction]. destruct (lt_dec a nA) as [Ha'|]; [|contradiction]. destruct (lt_dec k K) as [Hk'|]; [|contradiction]. exact (proj2_sig (R_complete _ (iter_cauchy Hs' Ha' Hk'))).
Qed.
Lemma lim_unif : forall e s a kap, lim_of e -> (s < nS)%nat -> (a < nA)%nat -> 0 < kap -> exists N, forall n k, (N <= n)%nat -> (k < K)%nat -> Rabs (iter n s a k - e s a k) <= kap.
Proof.
  intros e s a kap L Hs Ha Hk. assert (X : forall m, (m <= K)%nat -> exists N, forall n k, (N <= n)%nat -> (k < m)%nat -> Rabs (iter n s a k - e s a k) <= kap).
  { induction m as [|m IH]; intros Hm; [exists 0%nat; intros; lia|]. destruct IH as (N & HN); [lia|]. destruct (L s a m Hs Ha Hm kap Hk) as (N' & HN'). exists (max N N'). intros n k Hn Hk'. destruct (Nat.eq_dec k m) as [->|]; [left; apply HN'; lia|apply HN; lia]. }
  exact (X K (le_n K)).
Qed.
Lemma lim_dists : forall e, lim_of e -> dists e.
Proof.
  intros e L s a Hs Ha. split.
  - intros k Hk. destruct (Rle_dec 0 (e s a k)) as [C|C]; auto. destruct (L s a k Hs Ha Hk (- e s a k) ltac:(lra)) as (N & HN). specialize (HN N (le_n N)). unfold R_dist in HN. assert (P := proj1 (iter_dists N Hs Ha) k Hk). unfold Rabs in HN. destruct (Rcase_abs _); lra.
  - destruct (Req_dec (total (map (e s a) (seq 0 K))) 1) as [E|E]; auto. exfalso. set (d := Rabs (1 - total (map (e s a) (seq 0 K)))). assert (D0 : 0 < d) by (apply Rabs_pos_lt; lra). assert (KP : 0 < INR K) by (apply lt_0_INR; lia).
    destruct (@lim_unif e s a (d / (2 * INR K)) L Hs Ha ltac:(apply Rdiv_lt_0_compat; lra)) as (N & HN). assert (T := proj2 (iter_dists N Hs Ha)). assert (B : d <= INR (length (seq 0 K)) * (d / (2 * INR K))).
    { unfold d at 1. rewrite <- T, <- total_minus. apply total_abs. intros k Hk. apply in_seq in Hk. apply HN; lia. }
    rewrite seq_length in B. replace (INR K * (d / (2 * INR K))) with (d / 2) in B by (field; lra). lra.
Qed.
Lemma lim_close : forall e, lim_of e -> forall n, close (gamma ^ n * C0) (iter n) e.
Proof.
  intros e L n s a Hs Ha. apply near_lim. intros eps He. assert (KP : 0 < INR K) by (apply lt_0_INR; lia). set (kap := eps / (2 * INR K * (hi - lo))). assert (D0 : 0 < 2 * INR K * (hi - lo)) by nra. assert (K0 : 0 < kap) by (apply Rdiv_lt_0_compat; auto).
  destruct (@lim_unif e s a kap L Hs Ha K0) as (N & HN). apply near_trans with (iter (n + N) s a); [now apply iter_close|]. apply near_mono with (2 * INR K * kap * (hi - lo)).
  - unfold kap. right. field. split; lra.
  - apply near_upper; [now apply iter_dists|now apply (lim_dists L)|lra|]. intros k Hk. specialize (HN (n + N)%nat k ltac:(lia) Hk). unfold Rabs in HN. destruct (Rcase_abs _); lra.
Qed.
Lemma lim_fixed : forall e, lim_of e -> forall s a k, (s < nS)%nat -> (a < nA)%nat -> (k < K)%nat -> e s a k = bell e s a k.
Proof.
  intros e L s a k Hs Ha Hk. apply near_zero; auto. apply near_lim. intros eps He. destruct (@pow_small gamma (2 * C0) eps Hg) as (N & HN); [lra|auto|]. specialize (HN N (le_n N)).
  apply near_mono with (gamma ^ S N * C0 + gamma * (gamma ^ N * C0)). { cbn [pow]. assert (P := pow_le gamma N ltac:(lra)). nra. }
  apply near_trans with (iter (S N) s a); [apply near_sym; now apply lim_close|]. cbn [iter]. apply bell_close; auto using iter_dists, lim_dists, lim_close. apply Rmult_le_pos; [apply pow_le; lra|lra].
Qed.
Definition solves (e : nat -> nat -> nat -> R) : Prop := dists e /\ forall s a k, (s < nS)%nat -> (a < nA)%nat -> (k < K)%nat -> e s a k = bell e s a k.
Lemma solves_data : forall e, solves e <-> data_dists nS nA K lo hi rows e.
Proof.
  intros e. split.
  - intros [D E] s a Hs Ha. split; [now apply D|]. intros k Hk. now apply E.
  - intros D. split; intros s a Hs Ha; [now apply D|]. intros Hs' Ha'. now apply D.
Qed.
Lemma solution : exists e, solves e.
Proof. destruct lim_exists as (e & L). exists e. split; [now apply lim_dists|now apply lim_fixed]. Qed.
Lemma solves_unique : forall e e', solves e -> solves e' -> forall s a k, (s < nS)%nat -> (a < nA)%nat -> (k < K)%nat -> e s a k = e' s a k.
Proof.
  intros e e' [D E] [D' E'] s a k Hs Ha Hk. assert (X : forall n, close (gamma ^ n * C0) e e').
  { induction n as [|n IH]; intros s0 a0 Hs0 Ha0; [rewrite pow_O, Rmult_1_l; apply near_diam; auto|]. apply near_ext with (bell e s0 a0) (bell e' s0 a0); [intros; symmetry; auto|intros; symmetry; auto|]. replace (gamma ^ S n * C0) with (gamma * (gamma ^ n * C0)) by (cbn; ring). apply bell_close; auto. apply Rmult_le_pos; [apply pow_le; lra|lra]. }
  apply near_zero; auto. apply near_lim. intros eps He. destruct (@pow_small gamma C0 eps Hg) as (N & HN); [lra|auto|]. specialize (HN N (le_n N)). apply near_mono with (gamma ^ N * C0); [lra|]. now apply X.
Qed.
Lemma solves_means : forall e, solves e -> range_fits K lo hi rows -> data_q nS nA rows (fun s a => ev (e s a) z).
Proof.
  intros e [D E] RF s a Hs Ha. rewrite (@ev_ext_l (e s a) (bell e s a)) by (intros; auto). unfold bell. rewrite (@pm_ev rows s a (fun x => proj (w_r x) (w_in x) (e (w_next x) (w_anext x))) z). apply pm_ext. intros x Hx _ _. destruct (HB x Hx) as (_ & _ & A & B & C). destruct (RF x Hx). apply proj_mean_fits; auto; lra.
Qed.
End Fix.
End Atoms.
