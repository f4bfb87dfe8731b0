From Coq Require Import List Lia Bool Arith Reals Lra.
From Verif Require Import PyCommon CommonProofs UtilsModel UtilsSpec UtilsProofs2 UtilsProofs3 WrappersProofs DistModel DistSpec DistProofs DistProofs2 DistProofs3 LossModel LossSpec LossProofs QModel QProofs QProps TDModel TDSpec TDProofs TDProofs2 TDProofs3 TDProofs4 CoreModel CoreSpec CoreProofs CoreProofs2 LearnModel LearnSpec LearnProofs.
Import ListNotations.
Set Implicit Arguments.
Local Open Scope R_scope.

Lemma minus_zeros : forall G, zipw Rminus G (map (fun _ => 0) G) = G.
Proof. induction G as [|x G IH]; auto. cbn. rewrite IH. f_equal. lra. Qed.

Section Semi.
Variables (l l' : R -> R -> R).
Hypothesis Dl : forall y h, derivable_pt_lim (l y) h (l' y h).
Variables (St : Type) (D : option nat) (net : list R -> qfun St R) (target : list R -> list R -> tbatch St -> outcome (list R)).
Variables (th0 targ : list R) (b : fbatch St) (G : list R) (th : list R) (pred : list R -> list R) (J : nat -> list R).
Let B := length G.
Hypothesis HB : (1 <= B)%nat.
Hypothesis HT : target th0 targ (fb_t b) = Ok G.
Hypothesis HW : length (fb_W b) = B.
Hypothesis HP : forall p, length p = length th -> eval1 D (net p) (fb_S b) (fb_A b) = Ok (pred p) /\ length (pred p) = B.
Hypothesis HJ : forall i, (i < B)%nat -> gradient (fun p => nth i (pred p) 0) th (J i).
Definition semi (k : nat) : R := total (map (fun i => nth i (clip_w (fb_W b)) 0 * l' (nth i G 0) (nth i (pred th) 0) * nth k (J i) 0) (seq 0 B)) / INR B.
Lemma repl_same : forall k (x : list R), (k < length x)%nat -> repl k (nth k x 0) x = x.
Proof. intros k x H. apply (@list_eq_nth _ 0); [now apply repl_length|]. intros i Hi. rewrite nth_repl by auto. destruct (Nat.eqb_spec i k); congruence. Qed.
Lemma semi_deriv : forall k, (k < length th)%nat -> derivable_pt_lim (fun t => loss_value (q_loss D net target (zip_loss l) th0 targ b (repl k t th))) (nth k th 0) (semi k).
Proof.
  intros k Hk. pose proof (@weighted_chain l l' Dl G (clip_w (fb_W b)) (fun i t => nth i (pred (repl k t th)) 0) (fun i => nth k (J i) 0) (nth k th 0) B HB eq_refl) as C.
  assert (LW : length (clip_w (fb_W b)) = B) by (unfold clip_w; now rewrite map_length). specialize (C LW).
  assert (E : semi k = total (map (fun i => nth i (clip_w (fb_W b)) 0 * l' (nth i G 0) (nth i (pred (repl k (nth k th 0) th)) 0) * nth k (J i) 0) (seq 0 B)) / INR B) by (now rewrite repl_same).
  rewrite E. eapply derivable_pt_lim_ext; [|apply C].
  - intros t. cbv beta. destruct (@HP (repl k t th) (repl_length _ _ Hk)) as [P1 P2]. unfold q_loss. rewrite P1. cbn [bind]. rewrite HT. cbn [bind]. unfold td_loss. rewrite minus_zeros. rewrite <- P2. now rewrite map_nth_seq.
  - intros i Hi. cbv beta. destruct (@HJ i Hi) as [_ H]. exact (H k Hk).
Qed.
Lemma semi_gradient_is : gradient (fun p => loss_value (q_loss D net target (zip_loss l) th0 targ b p)) th (map semi (seq 0 (length th))).
Proof. split; [now rewrite map_length, seq_length|]. intros k Hk. rewrite (@nth_map_any _ _ _ (seq 0 (length th)) k 0 0%nat) by (now rewrite seq_length). rewrite seq_nth by auto. now apply semi_deriv. Qed.
Lemma semi_gradient_eq : forall g, gradient (fun p => loss_value (q_loss D net target (zip_loss l) th0 targ b p)) th g -> g = map semi (seq 0 (length th)).
Proof. intros g H. exact (gradient_unique H semi_gradient_is). Qed.
End Semi.

(** * Tables *)
Lemma wclip : forall w, clip w (1/10) 10 = Rmax (1/10) (Rmin w 10).
Proof. intros w. unfold clip, Rmax, Rmin. repeat destruct (Rle_dec _ _); lra. Qed.

Definition same_pair (x y : nat * nat) : bool := Nat.eqb (fst x) (fst y) && Nat.eqb (snd x) (snd y).
Lemma same_pair_spec : forall x y, same_pair x y = true <-> x = y.
Proof. intros [a b] [c d]. unfold same_pair. cbn. rewrite andb_true_iff, !Nat.eqb_eq. intuition congruence. Qed.
Section Tab.
Variables nS nA : nat.
Hypothesis HA : (1 <= nA)%nat.
Variable net : list R -> qfun nat R.
Hypothesis T : tabular nS nA net.
Variable dyn : nat -> nat -> nat * R * bool.
Variable gamma : R.
Notation tq := (tq nA).
Variables (l l' : R -> R -> R).
Hypothesis Dl : forall y h, derivable_pt_lim (l y) h (l' y h).
Lemma tq_gradient : forall th s a, length th = (nS * nA)%nat -> (s < nS)%nat -> (a < nA)%nat -> gradient (fun p => tq p s a) th (one_hot (nS * nA) (s * nA + a)).
Proof.
  intros th s a L Hs Ha. split; [now rewrite one_hot_length|]. intros k Hk. rewrite nth_one_hot by lia. assert (X := index_lt Hs Ha).
  apply (derivable_pt_lim_ext (fun t => if Nat.eqb (s * nA + a) k then t else tq th s a)).
  - intros t. unfold LearnProofs.tq. change (firstn k th ++ t :: skipn (S k) th) with (repl k t th). rewrite nth_repl by auto. reflexivity.
  - rewrite (Nat.eqb_sym k). destruct (Nat.eqb_spec (s * nA + a) k); [apply derivable_pt_lim_id|apply derivable_pt_lim_const].
Qed.

(** The gradient for a batch with pairs [rows] and targets [G]. *)
Section One.
Variables (target : list R -> list R -> tbatch nat -> outcome (list R)) (rows : list (nat * nat)) (b : fbatch nat) (th0 targ G th : list R).
Hypothesis HS : fb_S b = map fst rows.
Hypothesis HAc : fb_A b = map (fun r => one_hot nA (snd r)) rows.
Hypothesis HW : length (fb_W b) = length rows.
Hypothesis HG : length G = length rows.
Hypothesis NE : rows <> [].
Hypothesis HR : forall s a, In (s, a) rows -> (s < nS)%nat /\ (a < nA)%nat.
Hypothesis HT : target th0 targ (fb_t b) = Ok G.
Hypothesis HL : length th = (nS * nA)%nat.
Definition cell_grad (s a : nat) : R :=
  total (map (fun i => if same_pair (nth i rows (0, 0)%nat) (s, a) then nth i (clip_w (fb_W b)) 0 * l' (nth i G 0) (tq th s a) else 0) (seq 0 (length rows))) / INR (length rows).
Lemma table_gradient : gradient (fun p => loss_value (q_loss (Some nA) net target (zip_loss l) th0 targ b p)) th
  (map (fun k => total (map (fun i => let r := nth i rows (0, 0)%nat in nth i (clip_w (fb_W b)) 0 * l' (nth i G 0) (tq th (fst r) (snd r)) * nth k (one_hot (nS * nA) (fst r * nA + snd r)) 0) (seq 0 (length rows))) / INR (length rows)) (seq 0 (length th))).
Proof.
  pose proof (@semi_gradient_is l l' Dl nat (Some nA) net target th0 targ b G th (fun p => map (fun r => tq p (fst r) (snd r)) rows) (fun i => one_hot (nS * nA) (fst (nth i rows (0, 0)%nat) * nA + snd (nth i rows (0, 0)%nat)))) as X.
  rewrite HG in X. match type of X with ?A -> ?B -> ?C -> ?E -> ?F -> _ => assert (H1 : A); [|assert (H4 : E); [|assert (H5 : F); [|specialize (X H1 HT HW H4 H5)]]] end.
  - destruct rows; [congruence|cbn; lia].
  - intros p Lp. split; [|now rewrite map_length]. rewrite HS, HAc. apply (@tab_eval nS); auto. congruence.
  - intros i Hi. assert (I : In (nth i rows (0, 0)%nat) rows) by now apply nth_In. destruct (nth i rows (0, 0)%nat) as [s a] eqn:E. destruct (HR _ _ I) as [Hs Ha]. cbn [fst snd].
    eapply gradient_ext; [|exact (@tq_gradient th s a HL Hs Ha)]. intros h _. cbv beta. rewrite (@nth_map_any _ _ _ rows i 0 (0, 0)%nat) by auto. now rewrite E.
  - eapply eq_ind; [exact X|]. apply map_ext. intros k. unfold semi. rewrite HG. f_equal. apply total_ext. intros i Hi. apply in_seq in Hi. cbv zeta. rewrite (@nth_map_any _ _ _ rows i 0 (0, 0)%nat) by lia. reflexivity.
Qed.
Lemma table_gradient_cell : forall g s a, gradient (fun p => loss_value (q_loss (Some nA) net target (zip_loss l) th0 targ b p)) th g -> (s < nS)%nat -> (a < nA)%nat -> tq g s a = cell_grad s a.
Proof.
  intros g s a Hg Hs Ha. rewrite (gradient_unique Hg table_gradient). assert (X := index_lt Hs Ha). unfold LearnProofs.tq at 1. rewrite (@nth_map_any _ _ _ (seq 0 (length th)) _ 0 0%nat) by (rewrite seq_length; lia). rewrite seq_nth by lia. cbn [Nat.add].
  unfold cell_grad. f_equal. apply total_ext. intros i Hi. apply in_seq in Hi. cbv zeta. assert (I : In (nth i rows (0, 0)%nat) rows) by (apply nth_In; lia). destruct (nth i rows (0, 0)%nat) as [s' a'] eqn:E. destruct (HR _ _ I) as [Hs' Ha']. cbn [fst snd]. rewrite nth_one_hot by lia.
  destruct (same_pair (s', a') (s, a)) eqn:P.
  - apply same_pair_spec in P. injection P as -> ->. rewrite Nat.eqb_refl. lra.
  - destruct (Nat.eqb_spec (s * nA + a) (s' * nA + a')) as [C|C]; [|lra]. exfalso. destruct (index_inj _ _ Ha Ha' C) as [-> ->]. assert (Y : same_pair (s', a') (s', a') = true) by now apply same_pair_spec. congruence.
Qed.
Lemma loss_ok : exists v, q_loss (Some nA) net target (zip_loss l) th0 targ b th = Ok v.
Proof.
  unfold q_loss. rewrite HS, HAc. rewrite (@tab_eval nS) by auto. cbn [bind]. rewrite HT. cbn [bind]. unfold td_loss. rewrite minus_zeros. rewrite zip_loss_some; [eauto|rewrite map_length; congruence|unfold clip_w; rewrite map_length; congruence|]. intros ->. cbn in HG. destruct rows; [congruence|discriminate].
Qed.
End One.
End Tab.
