From Coq Require Import List Lia Bool Arith Permutation Reals Lra.
From Verif Require Import PyCommon CommonProofs UtilsModel UtilsSpec UtilsProofs2 UtilsProofs3 WrappersProofs DistModel DistSpec DistProofs DistProofs2 DistProofs3 LossModel LossSpec LossProofs QModel QProofs QProps TDModel TDSpec TDProofs.
Import ListNotations.
Set Implicit Arguments.
Local Open Scope R_scope.

Lemma total_filter : forall (A : Type) (h : A -> R) (p : A -> bool) l, total (map (fun a => (if p a then 1 else 0) * h a) l) = total (map h (filter p l)).
Proof. intros A h p l. induction l as [|x l IH]; auto. cbn [map filter]. rewrite total_cons, IH. destruct (p x); cbn [map]; rewrite ?total_cons; lra. Qed.
Lemma total_perm : forall l l', Permutation l l' -> total l = total l'.
Proof. intros l l' P. induction P; auto; rewrite ?total_cons; try lra; congruence. Qed.

Section G.
Variable n : nat.
Hypothesis Hn : (1 <= n)%nat.
Definition maxers (h : nat -> R) : list nat := filter (fun a => if Req_EM_T (h a) (rowmax (map h (seq 0 n))) then true else false) (seq 0 n).
Lemma maxers_in : forall h a, In a (maxers h) <-> (a < n)%nat /\ forall c, (c < n)%nat -> h c <= h a.
Proof.
  intros h a. unfold maxers. rewrite filter_In, in_seq. destruct (rowmax_is Hn h) as [(m & Hm & Em) U]. split.
  - intros [Ha E]. destruct (Req_EM_T _ _) as [E'|]; [|discriminate]. split; [lia|]. intros c Hc. rewrite E'. auto.
  - intros [Ha H]. split; [lia|]. destruct (Req_EM_T _ _) as [|C]; auto. exfalso. apply C. apply Rle_antisym; [auto|]. rewrite <- Em. auto.
Qed.
Lemma maxers_ne : forall h, maxers h <> [].
Proof.
  intros h E. destruct (rowmax_is Hn h) as [(m & Hm & Em) U]. assert (I : In m (maxers h)) by (apply maxers_in; split; auto; intros c Hc; rewrite Em; auto). rewrite E in I. destruct I.
Qed.
Lemma greedy_is_avg : forall h h', greedy_avg n h h' (dot (greedy_mix (map h (seq 0 n))) (map h' (seq 0 n))).
Proof.
  intros h h'. exists (maxers h). split; [apply NoDup_filter, seq_NoDup|]. split; [apply maxers_ne|]. split; [apply maxers_in|].
  set (m := rowmax (map h (seq 0 n))). set (p := fun a => if Req_EM_T (h a) m then true else false).
  assert (LM : length (greedy_mix (map h (seq 0 n))) = n) by (now rewrite greedy_length, map_length, seq_length). rewrite dot_seq by (rewrite LM, map_length, seq_length; auto). rewrite LM.
  assert (C : rsum (map (ind m) (map h (seq 0 n))) = INR (length (maxers h))).
  { rewrite rsum_total, map_map. rewrite (@total_ext _ _ (fun a => (if p a then 1 else 0) * 1)) by (intros a _; unfold ind, p; destruct (Req_EM_T _ _); lra). rewrite (@total_filter _ (fun _ => 1) p), total_const. fold m p. unfold maxers. fold m. fold p. lra. }
  assert (NZ : 0 < INR (length (maxers h))). { apply lt_0_INR. pose proof (maxers_ne h). destruct (maxers h); [congruence|cbn; lia]. }
  unfold mean. rewrite map_length. rewrite (@total_ext _ _ (fun k => / INR (length (maxers h)) * ((if p k then 1 else 0) * h' k))).
  - rewrite total_scal, total_filter. unfold maxers at 2. fold m. fold p. unfold Rdiv. lra.
  - intros k Hk. apply in_seq in Hk. rewrite greedy_nth by (rewrite map_length, seq_length; lia). fold m. rewrite C. rewrite !(@nth_map_any _ _ _ (seq 0 n) k 0 0%nat) by (rewrite seq_length; lia). rewrite seq_nth by lia. cbn [Nat.add]. unfold ind, p. destruct (Req_EM_T (h k) m); unfold Rdiv; lra.
Qed.
Lemma greedy_avg_unique : forall h h' x y, greedy_avg n h h' x -> greedy_avg n h h' y -> x = y.
Proof.
  intros h h' x y (M & ND & NE & HM & ->) (M' & ND' & NE' & HM' & ->). assert (P : Permutation M M') by (apply NoDup_Permutation; auto; intros a; rewrite HM, HM'; tauto).
  unfold mean. rewrite !map_length, (Permutation_length P). f_equal. apply total_perm, Permutation_map, P.
Qed.
Lemma avg_of_unique : forall h h' a, unique_max n h a -> greedy_avg n h h' (h' a).
Proof.
  intros h h' a [Ha U]. exists [a]. split; [repeat constructor; intros []|]. split; [discriminate|]. split.
  - intros c. split.
    + intros [<-|[]]. split; auto. intros c Hc. destruct (Nat.eq_dec c a) as [->|N]; [lra|]. left. auto.
    + intros [Hc H]. destruct (Nat.eq_dec c a) as [->|N]; [now left|]. pose proof (U c Hc N). specialize (H a Ha). lra.
  - cbn [map]. unfold mean. rewrite total_cons. change (total []) with 0. cbn [length]. change (INR 1) with 1. lra.
Qed.
Lemma avg_self_max : forall h x, greedy_avg n h h x -> is_maximum n h x.
Proof.
  intros h x (M & ND & NE & HM & ->). destruct M as [|a M]; [congruence|]. assert (E : mean (map h (a :: M)) = h a).
  { unfold mean. rewrite map_length. assert (T : total (map h (a :: M)) = total (map (fun _ => h a) (a :: M))).
    { apply total_ext. intros c Hc. apply HM in Hc. destruct Hc as [Hc Uc]. assert (Ha : In a (a :: M)) by now left. apply HM in Ha. destruct Ha as [Ha Ua]. apply Rle_antisym; auto. }
    rewrite T, total_const. field. apply not_0_INR. cbn. lia. }
  assert (Ha : In a (a :: M)) by now left. apply HM in Ha. destruct Ha as [Ha Ua]. rewrite E. split; [exists a; auto|auto].
Qed.
Variable St : Type.
Notation qf := (qfun St R).
Lemma qat_greedy : forall (qt q : qf) s, width n qt -> width n q -> no_mixed_action n qt q s -> greedy_avg n (qval n qt s) (qval n q s) (qat q s (greedy_mix (map (qval n qt s) (seq 0 n)))).
Proof.
  intros qt q s Wt W [T|(a & U)].
  - rewrite (@qat_mix2 St n) by (auto; now rewrite greedy_length, map_length, seq_length). apply greedy_is_avg.
  - rewrite (@greedy_unique (map (qval n qt s) (seq 0 n)) n a).
    + rewrite qat_one_hot by (auto; apply U). now apply avg_of_unique.
    + now rewrite map_length, seq_length.
    + destruct U as [Ha U]. split; auto. intros c Hc N. rewrite !(@nth_map_any _ _ _ (seq 0 n) _ 0 0%nat) by (rewrite seq_length; lia). rewrite !seq_nth by lia. now apply U.
Qed.
Lemma q_learning_rows : forall f g (qt q : qf) b, width n qt -> width n q -> well_formed b -> (forall s, In s (tb_Snext b) -> no_mixed_action n qt q s) ->
  exists out, q_learning (Some n) (one_hot n) f g n qt q b = Ok out /\ bootstrapped f g b (fun _ s x => greedy_avg n (qval n qt s) (qval n q s) x) out.
Proof.
  intros f g qt q b Wt W WF H. rewrite q_learning_eval by auto. apply finish_rows; auto; [now rewrite map_length|]. intros k s Hs. rewrite (nth_map_error _ _ _ Hs). apply qat_greedy; auto. apply H. eapply nth_error_In; eauto.
Qed.

(** * Clipped double q-learning *)
Lemma collect_ok : forall (A B : Type) (h : A -> outcome B) (h' : A -> B) l, (forall x, In x l -> h x = Ok (h' x)) -> collect h l = Ok (map h' l).
Proof. intros A B h h' l H. induction l as [|x l IH]; auto. cbn [collect map]. rewrite (H x) by now left. cbn [bind]. rewrite IH by (intros; apply H; now right). reflexivity. Qed.
Definition pairs (qs : list (qf * (R -> R))) (S : list St) : list (list R * list (list R)) :=
  concat (map (fun qi => map (fun qj => (map (fun s => snd qj (qat (fst qj) s (greedy_mix (map (qval n (fst qi) s) (seq 0 n))))) S, map (fun s => greedy_mix (map (qval n (fst qi) s) (seq 0 n))) S)) qs) qs).
Lemma clipped_pairs_ok : forall qs S, (forall q, In q qs -> width n (fst q)) -> clipped_pairs (Some n) (one_hot n) qs S = Ok (pairs qs S).
Proof.
  intros qs S W. unfold clipped_pairs. erewrite collect_ok; [reflexivity|]. intros qi Hi. cbn beta. rewrite eval2_ok by auto. cbn [bind]. rewrite map_map. apply collect_ok. intros qj Hj. cbn beta. rewrite (@eval1_ok St n).
  - cbn [bind]. f_equal. f_equal. rewrite (map_combine_self (fun s => greedy_mix (map (qval n (fst qi) s) (seq 0 n))) (fun sa => qat (fst qj) (fst sa) (snd sa))). now rewrite map_map.
  - auto.
  - now rewrite map_length.
  - intros a Ha. apply in_map_iff in Ha. destruct Ha as (s & <- & _). now rewrite greedy_length, map_length, seq_length.
Qed.
Lemma nth_concat_const : forall (A : Type) (l : list (list A)) m i j d, (forall x, In x l -> length x = m) -> (i < length l)%nat -> (j < m)%nat -> nth (i * m + j) (concat l) d = nth j (nth i l []) d.
Proof.
  intros A l m. induction l as [|x l IH]; intros i j d H Hi Hj; cbn in Hi; [lia|]. cbn [concat]. assert (Lx : length x = m) by (apply H; now left). destruct i as [|i].
  - cbn [nth Nat.mul Nat.add]. now rewrite app_nth1 by lia.
  - rewrite app_nth2 by lia. replace (S i * m + j - length x)%nat with (i * m + j)%nat by (rewrite Lx; lia). cbn [nth]. apply IH; auto; [intros; apply H; now right|lia].
Qed.
Lemma pairs_length : forall qs S, length (pairs qs S) = (length qs * length qs)%nat.
Proof. intros qs S. unfold pairs. rewrite (@length_concat_const _ _ (length qs)), map_length; auto. intros x Hx. apply in_map_iff in Hx. destruct Hx as (q & <- & _). apply map_length. Qed.
Lemma pairs_nth : forall qs S i j qi qj, nth_error qs i = Some qi -> nth_error qs j = Some qj ->
  nth (i * length qs + j) (pairs qs S) ([], []) = (map (fun s => snd qj (qat (fst qj) s (greedy_mix (map (qval n (fst qi) s) (seq 0 n))))) S, map (fun s => greedy_mix (map (qval n (fst qi) s) (seq 0 n))) S).
Proof.
  intros qs S i j qi qj Hi Hj. assert (Li : (i < length qs)%nat) by (apply nth_error_Some; congruence). assert (Lj : (j < length qs)%nat) by (apply nth_error_Some; congruence). unfold pairs. rewrite nth_concat_const; auto.
  - rewrite (@nth_map_any _ _ _ qs i [] qi) by auto. rewrite (nth_error_nth qs i qi Hi). rewrite (@nth_map_any _ _ _ qs j ([], []) qj) by auto. now rewrite (nth_error_nth qs j qj Hj).
  - intros x Hx. apply in_map_iff in Hx. destruct Hx as (q & <- & _). apply map_length.
  - now rewrite map_length.
Qed.
Lemma rmin_list_spec : forall l x, In (rmin_list x l) (x :: l) /\ rmin_list x l <= x /\ forall y, In y l -> rmin_list x l <= y.
Proof.
  induction l as [|z l IH]; intros x; [cbn; split; [auto|split; [lra|tauto]]|]. cbn [rmin_list]. destruct (IH (Rmin x z)) as (A & B & C). pose proof (Rmin_l x z). pose proof (Rmin_r x z). split; [|split; [lra|intros y [<-|Hy]; [lra|auto]]].
  destruct A as [A|A]; [|right; now right]. rewrite <- A. unfold Rmin. destruct (Rle_dec x z); [now left|right; now left].
Qed.
Lemma rowmin_spec : forall l, l <> [] -> is_minimum_of l (rowmin l).
Proof. intros [|x l] H; [congruence|]. cbn [rowmin]. destruct (rmin_list_spec l x) as (A & B & C). split; auto. intros y [<-|Hy]; auto. Qed.
Lemma jargmin_aux_spec : forall l pre best m, (best < length pre)%nat -> nth best pre 0 = m -> (forall x, In x pre -> m <= x) ->
  let j := jargmin_aux l (length pre) best m in (j < length (pre ++ l))%nat /\ forall x, In x (pre ++ l) -> nth j (pre ++ l) 0 <= x.
Proof.
  induction l as [|x l IH]; intros pre best m Hb Em H.
  - cbn. rewrite app_nil_r. split; auto. intros x Hx. rewrite Em. auto.
  - cbn [jargmin_aux]. replace (pre ++ x :: l) with ((pre ++ [x]) ++ l) by (now rewrite <- app_assoc). destruct (Rlt_dec x m) as [L|L].
    + assert (E : S (length pre) = length (pre ++ [x])) by (rewrite app_length; cbn; lia). rewrite E. apply IH; [rewrite app_length; cbn; lia|rewrite app_nth2, Nat.sub_diag by lia; reflexivity|]. intros y Hy. apply in_app_iff in Hy. destruct Hy as [Hy|[<-|[]]]; [specialize (H y Hy); lra|lra].
    + assert (E : S (length pre) = length (pre ++ [x])) by (rewrite app_length; cbn; lia). rewrite E. apply IH; [rewrite app_length; cbn; lia|rewrite app_nth1 by lia; auto|]. intros y Hy. apply in_app_iff in Hy. destruct Hy as [Hy|[<-|[]]]; [auto|lra].
Qed.
Lemma jargmin_spec : forall l, l <> [] -> (jargmin l < length l)%nat /\ is_minimum_of l (nth (jargmin l) l 0).
Proof.
  intros [|x l] H; [congruence|]. destruct (@jargmin_aux_spec l [x] 0 x) as [A B]; [cbn; lia|reflexivity|intros y [<-|[]]; lra|]. cbn [length app] in A, B. unfold jargmin. split; [exact A|]. split; [apply nth_In; exact A|exact B].
Qed.
Lemma pair_row_in : forall qs S k s x, nth_error S k = Some s -> (In x (pair_row (pairs qs S) k) <-> exists qi qj, In qi qs /\ In qj qs /\ x = snd qj (qat (fst qj) s (greedy_mix (map (qval n (fst qi) s) (seq 0 n))))).
Proof.
  intros qs S k s x Hs. unfold pair_row, pairs. rewrite concat_map, map_map. split.
  - intros H. apply in_concat in H. destruct H as (l & Hl & Hx). apply in_map_iff in Hl. destruct Hl as (qi & <- & Hi). rewrite map_map in Hx. apply in_map_iff in Hx. destruct Hx as (qj & E & Hj). cbn [fst] in E. exists qi, qj. split; auto. split; auto. now rewrite (nth_map_error _ _ _ Hs) in E.
  - intros (qi & qj & Hi & Hj & ->). apply in_concat. eexists. split; [apply in_map_iff; exists qi; split; [reflexivity|auto]|]. rewrite map_map. apply in_map_iff. exists qj. split; auto. cbn [fst]. now rewrite (nth_map_error _ _ _ Hs).
Qed.
Lemma min_pairs : forall (qs : list (qf * (R -> R))) S k s m, (forall q, In q qs -> width n (fst q)) -> (forall qi qj, In qi qs -> In qj qs -> no_mixed_action n (fst qi) (fst qj) s) -> nth_error S k = Some s ->
  is_minimum_of (pair_row (pairs qs S) k) m -> clipped_min n qs s m.
Proof.
  intros qs S k s m W NM Hs [I U]. split.
  - apply (@pair_row_in qs S k s m Hs) in I. destruct I as (qi & qj & Hi & Hj & ->). exists qi, qj, (qat (fst qj) s (greedy_mix (map (qval n (fst qi) s) (seq 0 n)))). repeat (split; auto). apply qat_greedy; auto.
  - intros qi qj x Hi Hj G. rewrite (greedy_avg_unique G (@qat_greedy (fst qi) (fst qj) s ltac:(auto) ltac:(auto) ltac:(auto))). apply U. apply (@pair_row_in qs S k s _ Hs). exists qi, qj. auto.
Qed.
Lemma clipped_rows : forall f (qs : list (qf * (R -> R))) (b : tbatch St), (2 <= length qs)%nat -> (forall q, In q qs -> width n (fst q)) -> well_formed b -> (forall s qi qj, In s (tb_Snext b) -> In qi qs -> In qj qs -> no_mixed_action n (fst qi) (fst qj) s) ->
  exists out, clipped_double_q (Some n) (one_hot n) f qs b = Ok out /\ bootstrapped f (fun x => x) b (fun _ s m => clipped_min n qs s m) out.
Proof.
  intros f qs b L W WF NM. unfold clipped_double_q. destruct (Nat.ltb_spec (length qs) 2); [lia|]. rewrite clipped_pairs_ok by auto. cbn [bind]. unfold clipped_finish.
  change (exists out, finish f (fun x => x) b (map (fun k => rowmin (pair_row (pairs qs (tb_Snext b)) k)) (seq 0 (length (tb_Snext b)))) = Ok out /\ bootstrapped f (fun x => x) b (fun _ s m => clipped_min n qs s m) out).
  apply finish_rows; auto; [now rewrite map_length, seq_length|]. intros k s Hs. assert (K : (k < length (tb_Snext b))%nat) by (apply nth_error_Some; congruence).
  rewrite (@nth_map_any _ _ _ (seq 0 (length (tb_Snext b))) k 0 0%nat) by (now rewrite seq_length). rewrite seq_nth by auto. cbn [Nat.add]. apply min_pairs with (S := tb_Snext b) (k := k); auto; [intros; apply NM; auto; eapply nth_error_In; eauto|].
  apply rowmin_spec. intros E. apply (f_equal (@length R)) in E. unfold pair_row in E. rewrite map_length, pairs_length in E. cbn in E. nia.
Qed.
Lemma clipped_choice_ok : forall (qs : list (qf * (R -> R))) S k s, qs <> [] -> (forall q, In q qs -> width n (fst q)) -> nth_error S k = Some s -> (forall qi qj, In qi qs -> In qj qs -> no_mixed_action n (fst qi) (fst qj) s) ->
  exists ps i qi qj x, clipped_pairs (Some n) (one_hot n) qs S = Ok ps /\ nth_error qs i = Some qi /\ nth_error qs (fst (clipped_choice (length qs) ps k)) = Some qj /\
  snd (clipped_choice (length qs) ps k) = greedy_mix (map (qval n (fst qi) s) (seq 0 n)) /\ greedy_avg n (qval n (fst qi) s) (qval n (fst qj) s) x /\ clipped_min n qs s (snd qj x).
Proof.
  intros qs S k s NE W Hs NM. exists (pairs qs S). unfold clipped_choice. set (row := pair_row (pairs qs S) k). assert (K : (k < length S)%nat) by (apply nth_error_Some; congruence). assert (Lq : (1 <= length qs)%nat) by (destruct qs; [congruence|cbn; lia]).
  assert (LR : length row = (length qs * length qs)%nat) by (unfold row, pair_row; now rewrite map_length, pairs_length). assert (RN : row <> []) by (intros E; rewrite E in LR; cbn in LR; nia).
  destruct (jargmin_spec RN) as [J1 J2]. set (j := jargmin row) in *. cbn [fst snd]. set (i := (j / length qs)%nat). set (jj := (j mod length qs)%nat). assert (Ej : j = (i * length qs + jj)%nat) by (unfold i, jj; rewrite (Nat.mul_comm (j / length qs)); apply Nat.div_mod_eq).
  assert (Hjj : (jj < length qs)%nat) by (apply Nat.mod_upper_bound; lia). assert (Hi : (i < length qs)%nat) by (unfold i; apply Nat.div_lt_upper_bound; lia).
  destruct (nth_error qs i) as [qi|] eqn:Ei; [|apply nth_error_None in Ei; lia]. destruct (nth_error qs jj) as [qj|] eqn:Ejj; [|apply nth_error_None in Ejj; lia].
  pose proof (@pairs_nth qs S i jj qi qj Ei Ejj) as P. assert (Ii : In qi qs) by (eapply nth_error_In; eauto). assert (Ij : In qj qs) by (eapply nth_error_In; eauto).
  exists i, qi, qj, (qat (fst qj) s (greedy_mix (map (qval n (fst qi) s) (seq 0 n)))). split; [now apply clipped_pairs_ok|]. split; auto. split; auto. split.
  - rewrite Ej, P. cbn [snd]. rewrite (@nth_map_any _ _ _ S k [] s) by auto. now rewrite (nth_error_nth S k s Hs).
  - split; [apply qat_greedy; auto|]. apply min_pairs with (S := S) (k := k); auto. fold row. replace (snd qj (qat (fst qj) s (greedy_mix (map (qval n (fst qi) s) (seq 0 n))))) with (nth j row 0); auto.
    unfold row, pair_row. rewrite (@nth_map_any _ _ _ (pairs qs S) j 0 ([], [])) by (rewrite pairs_length; lia). rewrite Ej, P. cbn [fst]. now rewrite (nth_map_error _ _ _ Hs).
Qed.
End G.

(** * Contraction *)
Lemma contraction : forall (St : Type) f g (b : tbatch St) boot boot' out out' eps, inverse_pair f g -> bootstrapped f g b boot out -> bootstrapped f g b boot' out' ->
  (forall k s x x', nth_error (tb_Snext b) k = Some s -> boot k s x -> boot' k s x' -> Rabs (g x - g x') <= eps) ->
  forall k, (k < length (tb_Snext b))%nat -> Rabs (g (nth k out 0) - g (nth k out' 0)) <= Rabs (nth k (tb_In b) 0) * eps.
Proof.
  intros St f g b boot boot' out out' eps [GF _] [_ H] [_ H'] C k Hk. destruct (nth_error (tb_Snext b) k) as [s|] eqn:Es; [|apply nth_error_None in Es; lia].
  destruct (H k s Es) as (x & Bx & ->). destruct (H' k s Es) as (x' & Bx' & ->). rewrite !GF. replace (nth k (tb_Rn b) 0 + nth k (tb_In b) 0 * g x - (nth k (tb_Rn b) 0 + nth k (tb_In b) 0 * g x')) with (nth k (tb_In b) 0 * (g x - g x')) by lra.
  rewrite Rabs_mult. apply Rmult_le_compat_l; [apply Rabs_pos|eauto].
Qed.
Lemma max_incr : forall n h m g, increasing g -> is_maximum n h m -> is_maximum n (fun a => g (h a)) (g m).
Proof. intros n h m g I [(a & Ha & <-) U]. split; [exists a; auto|]. intros c Hc. destruct (U c Hc) as [L| ->]; [left; auto|lra]. Qed.
