(** Proofs about workers: episodes for the tracer, learners, waiting, attribute names. *)
From Coq Require Import List Bool Arith ZArith Lia String Ascii Reals.
From Verif Require Import PyCommon TracerModel TracerSpec WorkerModel WorkerSpec WorkerProofs.
Import ListNotations.
Set Implicit Arguments.

(** * Episodes *)
(** The trace call as a call of tracer.add(s, a, r, done, logp), with the default weight 1. *)
Definition as_add {S A : Type} (c : call S A) : step S A * R * bool := (mkStep (c_s c) (c_a c) (c_logp c) 1%R true, c_r c, c_done c).
Definition as_step {S A : Type} (c : call S A) : step S A * R := (mkStep (c_s c) (c_a c) (c_logp c) 1%R true, c_r c).
Lemma cut_one : forall (S A : Type) (cs : list (call S A)) cur rest, (forall i c, nth_error cs i = Some c -> c_done c = true -> i = List.length cs - 1) -> (exists c, last (map Some cs) None = Some c /\ c_done c = true) ->
  cut cur (map as_add cs ++ rest) = let (eps, r) := cut [] rest in ((cur ++ map as_step cs) :: eps, r).
Proof.
  intros S A cs. induction cs as [|c cs IH]; intros cur rest F (z & Z & ZD); [discriminate|]. cbn [map app cut]. unfold as_add at 1. destruct (c_done c) eqn:D.
  - pose proof (F 0 c eq_refl D) as E. destruct cs; [|cbn in E; lia]. reflexivity.
  - destruct cs as [|c' cs]; [cbn in Z; injection Z as <-; congruence|]. rewrite IH.
    + destruct (cut [] rest) as [eps r]. cbn [map]. rewrite <- app_assoc. reflexivity.
    + intros i x X Y. pose proof (F (Datatypes.S i) x X Y) as E. cbn [List.length] in *. assert (i < List.length (c' :: cs)) by (apply nth_error_Some; congruence). cbn [List.length] in *. lia.
    + exists z. split; auto.
Qed.
Section Ep.
Variables E P S A : Type.
Variable reset : E -> E * S.
Variable stp : E -> A -> E * (S * R * bool * bool).
Variable pi : P -> S -> P * (A * R).
Variable clock : E -> nat.
Variable n : nat.
Hypothesis H_reset : forall e e1 s, reset e = (e1, s) -> clock e1 = 0.
Hypothesis H_step : forall e a e1 s r d tr, stp e a = (e1, (s, r, d, tr)) -> clock e1 = Datatypes.S (clock e) /\ (n <= clock e1 -> d || tr = true).
Lemma rollouts_cut : n <> 0 -> forall k e p e' p' css, rollouts reset stp pi k n e p = (e', p', css) ->
  List.length css = k /\ cut [] (map as_add (List.concat css)) = (map (map as_step) css, []).
Proof.
  intros Hn. induction k as [|k IH]; intros e p e' p' css H; cbn [rollouts] in H.
  - injection H as <- <- <-. auto.
  - destruct (rollout reset stp pi n e p) as [[e1 p1] cs] eqn:R. destruct (rollouts reset stp pi k n e1 p1) as [[e2 p2] css'] eqn:RR. injection H as <- <- <-. destruct (IH _ _ _ _ _ RR) as [L C]. split; [cbn; lia|].
    unfold rollout in R. destruct (reset e) as [e0 s] eqn:HR. pose proof (H_reset HR) as C0. cbn [List.concat map]. rewrite map_app, cut_one.
    + now rewrite C.
    + now apply (roll_flags stp pi n e0 p s R).
    + apply (@roll_done E P S A stp pi clock n H_step n e0 p s _ _ _ R); auto. lia.
Qed.
End Ep.

(** * Learners *)
Lemma subseq_refl : forall (B : Type) (bs : list B), subseq bs bs.
Proof. induction bs; [apply sub_nil|now apply sub_take]. Qed.
Lemma subseq_snoc : forall (B : Type) (b : B) bs cs, subseq bs cs -> subseq bs (cs ++ [b]) /\ subseq (bs ++ [b]) (cs ++ [b]).
Proof. intros B b bs cs H. induction H as [|c bs cs H [I1 I2]|c bs cs H [I1 I2]]; cbn; split.
  - apply sub_skip, sub_nil.
  - apply sub_take, sub_nil.
  - now apply sub_skip.
  - now apply sub_skip.
  - now apply sub_take.
  - now apply sub_take.
Qed.
Section L.
Variables St B : Type.
Variable learn : St -> B -> St.
Definition lheld (s : lsys St B) (x : St) : Prop := x = ls_store s \/ exists i, nth_error (ls_pcs s) i = Some (LPulled x) \/ nth_error (ls_pcs s) i = Some (LLearned x).
Lemma lsys_reach : forall x0 k cs x, lheld (lsys_run learn (lsys_start B x0 k) cs) x -> exists bs, subseq bs (ls_used (lsys_run learn (lsys_start B x0 k) cs)) /\ learned learn x0 bs x.
Proof.
  intros x0 k cs. assert (G : forall cs s, (forall x, lheld s x -> exists bs, subseq bs (ls_used s) /\ learned learn x0 bs x) -> forall x, lheld (lsys_run learn s cs) x -> exists bs, subseq bs (ls_used (lsys_run learn s cs)) /\ learned learn x0 bs x).
  { clear. induction cs as [|[i b] cs IH]; intros s I; [exact I|]. cbn [lsys_run fold_left]. apply IH. clear IH cs. unfold lsys_step. destruct (nth_error (ls_pcs s) i) as [[|y|y]|] eqn:N; [| | |exact I].
    - intros x [H|(j & H)]; cbn [ls_store ls_pcs ls_used] in *; [apply I; now left|]. destruct (Nat.eq_dec i j) as [<-|NE]; [rewrite (upd_same _ _ _ N) in H; destruct H as [H|H]; try discriminate; injection H as <-; apply I; now left|]. rewrite upd_other in H by auto. apply I. right. eauto.
    - intros x H. assert (Q : lheld s x \/ x = learn y b).
      { destruct H as [H|(j & H)]; cbn [ls_store ls_pcs] in *; [left; now left|]. destruct (Nat.eq_dec i j) as [<-|NE]; [rewrite (upd_same _ _ _ N) in H; destruct H as [H|H]; try discriminate; injection H as <-; auto|]. rewrite upd_other in H by auto. left. right. eauto. }
      cbn [ls_used]. destruct Q as [Q| ->].
      + destruct (I x Q) as (bs & S1 & S2). exists bs. split; auto. now apply subseq_snoc.
      + destruct (I y) as (bs & S1 & S2); [right; eauto|]. exists (bs ++ [b]). split; [now apply subseq_snoc|]. now apply learned_step.
    - intros x [H|(j & H)]; cbn [ls_store ls_pcs ls_used] in *; [subst; apply I; right; eauto|]. destruct (Nat.eq_dec i j) as [<-|NE]; [rewrite (upd_same _ _ _ N) in H; destruct H as [H|H]; discriminate|]. rewrite upd_other in H by auto. apply I. right. eauto. }
  apply G. intros x [->|(i & [H|H])]; cbn [lsys_start ls_pcs ls_store ls_used] in *; [exists []; split; constructor| |]; apply nth_error_In, repeat_spec in H; discriminate.
Qed.
Definition lexact (x0 : St) (s : lsys St B) : Prop :=
  (ls_pcs s = [LIdle _] /\ learned learn x0 (ls_used s) (ls_store s)) \/ (ls_pcs s = [LPulled (ls_store s)] /\ learned learn x0 (ls_used s) (ls_store s)) \/
  (exists x, ls_pcs s = [LLearned x] /\ learned learn x0 (ls_used s) x).
Lemma lsys_single : forall x0 cs, lexact x0 (lsys_run learn (lsys_start B x0 1) cs).
Proof.
  intros x0 cs. assert (G : forall cs s, lexact x0 s -> lexact x0 (lsys_run learn s cs)).
  { clear. induction cs as [|[i b] cs IH]; intros s I; [exact I|]. cbn [lsys_run fold_left]. apply IH. clear IH. unfold lsys_step. destruct i as [|i].
    - destruct I as [[-> L]|[[E L]|(x & -> & L)]].
      + right. left. cbn. auto.
      + rewrite E. cbn [nth_error upd]. right. right. eexists. cbn. split; [reflexivity|]. now constructor.
      + cbn [nth_error upd]. left. cbn. auto.
    - assert (Q : nth_error (ls_pcs s) (Datatypes.S i) = None) by (destruct I as [[-> L]|[[-> L]|(x & -> & L)]]; destruct i; reflexivity). now rewrite Q. }
  apply G. left. cbn. split; [reflexivity|constructor].
Qed.
End L.

(** * Waiting *)
Lemma wait_some : forall fuel need lens k w ws, wait_loop fuel need lens k w = Some ws -> need <= lens (k + List.length ws) /\ List.length ws < fuel /\ (forall j, j < List.length ws -> lens (k + j) < need).
Proof.
  induction fuel as [|fuel IH]; intros need lens k w ws H; [discriminate|]. cbn [wait_loop] in H. destruct (Nat.ltb (lens k) need) eqn:L.
  - destruct (wait_loop fuel need lens (Datatypes.S k) (Z.min (30 * 1024) (w * 2))) as [ws'|] eqn:W; [|discriminate]. injection H as <-. apply IH in W. destruct W as (A & B & C). cbn [List.length]. split; [now rewrite Nat.add_succ_r|]. split; [lia|]. intros [|j] J; [rewrite Nat.add_0_r; now apply Nat.ltb_lt|]. rewrite Nat.add_succ_r. apply (C j). lia.
  - injection H as <-. cbn. rewrite Nat.add_0_r. apply Nat.ltb_ge in L. split; auto. split; [lia|]. intros j J. lia.
Qed.
Lemma wait_ends : forall fuel need lens k w j, j < fuel -> need <= lens (k + j) -> exists ws, wait_loop fuel need lens k w = Some ws.
Proof.
  induction fuel as [|fuel IH]; intros need lens k w j J H; [lia|]. cbn [wait_loop]. destruct (Nat.ltb (lens k) need) eqn:L; [|eauto].
  destruct j as [|j]; [rewrite Nat.add_0_r in H; apply Nat.ltb_lt in L; lia|]. destruct (IH need lens (Datatypes.S k) (Z.min (30 * 1024) (w * 2)) j) as [ws E]; [lia|now rewrite Nat.add_succ_r in H|]. rewrite E. eauto.
Qed.
Lemma wait_times : forall fuel need lens k w ws, wait_loop fuel need lens k w = Some ws -> forall j a b, nth_error ws j = Some a -> nth_error ws (Datatypes.S j) = Some b -> b = Z.min (30 * 1024) (a * 2).
Proof.
  induction fuel as [|fuel IH]; intros need lens k w ws H; [discriminate|]. cbn [wait_loop] in H. destruct (Nat.ltb (lens k) need) eqn:L.
  - destruct (wait_loop fuel need lens (Datatypes.S k) (Z.min (30 * 1024) (w * 2))) as [ws'|] eqn:W; [|discriminate]. injection H as <-. intros [|j] a b A B; cbn [nth_error] in *.
    + injection A as <-. destruct fuel as [|fuel]; [discriminate|]. cbn [wait_loop] in W. destruct (Nat.ltb (lens (Datatypes.S k)) need); [|injection W as <-; discriminate]. destruct (wait_loop fuel need lens (Datatypes.S (Datatypes.S k)) (Z.min (30 * 1024) (Z.min (30 * 1024) (w * 2) * 2))); [|discriminate]. injection W as <-. now injection B.
    + apply (IH _ _ _ _ _ W j a b A B).
  - injection H as <-. intros j a b A. destruct j; discriminate.
Qed.
Lemma wait_first : forall fuel need lens k w ws a, wait_loop fuel need lens k w = Some ws -> nth_error ws 0 = Some a -> a = w.
Proof.
  intros [|fuel] need lens k w ws a H A; [discriminate|]. cbn [wait_loop] in H. destruct (Nat.ltb (lens k) need); [|injection H as <-; discriminate]. destruct (wait_loop fuel need lens (Datatypes.S k) (Z.min (30 * 1024) (w * 2))); [|discriminate]. injection H as <-. now injection A.
Qed.
Lemma wait_exact : forall fuel need lens ws j a, wait_loop fuel need lens 0 1%Z = Some ws -> nth_error ws j = Some a -> a = Z.min (30 * 1024) (2 ^ Z.of_nat j).
Proof.
  intros fuel need lens ws j. induction j as [|j IH]; intros a H A.
  - rewrite (wait_first _ _ _ _ _ H A). reflexivity.
  - assert (L : Datatypes.S j < List.length ws) by (apply nth_error_Some; congruence). destruct (nth_error ws j) as [b|] eqn:B; [|apply nth_error_None in B; lia]. rewrite (wait_times _ _ _ _ _ H j B A). rewrite (IH b H eq_refl). replace (Z.of_nat (Datatypes.S j)) with (Z.succ (Z.of_nat j)) by lia. rewrite Z.pow_succ_r by lia. lia.
Qed.

(** * Attribute names *)
Lemma lookup_assign_same : forall attrs n v, lookup (assign attrs n v) n = Some v.
Proof. induction attrs as [|[m u] attrs IH]; intros n v; cbn [assign lookup]; [now rewrite String.eqb_refl|]. destruct (String.eqb m n) eqn:E; cbn [lookup]; rewrite E; auto. Qed.
Lemma lookup_assign_other : forall attrs n k v, n <> k -> lookup (assign attrs n v) k = lookup attrs k.
Proof.
  induction attrs as [|[m u] attrs IH]; intros n k v N; cbn [assign lookup].
  - destruct (String.eqb n k) eqn:E; auto. apply String.eqb_eq in E. congruence.
  - destruct (String.eqb m n) eqn:E; cbn [lookup].
    + apply String.eqb_eq in E. subst m. destruct (String.eqb n k) eqn:E; auto. apply String.eqb_eq in E. congruence.
    + destruct (String.eqb m k); auto.
Qed.
Lemma dotless_cons : forall c n, dotless (String c n) <-> c <> "."%char /\ dotless n.
Proof. intros c n. unfold dotless. cbn. intuition congruence. Qed.
Lemma split_dotless : forall n, dotless n -> split_dots n = (n, []).
Proof.
  induction n as [|c n IH]; intros H; [reflexivity|]. apply dotless_cons in H. destruct H as [H1 H2]. cbn [split_dots]. rewrite IH by auto. destruct (Ascii.eqb c ".") eqn:E; auto. apply Ascii.eqb_eq in E. congruence.
Qed.
Lemma split_join : forall n r, dotless n -> split_dots (n ++ "." ++ r) = (n, fst (split_dots r) :: snd (split_dots r)).
Proof.
  induction n as [|c n IH]; intros r H.
  - cbn [append split_dots]. destruct (split_dots r) as [h t]. reflexivity.
  - apply dotless_cons in H. destruct H as [H1 H2]. cbn [append split_dots]. cbn [append] in IH. rewrite IH by auto. destruct (Ascii.eqb c ".") eqn:E; auto. apply Ascii.eqb_eq in E. congruence.
Qed.
Lemma split_dotted : forall ns n, dotless n -> Forall dotless ns -> split_dots (dotted n ns) = (n, ns).
Proof.
  induction ns as [|m ns IH]; intros n H F; cbn [dotted]; [now apply split_dotless|]. inversion F; subst. rewrite split_join by auto. rewrite IH by auto. reflexivity.
Qed.
Lemma get1_ok : forall v n u, get1 v n = Ok u <-> at_path v [n] u.
Proof.
  intros v n u. split.
  - destruct v as [z|attrs]; cbn; [discriminate|]. destruct (lookup attrs n) as [w|] eqn:L; [|discriminate]. intros H. injection H as <-. econstructor; eauto. constructor.
  - intros H. inversion H; subst. cbn. rewrite H3. inversion H5; subst. reflexivity.
Qed.
Lemma at_cons : forall v n m ns w, at_path v (n :: m :: ns) w <-> exists u, get1 v n = Ok u /\ at_path u (m :: ns) w.
Proof.
  intros v n m ns w. split.
  - intros H. inversion H; subst. exists u. split; auto. cbn. now rewrite H3.
  - intros (u & G & H). destruct v as [z|attrs]; [discriminate|]. cbn in G. destruct (lookup attrs n) as [u'|] eqn:L; [|discriminate]. injection G as ->. econstructor; eauto.
Qed.
Lemma get_path_spec : forall rest v n d, (forall w, at_path v (n :: rest) w -> get_path v n rest d = Ok w) /\
  (forall w, get_path v n rest None = Ok w -> at_path v (n :: rest) w) /\ ((forall w, ~ at_path v (n :: rest) w) -> get_path v n rest None = Err EAttribute).
Proof.
  induction rest as [|m rest IH]; intros v n d; cbn [get_path].
  - split; [|split].
    + intros w H. apply get1_ok in H. now rewrite H.
    + intros w H. apply get1_ok. destruct (get1 v n); [now injection H as ->|discriminate].
    + intros H. destruct (get1 v n) as [u|e] eqn:G; [destruct (H u); now apply get1_ok|]. destruct v as [z|attrs]; cbn in G; [now injection G as <-|]. destruct (lookup attrs n); [discriminate|]. now injection G as <-.
  - split; [|split].
    + intros w H. apply at_cons in H. destruct H as (u & -> & H). cbn [bind]. now apply IH.
    + intros w H. destruct (get1 v n) as [u|e] eqn:G; [|discriminate]. cbn [bind] in H. apply at_cons. exists u. split; auto. now apply (IH u m None).
    + intros H. destruct (get1 v n) as [u|e] eqn:G; cbn [bind].
      * apply (IH u m None). intros w Q. apply (H w). apply at_cons. eauto.
      * destruct v as [z|attrs]; cbn in G; [now injection G as <-|]. destruct (lookup attrs n); [discriminate|]. now injection G as <-.
Qed.
Lemma set_path_get : forall rest v n x v', set_path v n rest x = Ok v' -> at_path v' (n :: rest) x.
Proof.
  induction rest as [|m rest IH]; intros [z|attrs] n x v' H; cbn [set_path] in H; try discriminate.
  - injection H as <-. econstructor; [apply lookup_assign_same|constructor].
  - cbn [get1] in H. destruct (lookup attrs n) as [u|] eqn:L; [|discriminate]. cbn [bind] in H. destruct (set_path u m rest x) as [u'|] eqn:S; [|discriminate]. cbn [bind] in H. injection H as <-. econstructor; [apply lookup_assign_same|]. now apply (IH u).
Qed.
Lemma set_path_frame : forall rest v n x v' q w, set_path v n rest x = Ok v' -> apart (n :: rest) q -> (at_path v q w <-> at_path v' q w).
Proof.
  induction rest as [|m rest IH]; intros [z|attrs] n x v' q w H AP; cbn [set_path] in H; try discriminate; destruct AP as (k & a & b & A & B & NE & F).
  - injection H as <-. destruct k as [|[|k]]; try discriminate. cbn in A. injection A as ->. destruct q as [|c q]; [discriminate|]. cbn in B. injection B as ->. split; intros Q; inversion Q; subst; (econstructor; [|eassumption]).
    + rewrite lookup_assign_other; auto.
    + rewrite lookup_assign_other in H2; auto.
  - cbn [get1] in H. destruct (lookup attrs n) as [u|] eqn:L; [|discriminate]. cbn [bind] in H. destruct (set_path u m rest x) as [u'|] eqn:S; [|discriminate]. cbn [bind] in H. injection H as <-. destruct q as [|c q]; [destruct k; discriminate|]. destruct k as [|k].
    + cbn in A, B. injection A as ->. injection B as ->. split; intros Q; inversion Q; subst; (econstructor; [|eassumption]); [rewrite lookup_assign_other; auto|rewrite lookup_assign_other in H2; auto].
    + cbn [firstn] in F. injection F as <- F. cbn [nth_error] in A, B. assert (AP : apart (m :: rest) q) by (exists k, a, b; auto). pose proof (IH u m x u' q w S AP) as I. split; intros Q; inversion Q; subst.
      * rewrite L in H2. injection H2 as <-. econstructor; [apply lookup_assign_same|]. now apply I.
      * rewrite lookup_assign_same in H2. injection H2 as <-. econstructor; [exact L|]. now apply I.
Qed.
Lemma set_path_fails : forall rest v n x, (exists v', set_path v n rest x = Ok v') \/ set_path v n rest x = Err EAttribute.
Proof.
  induction rest as [|m rest IH]; intros [z|attrs] n x; cbn [set_path]; auto; [left; eauto|]. cbn [get1]. destruct (lookup attrs n) as [u|]; cbn [bind]; auto. destruct (IH u m x) as [[v' ->]| ->]; cbn [bind]; eauto.
Qed.
