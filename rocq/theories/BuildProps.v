(** Property C115: function approximators that can be constructed can be called. *)
From Coq Require Import List ZArith Lia Bool Reals Lra.
From Verif Require Import PyCommon CommonProofs DistModel DistSpec PolicySpec StochModel StochProofs CompModel CompSpec CompProofs CompProofs3 CompProofs5 CompProps BuildModel BuildSpec BuildProofs BuildProofs2.
Import ListNotations.
Local Open Scope R_scope.

(** A layer whose parameters were made for inputs of one shape: it raises ValueError for others. *)
Definition ex_layer (sig : list pname) (out : bool -> otree) : hkfun :=
  mkHk sig (fun made args tr => if forallb (fun p => same_tree (fst p) (snd p)) (combine made args) then Ok (out tr) else Err EValue).
Lemma ex_layer_traceable : forall sig out, (forall tr, sound (out tr)) -> traceable (ex_layer sig out).
Proof.
  intros sig out HS. split.
  - intros made args args' tr F. unfold ex_layer. cbn [hk_run]. assert (E : forallb (fun p => same_tree (fst p) (snd p)) (combine made args) = forallb (fun p => same_tree (fst p) (snd p)) (combine made args')).
    { revert args args' F. induction made as [|m made IH]; intros args args' F; [reflexivity|]. inversion F; subst; [reflexivity|]. cbn. rewrite (IH l l') by auto. f_equal. apply eq_true_iff_eq. split; apply same_form_tree; auto using same_form_sym. }
    rewrite E. clear E. destruct (forallb _ _); cbn [same_outcome]; auto using same_form_refl.
  - intros made args tr o H. cbn in H. destruct (forallb _ _); [|discriminate]. injection H as <-. auto.
Qed.
Lemma ex_layer_steady : forall sig o, steady (ex_layer sig (fun _ => o)).
Proof. intros sig o made args. unfold ex_layer. cbn [hk_run]. destruct (forallb _ _); cbn [same_outcome]; auto using same_form_refl. Qed.
(** One-hot observations out of n. *)
Definition ex_pre (n : nat) (s : nat) : outcome otree := Ok (OArr true [1%nat; n] (map (fun k => if Nat.eqb k s then 1 else 0) (seq 0 n))).
Lemma ex_pre_uniform : forall n P, uniform P (ex_pre n).
Proof.
  intros n P. split.
  - intros x _. eexists. split; [reflexivity|]. cbn. rewrite map_length, seq_length. lia.
  - intros x y o o' _ _ H H'. injection H as <-. injection H' as <-. constructor.
Qed.
Definition ex_number : otree := OArr true [1%nat] [7].

(** ** V *)
(** C115: the constructor of V refuses functions with other parameters than (S, is_training) and functions whose output for an example is
    anything but an array of floats of shape (1,), with TypeError; exceptions of the preprocessor and of the function pass through; all
    other functions are accepted. *)
Theorem C115_v_checks : forall (Obs Act : Type) pre (noact : Act -> outcome otree) (s0 : Obs) f,
  (hk_sig f <> [NS; NTrain] -> v_init pre noact s0 f = Err EType) /\
  (hk_sig f = [NS; NTrain] ->
    (forall e, pre s0 = Err e -> v_init pre noact s0 f = Err e) /\
    (forall S, pre s0 = Ok S ->
      (forall e, hk_run f [erase S] [S] true = Err e -> v_init pre noact s0 f = Err e) /\
      (forall o, hk_run f [erase S] [S] true = Ok o -> (exists v, v_init pre noact s0 f = Ok v) /\ (exists x, o = OArr true [1%nat] x) \/ v_init pre noact s0 f = Err EType /\ forall x, o <> OArr true [1%nat] x))).
Proof.
  intros Obs Act pre noact s0 f. unfold v_init. split; [intros H; now rewrite (sig_eqb_no H)|]. intros ->. cbn [sig_eqb pname_eqb andb]. split; [intros e ->; reflexivity|]. intros S ->. cbn [bind]. rewrite try_out_eq. cbn [map]. split; [intros e ->; reflexivity|]. intros o ->. cbn [bind].
  destruct (check_array_iff [1%nat] o) as [[-> H]|[-> H]]; cbn [bind]; [left; eauto|right; auto].
Qed.
Print Assumptions C115_v_checks.
Example C115_v_checks_ex : (exists v, v_init (Act := unit) (ex_pre 2) (fun _ => Err EType) 0%nat (ex_layer [NS; NTrain] (fun _ => ex_number)) = Ok v) /\
  v_init (Act := unit) (ex_pre 2) (fun _ => Err EType) 0%nat (ex_layer [NS; NA; NTrain] (fun _ => ex_number)) = Err EType /\
  v_init (Act := unit) (ex_pre 2) (fun _ => Err EType) 0%nat (ex_layer [NS; NTrain] (fun _ => OArr true [1%nat; 1%nat] [7])) = Err EType.
Proof. repeat split. eexists. reflexivity. Qed.

(** C115: once a state-value function is constructed, it returns a number for every observation: the one that its function gives for the
    preprocessed observation, transformed back. *)
Theorem C115_v : forall (Obs Act : Type) (P : Obs -> Prop) pre (noact : Act -> outcome otree) s0 f v, v_init pre noact s0 f = Ok v -> traceable f -> steady f -> uniform P pre -> P s0 ->
  exists made, forall finv s, P s -> exists S x, pre s = Ok S /\ hk_run f made [S] false = Ok (OArr true [1%nat] [x]) /\ v_call v finv s = Ok (finv x).
Proof.
  intros Obs Act P pre noact s0 f v E HT HB [HU1 HU2] H0. unfold v_init in E. destruct (sig_eqb _ _); [|discriminate]. destruct (pre s0) as [S0|] eqn:E0; [|discriminate]. cbn [bind] in E. rewrite try_out_eq in E. cbn [map] in E.
  destruct (hk_run f [erase S0] [S0] true) as [o|] eqn:E1; [|discriminate]. cbn [bind] in E. destruct (check_array_iff [1%nat] o) as [[E2 (x0 & ->)]|[E2 _]]; rewrite E2 in E; [|discriminate]. cbn [bind] in E. injection E as <-.
  exists [erase S0]. intros finv s Hs. destruct (HU1 s Hs) as (S & ES & _). destruct (@settled f [erase S0] [S0] [S] _ HT HB E1) as (o1 & o2 & F1 & F2 & E3 & S3); [constructor; [now apply (HU2 s0 s)|constructor]|].
  destruct (array_form F1 F2) as (y & ->). cbn in S3. destruct y as [|x [|]]; try discriminate. exists S, x. split; auto. split; auto. unfold v_call. cbn [ap_obs ap_fun ap_made]. rewrite ES. cbn [bind]. rewrite E3. reflexivity.
Qed.
Print Assumptions C115_v.
Example C115_v_ex : exists v, v_init (Act := unit) (ex_pre 2) (fun _ => Err EType) 0%nat (ex_layer [NS; NTrain] (fun _ => ex_number)) = Ok v /\ v_call v (fun x => 2 * x) 1%nat = Ok (2 * 7).
Proof. eexists. split; reflexivity. Qed.

(** C115: the constructor evaluates the function with is_training=True only.  A function that returns something else with
    is_training=False is accepted, and every call raises. *)
Theorem C115_training_refuted : exists (pre : nat -> outcome otree) f v, traceable f /\ (forall P, uniform P pre) /\ v_init (Act := unit) pre (fun _ => Err EType) 0%nat f = Ok v /\ forall finv s, v_call v finv s = Err EType.
Proof.
  exists (ex_pre 2), (ex_layer [NS; NTrain] (fun tr => if tr then ex_number else OTuple [ex_number])). eexists. split; [apply ex_layer_traceable; intros [|]; cbn; auto|]. split; [apply ex_pre_uniform|]. split; [reflexivity|]. intros finv s. reflexivity.
Qed.
Print Assumptions C115_training_refuted.

(** ** Q and RewardFunction *)
(** C115: signatures and outputs that Q (and RewardFunction) accepts: (S, A, is_training) with an output of shape (1,), or, for Discrete(n)
    actions, (S, is_training) with an output of shape (1, n). *)
Theorem C115_q_checks : forall (Obs Act : Type) discrete def pre act (s0 : Obs) (a0 : Act) f,
  (hk_sig f <> [NS; NA; NTrain] -> hk_sig f <> [NS; NTrain] -> q_init discrete def pre act s0 a0 f = Err EType) /\
  (hk_sig f = [NS; NTrain] -> discrete = None -> q_init discrete def pre act s0 a0 f = Err EType) /\
  (forall S A args shape, def s0 = Ok S -> act a0 = Ok A -> (hk_sig f = [NS; NA; NTrain] /\ args = [S; A] /\ shape = [1%nat] \/ hk_sig f = [NS; NTrain] /\ args = [S] /\ exists n, discrete = Some n /\ shape = [1%nat; n]) ->
    (forall e, hk_run f (map erase args) args true = Err e -> q_init discrete def pre act s0 a0 f = Err e) /\
    (forall o, hk_run f (map erase args) args true = Ok o -> (exists q, q_init discrete def pre act s0 a0 f = Ok q) /\ (exists x, o = OArr true shape x) \/ q_init discrete def pre act s0 a0 f = Err EType /\ forall x, o <> OArr true shape x)).
Proof.
  intros Obs Act discrete def pre act s0 a0 f. unfold q_init, signature_type. split; [intros H1 H2; now rewrite (sig_eqb_no H1), (sig_eqb_no H2)|]. split; [intros -> ->; reflexivity|].
  intros S A args shape -> -> [(-> & -> & ->)|(-> & -> & n & -> & ->)]; cbn [sig_eqb pname_eqb andb bind inputs]; rewrite try_out_eq; (split; [intros e ->; reflexivity|]); intros o ->; cbn [bind].
  - destruct (check_array_iff [1%nat] o) as [[-> H]|[-> H]]; cbn [bind]; [left; eauto|right; auto].
  - destruct (check_array_iff [1%nat; n] o) as [[-> H]|[-> H]]; cbn [bind]; [left; eauto|right; auto].
Qed.
Print Assumptions C115_q_checks.
Example C115_q_checks_ex : (exists q, q_init (Some 3%nat) (ex_pre 2) (ex_pre 2) (ex_pre 3) 0%nat 0%nat (ex_layer [NS; NTrain] (fun _ => OArr true [1; 3]%nat [7; 8; 9])) = Ok q) /\
  q_init None (ex_pre 2) (ex_pre 2) (ex_pre 3) 0%nat 0%nat (ex_layer [NS; NTrain] (fun _ => OArr true [1; 3]%nat [7; 8; 9])) = Err EType /\
  q_init (Some 3%nat) (ex_pre 2) (ex_pre 2) (ex_pre 3) 0%nat 0%nat (ex_layer [NS; NTrain] (fun _ => OArr true [1]%nat [7])) = Err EType.
Proof. repeat split. eexists. reflexivity. Qed.

(** C115: a constructed q-function returns a number for all observations and actions if its observation preprocessor gives trees of the same
    form as the default one; a type-2 function needs actions that are preprocessed to rows of n numbers. *)
Theorem C115_q : forall (Obs Act : Type) (P : Obs -> Prop) (PA : Act -> Prop) discrete def pre act s0 a0 f q, q_init discrete def pre act s0 a0 f = Ok q -> traceable f -> steady f ->
  uniform P pre -> uniform PA act -> P s0 -> PA a0 -> (forall s S S', P s -> def s = Ok S -> pre s = Ok S' -> same_form S S') ->
  (hk_sig f = [NS; NTrain] -> forall n a, discrete = Some n -> PA a -> exists fl x, act a = Ok (OArr fl [1%nat; n] x)) ->
  exists made, forall finv s a, P s -> PA a -> exists S A x, pre s = Ok S /\ act a = Ok A /\ q_call discrete q finv s a = Ok (finv x) /\
    (hk_sig f = [NS; NA; NTrain] /\ hk_run f made [S; A] false = Ok (OArr true [1%nat] [x]) \/
     hk_sig f = [NS; NTrain] /\ exists n fl e row, discrete = Some n /\ A = OArr fl [1%nat; n] e /\ hk_run f made [S] false = Ok (OArr true [1%nat; n] row) /\ length row = n /\ x = pairing e row).
Proof.
  intros Obs Act P PA discrete def pre act s0 a0 f q E HT HB [HU1 HU2] [HV1 HV2] H0 HA0 HD HR. unfold q_init in E. destruct (signature_type discrete f) as [t|] eqn:ET; [|discriminate]. cbn [bind] in E.
  destruct (def s0) as [S0|] eqn:E0; [|discriminate]. cbn [bind] in E. destruct (act a0) as [A0|] eqn:EA0; [|discriminate]. cbn [bind] in E. rewrite try_out_eq in E. destruct (hk_run f _ _ true) as [o|] eqn:E1; [|discriminate]. cbn [bind] in E.
  exists (map erase (inputs t S0 A0)). intros finv s a Hs Ha. destruct (HU1 s Hs) as (S & ES & _). destruct (HU1 s0 H0) as (S0' & ES0 & _). destruct (HV1 a Ha) as (A & EA & SA). exists S, A.
  assert (FS : exists o1 o2, same_form o o1 /\ same_form o1 o2 /\ hk_run f (map erase (inputs t S0 A0)) (inputs t S0' A) false = Ok o2 /\ sound o2).
  { apply settled with (args := inputs t S0 A0); auto. destruct t; cbn [inputs]; [|constructor; [now apply (HD s0)|constructor]]. constructor; [now apply (HD s0)|]. constructor; [now apply (HV2 a0 a)|constructor]. }
  destruct FS as (o1 & o2 & F1 & F2 & E3 & S3). pose proof (HB (map erase (inputs t S0 A0)) (inputs t S0' A)) as HB1. rewrite E3 in HB1. destruct (hk_run f (map erase (inputs t S0 A0)) (inputs t S0' A) true) as [o3|] eqn:E4; [|contradiction].
  assert (E5 : exists o4, hk_run f (map erase (inputs t S0 A0)) (inputs t S A) false = Ok o4 /\ same_form o2 o4).
  { destruct HT as [HT _]. pose proof (HT (map erase (inputs t S0 A0)) (inputs t S0' A) (inputs t S A) false) as G. rewrite E3 in G. destruct (hk_run f _ (inputs t S A) false) as [o4|].
    - exists o4. split; auto. apply G. destruct t; constructor; try (now apply (HU2 s0 s)); constructor; auto using same_form_refl; constructor.
    - exfalso. apply G. destruct t; constructor; try (now apply (HU2 s0 s)); constructor; auto using same_form_refl; constructor. }
  destruct E5 as (o4 & E5 & F4). assert (S4 : sound o4) by (eapply (proj2 HT); eauto).
  destruct (check_array_iff (match t, discrete with Type2, Some n => [1%nat; n] | _, _ => [1%nat] end) o) as [[E2 (x0 & ->)]|[E2 _]]; rewrite E2 in E; [|discriminate]. cbn [bind] in E. injection E as <-.
  destruct (array_form F1 F2) as (y & ->). inversion F4; subst. unfold q_call. cbn [ap_obs ap_act ap_type ap_fun ap_made]. rewrite ES, EA. cbn [bind]. unfold signature_type in ET. destruct (sig_eqb (hk_sig f) [NS; NA; NTrain]) eqn:EG.
  - apply sig_eqb_iff in EG. injection ET as <-. cbn [check_action bind]. rewrite E5. cbn [bind project]. cbn in S4. destruct y0 as [|x [|]]; try discriminate. exists x. split; [reflexivity|]. split; [reflexivity|]. split; [reflexivity|]. left. auto.
  - clear EG. destruct (sig_eqb (hk_sig f) [NS; NTrain]) eqn:EG; [|discriminate]. apply sig_eqb_iff in EG. destruct discrete as [n|]; [|discriminate]. injection ET as <-. destruct (HR EG n a eq_refl Ha) as (fl & xa & EA'). rewrite EA in EA'. injection EA' as ->. cbn [check_action]. rewrite Nat.eqb_refl. cbn [bind]. rewrite E5. cbn [bind project]. exists (dot xa y0). split; [reflexivity|]. split; [reflexivity|]. split; [reflexivity|]. right. split; auto. exists n, fl, xa, y0. split; auto. split; auto. split; auto. split; [cbn in S4; lia|apply dot_pairing].
Qed.
Print Assumptions C115_q.
Example C115_q_ex : exists q, q_init (Some 3%nat) (ex_pre 2) (ex_pre 2) (ex_pre 3) 0%nat 0%nat (ex_layer [NS; NTrain] (fun _ => OArr true [1; 3]%nat [7; 8; 9])) = Ok q /\
  q_call (Some 3%nat) q (fun x => x) 1%nat 2%nat = Ok (dot [0; 0; 1] [7; 8; 9]) /\ dot [0; 0; 1] [7; 8; 9] = 9.
Proof. eexists. split; [reflexivity|]. split; [reflexivity|]. cbn. unfold dot. cbn. lra. Qed.

(** C115: for a function of (S, is_training), whether a Q can be constructed does not depend on the shape of preprocessed actions; but every call with
    an action that is not preprocessed into a row of n numbers raises AssertionError. *)
Theorem C115_q_action_refused : forall (Obs Act : Type) n def pre act (s0 : Obs) (a0 : Act) f q finv s a S A, hk_sig f = [NS; NTrain] -> q_init (Some n) def pre act s0 a0 f = Ok q -> pre s = Ok S -> act a = Ok A ->
  (forall fl b x, A <> OArr fl [b; n] x) -> q_call (Some n) q finv s a = Err EAssertion.
Proof.
  intros Obs Act n def pre act s0 a0 f q finv s a S A HG E ES EA HN. unfold q_init, signature_type in E. rewrite HG in E. cbn [sig_eqb pname_eqb andb bind] in E. destruct (def s0) as [S0|]; [|discriminate]. cbn [bind] in E. destruct (act a0) as [A0|]; [|discriminate]. cbn [bind] in E. destruct (try_out f _) as [o|]; [|discriminate]. cbn [bind] in E. destruct (check_array _ _); [|discriminate]. cbn [bind] in E. injection E as <-.
  unfold q_call. cbn [ap_obs ap_act ap_type]. rewrite ES, EA. cbn [bind check_action]. destruct A as [fl [|b [|m [|]]] x| | |]; try reflexivity. destruct (Nat.eqb_spec m n) as [->|]; [|reflexivity]. now destruct (HN fl b x).
Qed.
Print Assumptions C115_q_action_refused.
Example C115_q_action_refused_ex : exists q, q_init (Some 3%nat) (ex_pre 2) (ex_pre 2) (ex_pre 4) 0%nat 0%nat (ex_layer [NS; NTrain] (fun _ => OArr true [1; 3]%nat [7; 8; 9])) = Ok q /\ (forall fl b x, ex_pre 4 2 <> Ok (OArr fl [b; 3%nat] x)) /\ q_call (Some 3%nat) q (fun x => x) 1%nat 2%nat = Err EAssertion.
Proof. eexists. split; [reflexivity|]. split; [intros fl b x E; discriminate|reflexivity]. Qed.

(** C115: the constructor of Q does not look at the observation preprocessor it is given. *)
Theorem C115_q_blind : forall (Obs Act : Type) discrete def pre pre' act (s0 : Obs) (a0 : Act) f,
  (forall e, q_init discrete def pre act s0 a0 f = Err e <-> q_init discrete def pre' act s0 a0 f = Err e).
Proof.
  intros Obs Act discrete def pre pre' act s0 a0 f e. unfold q_init. destruct (signature_type discrete f); cbn [bind]; [|tauto]. destruct (def s0); cbn [bind]; [|tauto]. destruct (act a0); cbn [bind]; [|tauto]. destruct (try_out f _); cbn [bind]; [|tauto]. destruct (check_array _ _); cbn [bind]; [|tauto]. split; discriminate.
Qed.
Print Assumptions C115_q_blind.
Example C115_q_blind_ex : q_init None (ex_pre 2) (fun _ => Err EKey) (ex_pre 3) 0%nat 0%nat (ex_layer [NS; NTrain] (fun _ => ex_number)) = Err EType.
Proof. reflexivity. Qed.

(** C115 refuted for Q with an observation_preprocessor: a function is accepted although every call raises, and a function that works for all
    preprocessed observations is refused. *)
Theorem C115_q_refuted : exists (def pre act : nat -> outcome otree), (forall P, uniform P def) /\ (forall P, uniform P pre) /\ (forall P, uniform P act) /\
  (exists f q, traceable f /\ steady f /\ q_init None def pre act 0%nat 0%nat f = Ok q /\ forall finv s a, q_call None q finv s a = Err EValue) /\
  (exists f, traceable f /\ steady f /\ (forall made s a S A, pre s = Ok S -> act a = Ok A -> hk_run f made [S; A] true = Ok ex_number /\ hk_run f made [S; A] false = Ok ex_number) /\ q_init None def pre act 0%nat 0%nat f = Err EValue).
Proof.
  exists (ex_pre 2), (ex_pre 3), (ex_pre 1). split; [apply ex_pre_uniform|]. split; [apply ex_pre_uniform|]. split; [apply ex_pre_uniform|]. split.
  - exists (ex_layer [NS; NA; NTrain] (fun _ => ex_number)). eexists. split; [apply ex_layer_traceable; intros; reflexivity|]. split; [apply ex_layer_steady|]. split; [reflexivity|]. intros finv s a. reflexivity.
  - exists (mkHk [NS; NA; NTrain] (fun _ args tr => hk_run (ex_layer [NS; NA; NTrain] (fun _ => ex_number)) [OArr true [1; 3]%nat []] args tr)). split; [|split; [|split]].
    + destruct (ex_layer_traceable [NS; NA; NTrain] (fun _ => ex_number)) as [H1 H2]; [intros; reflexivity|]. split; intros; cbn [hk_run] in *; [now apply H1|]. eapply H2; eauto.
    + intros made args. apply ex_layer_steady.
    + intros made s a S A ES EA. injection ES as <-. split; reflexivity.
    + reflexivity.
Qed.
Print Assumptions C115_q_refuted.

(** ** Policy, StochasticV, StateDensity *)
(** C115: the constructor of a policy over an action space accepts exactly the functions of (S, is_training) whose output for an example has
    the structure and the shapes of the parameters of the action space; sequences must be tuples. *)
Theorem C115_policy_checks : forall (Obs Act : Type) sp d pre (noact : Act -> outcome otree) (s0 : Obs) f, mk sp = Ok d ->
  (hk_sig f <> [NS; NTrain] -> s2_init d pre noact s0 f = Err EType) /\
  (hk_sig f = [NS; NTrain] ->
    (forall e, pre s0 = Err e -> s2_init d pre noact s0 f = Err e) /\
    (forall S, pre s0 = Ok S ->
      (forall e, hk_run f [erase S] [S] true = Err e -> s2_init d pre noact s0 f = Err e) /\
      (forall o, hk_run f [erase S] [S] true = Ok o -> (exists p, s2_init d pre noact s0 f = Ok p) /\ param_tree [] sp o \/ s2_init d pre noact s0 f = Err EType /\ ~ param_tree [] sp o))).
Proof.
  intros Obs Act sp d pre noact s0 f M. unfold s2_init. split; [intros H; now rewrite (sig_eqb_no H)|]. intros ->. cbn [sig_eqb pname_eqb andb]. split; [intros e ->; reflexivity|]. intros S ->. cbn [bind]. rewrite try_out_eq. cbn [map]. split; [intros e ->; reflexivity|]. intros o ->. cbn [bind].
  destruct (check_tree_iff o (asks_params [] sp M)) as [[-> H]|[-> H]]; cbn [bind]; [left; eauto|right; auto].
Qed.
Print Assumptions C115_policy_checks.
Definition ex_row (x : list R) : otree := OArr true [1%nat; length x] x.
Example C115_policy_checks_ex : mk (SpTuple [SpDiscrete 2 0; SpBox [(None, None)]]) = Ok (PNode KTuple [(0%nat, PCat 2); (1%nat, PNorm [(-256, 256)])]) /\
  param_tree [] (SpTuple [SpDiscrete 2 0; SpBox [(None, None)]]) (OTuple [ODict [(0%nat, ex_row [1; 2])]; ODict [(1%nat, ex_row [3]); (2%nat, ex_row [4])]]) /\
  ~ param_tree [] (SpTuple [SpDiscrete 2 0]) (OLst [ODict [(0%nat, ex_row [1; 2])]]).
Proof.
  split; [|split].
  - cbn [mk map_outcome fst snd]. unfold n_bounds. destruct (Rlt_dec (-256) 256); [reflexivity|lra].
  - eexists. split; [reflexivity|]. cbn. split; [eexists; split; [reflexivity|]; exists true, [1; 2]; reflexivity|]. split; [|exact I]. do 2 eexists. split; [reflexivity|]. split; [exists true, [3]; reflexivity|exists true, [4]; reflexivity].
  - intros (l & E & _). discriminate.
Qed.

(** C115: once a policy is constructed, it returns an element of the action space for every observation, and so does its mode. *)
Theorem C115_policy : forall (Obs Act : Type) (P : Obs -> Prop) sp d pre (noact : Act -> outcome otree) s0 f p, supported sp -> zero_based sp -> mk sp = Ok d ->
  s2_init d pre noact s0 f = Ok p -> traceable f -> steady f -> uniform P pre -> P s0 ->
  forall s us gs, P s -> drawn sp us -> noise (ties sp) gs -> (exists z, s2_params p s = Ok z /\ fits sp z) /\ (exists a, s2_call d p us gs s = Ok a /\ inside sp a) /\ (exists a, s2_mode d p gs s = Ok a /\ inside sp a).
Proof.
  intros Obs Act P sp d pre noact s0 f p HS HZ M E HT HB [HU1 HU2] H0 s us gs Hs HD HG. unfold s2_init in E. destruct (sig_eqb _ _); [|discriminate]. destruct (pre s0) as [S0|] eqn:E0; [|discriminate]. cbn [bind] in E. rewrite try_out_eq in E. cbn [map] in E.
  destruct (hk_run f [erase S0] [S0] true) as [o|] eqn:E1; [|discriminate]. cbn [bind] in E. pose proof (asks_params [] sp M) as HP. destruct (check_tree_iff o HP) as [[E2 Ho]|[E2 _]]; rewrite E2 in E; [|discriminate]. cbn [bind] in E. injection E as <-.
  destruct (HU1 s Hs) as (S & ES & _). destruct (@settled f [erase S0] [S0] [S] _ HT HB E1) as (o1 & o2 & F1 & F2 & E3 & S3); [constructor; [now apply (HU2 s0 s)|constructor]|].
  pose proof (params_fit _ _ (laid_form HP Ho F1 F2) S3) as HF. assert (EP : s2_params (mkAp f [erase S0] pre noact Type2) s = Ok (to_pv o2)) by (unfold s2_params; cbn [ap_obs ap_fun ap_made]; rewrite ES; cbn [bind]; now rewrite E3).
  destruct (@C111_member sp d (to_pv o2) us gs HS HZ M HF HD HG) as ((X & x & _ & _ & _ & HI & EX) & (Y & y & _ & _ & _ & HJ & EY) & _).
  split; [eauto|]. split; [exists x|exists y]; (split; [|assumption]); unfold s2_call, s2_mode; rewrite EP; cbn [bind]; assumption.
Qed.
Print Assumptions C115_policy.
Example C115_policy_ex : exists p, s2_init (Act := unit) (PCat 2) (ex_pre 2) (fun _ => Err EType) 0%nat (ex_layer [NS; NTrain] (fun _ => ODict [(0%nat, ex_row [0; 1])])) = Ok p /\ s2_params p 1%nat = Ok (VDict [(0%nat, VArr [0; 1])]).
Proof. eexists. split; reflexivity. Qed.

(** C115: once a StochasticV with num_bins=n and the range (lo, hi) is constructed, its mean is a number strictly between lo and hi for every
    observation. *)
Theorem C115_stochastic_v : forall (Obs Act : Type) (P : Obs -> Prop) n lo hi pre (noact : Act -> outcome otree) s0 f v, (1 <= n)%nat -> lo < hi -> s2_init (PCat n) pre noact s0 f = Ok v -> traceable f -> steady f -> uniform P pre -> P s0 ->
  forall s, P s -> exists m, sv_mean_call n lo hi v s = Ok m /\ lo < m < hi.
Proof.
  intros Obs Act P n lo hi pre noact s0 f v Hn Hl E HT HB HU H0 s Hs. destruct (@C115_policy _ _ P (SpDiscrete n 0) (PCat n) pre noact s0 f v) with (s := s) (us := repeat (1/2) n) (gs := repeat 0 n) as ((z & EZ & (w & -> & L)) & _); auto; try reflexivity.
  - split; [now rewrite repeat_length|]. intros u Hu. apply repeat_spec in Hu. subst. lra.
  - split; [now rewrite repeat_length|]. intros u Hu. apply repeat_spec in Hu. subst. lra.
  - unfold sv_mean_call. rewrite EZ. cbn [bind array_at item lookup logits_key Nat.eqb]. destruct (@interval_outputs n lo hi w 1 (repeat (1/2) n)) as (m & _ & _ & EM & _ & _ & HM & _); auto; [now rewrite repeat_length|lra|]. exists m. auto.
Qed.
Print Assumptions C115_stochastic_v.
Example C115_stochastic_v_ex : exists v, s2_init (Act := unit) (PCat 3) (ex_pre 2) (fun _ => Err EType) 0%nat (ex_layer [NS; NTrain] (fun _ => ODict [(0%nat, ex_row [0; 1; 2])])) = Ok v /\ (1 <= 3)%nat /\ -1 < 1.
Proof. eexists. split; [reflexivity|]. split; [lia|lra]. Qed.

(** ** Models of the dynamics *)
(** C115: what a StochasticTransitionModel (or StochasticQ) accepts: parameters of the space, with an axis for the actions if the function has
    the signature (S, is_training). *)
Theorem C115_model_checks : forall (Obs Act : Type) discrete sp d pre act (s0 : Obs) (a0 : Act) f, mk sp = Ok d ->
  (hk_sig f <> [NS; NA; NTrain] -> hk_sig f <> [NS; NTrain] -> s1_init discrete d pre act s0 a0 f = Err EType) /\
  (hk_sig f = [NS; NTrain] -> discrete = None -> s1_init discrete d pre act s0 a0 f = Err EType) /\
  (forall S A args ax, pre s0 = Ok S -> act a0 = Ok A -> (hk_sig f = [NS; NA; NTrain] /\ args = [S; A] /\ ax = [] \/ hk_sig f = [NS; NTrain] /\ args = [S] /\ exists n, discrete = Some n /\ ax = [n]) ->
    (forall e, hk_run f (map erase args) args true = Err e -> s1_init discrete d pre act s0 a0 f = Err e) /\
    (forall o, hk_run f (map erase args) args true = Ok o -> (exists p, s1_init discrete d pre act s0 a0 f = Ok p) /\ param_tree ax sp o \/ s1_init discrete d pre act s0 a0 f = Err EType /\ ~ param_tree ax sp o)).
Proof.
  intros Obs Act discrete sp d pre act s0 a0 f M. unfold s1_init, signature_type. split; [intros H1 H2; now rewrite (sig_eqb_no H1), (sig_eqb_no H2)|]. split; [intros -> ->; reflexivity|].
  intros S A args ax -> -> [(-> & -> & ->)|(-> & -> & n & -> & ->)]; cbn [sig_eqb pname_eqb andb bind inputs]; rewrite try_out_eq; (split; [intros e ->; reflexivity|]); intros o ->; cbn [bind].
  - destruct (check_tree_iff o (asks_params [] sp M)) as [[-> H]|[-> H]]; cbn [bind]; [left; eauto|right; auto].
  - destruct (check_tree_iff o (asks_params [n] sp M)) as [[-> H]|[-> H]]; cbn [bind]; [left; eauto|right; auto].
Qed.
Print Assumptions C115_model_checks.
Example C115_model_checks_ex : param_tree [3%nat] (SpDiscrete 2 0) (ODict [(0%nat, OArr true [1; 3; 2]%nat [1; 2; 3; 4; 5; 6])]) /\ ~ param_tree [3%nat] (SpDiscrete 2 0) (ODict [(0%nat, OArr true [1; 2]%nat [1; 2])]).
Proof. split; [eexists; split; [reflexivity|]; do 2 eexists; reflexivity|]. intros (z & E & fl & x & E2). injection E as <-. discriminate. Qed.

(** C115: a constructed StochasticTransitionModel of type 1 draws elements of the observation space. *)
Theorem C115_model : forall (Obs Act : Type) (P : Obs -> Prop) (PA : Act -> Prop) discrete sp d pre act s0 a0 f p, supported sp -> zero_based sp -> mk sp = Ok d ->
  s1_init discrete d pre act s0 a0 f = Ok p -> hk_sig f = [NS; NA; NTrain] -> traceable f -> steady f -> uniform P pre -> uniform PA act -> P s0 -> PA a0 ->
  forall s a us gs, P s -> PA a -> drawn sp us -> noise (ties sp) gs -> exists s', s1_call d p us gs s a = Ok s' /\ inside sp s'.
Proof.
  intros Obs Act P PA discrete sp d pre act s0 a0 f p HS HZ M E Hsig HT HB [HU1 HU2] [HV1 HV2] H0 HA0 s a us gs Hs Ha HD HG. unfold s1_init, signature_type in E. rewrite Hsig in E. cbn [sig_eqb pname_eqb andb bind] in E. destruct (pre s0) as [S0|] eqn:E0; [|discriminate]. cbn [bind] in E. destruct (act a0) as [A0|] eqn:EA0; [|discriminate]. cbn [bind inputs] in E. rewrite try_out_eq in E.
  destruct (hk_run f _ [S0; A0] true) as [o|] eqn:E1; [|discriminate]. cbn [bind] in E. pose proof (asks_params [] sp M) as HP. destruct (check_tree_iff o HP) as [[E2 Ho]|[E2 _]]; rewrite E2 in E; [|discriminate]. cbn [bind] in E. injection E as <-.
  destruct (HU1 s Hs) as (S & ES & _). destruct (HV1 a Ha) as (A & EA & _). destruct (@settled f (map erase [S0; A0]) [S0; A0] [S; A] _ HT HB E1) as (o1 & o2 & F1 & F2 & E3 & S3); [constructor; [now apply (HU2 s0 s)|constructor; [now apply (HV2 a0 a)|constructor]]|].
  pose proof (params_fit _ _ (laid_form HP Ho F1 F2) S3) as HF. destruct (@C111_member sp d (to_pv o2) us gs HS HZ M HF HD HG) as ((X & x & _ & _ & _ & HI & EX) & _). exists x. split; auto. unfold s1_call. cbn [ap_obs ap_act ap_fun ap_made]. rewrite ES. cbn [bind]. rewrite EA. cbn [bind map] in *. rewrite E3. exact EX.
Qed.
Print Assumptions C115_model.
Example C115_model_ex : exists p, s1_init None (PCat 2) (ex_pre 2) (ex_pre 3) 0%nat 0%nat (ex_layer [NS; NA; NTrain] (fun _ => ODict [(0%nat, ex_row [0; 1])])) = Ok p.
Proof. eexists. reflexivity. Qed.

(** C115: what a TransitionModel accepts: raw variates of the observation space (lists for sequences), with an axis for the actions if the
    function has the signature (S, is_training). *)
Theorem C115_transition_checks : forall (Act : Type) discrete sp d pre act s0 (a0 : Act) f, supported sp -> mk sp = Ok d -> inside sp s0 ->
  (hk_sig f <> [NS; NA; NTrain] -> hk_sig f <> [NS; NTrain] -> t_init discrete d pre act s0 a0 f = Err EType) /\
  (hk_sig f = [NS; NTrain] -> discrete = None -> t_init discrete d pre act s0 a0 f = Err EType) /\
  (forall S A args ax, t_default d s0 = Ok S -> act a0 = Ok A -> (hk_sig f = [NS; NA; NTrain] /\ args = [S; A] /\ ax = [] \/ hk_sig f = [NS; NTrain] /\ args = [S] /\ exists n, discrete = Some n /\ ax = [n]) ->
    (forall e, hk_run f (map erase args) args true = Err e -> t_init discrete d pre act s0 a0 f = Err e) /\
    (forall o, hk_run f (map erase args) args true = Ok o -> (exists p, t_init discrete d pre act s0 a0 f = Ok p) /\ state_tree ax sp o \/ t_init discrete d pre act s0 a0 f = Err EType /\ ~ state_tree ax sp o)).
Proof.
  intros Act discrete sp d pre act s0 a0 f HS M HI. destruct (proj2 (proj2 (C111_defined sp d HS M)) s0 HI) as (V & EV & HV). unfold t_init, signature_type. split; [intros H1 H2; now rewrite (sig_eqb_no H1), (sig_eqb_no H2)|]. split; [intros -> ->; reflexivity|].
  unfold t_default. rewrite EV. cbn [bind]. intros S A args ax E. injection E as <-. intros -> [(-> & -> & ->)|(-> & -> & n & -> & ->)]; cbn [sig_eqb pname_eqb andb bind inputs]; rewrite try_out_eq; (split; [intros e ->; reflexivity|]); intros o ->; cbn [bind].
  - destruct (check_tree_iff o (asks_states [] sp V HV)) as [[-> H]|[-> H]]; cbn [bind]; [left; eauto|right; auto].
  - destruct (check_tree_iff o (asks_states [n] sp V HV)) as [[-> H]|[-> H]]; cbn [bind]; [left; eauto|right; auto].
Qed.
Print Assumptions C115_transition_checks.
Example C115_transition_checks_ex : t_default (PNode KMulti [(0%nat, PCat 2); (1%nat, PCat 1)]) (CInts [1; 0]%Z) = Ok (OLst [ex_row [0; 1]; ex_row [1]]) /\ state_tree [] (SpMultiDiscrete [2; 1]%nat) (OLst [ex_row [5; 6]; ex_row [7]]).
Proof. split; [reflexivity|]. eexists. split; [reflexivity|]. constructor; [do 2 eexists; reflexivity|]. constructor; [do 2 eexists; reflexivity|constructor]. Qed.

(** C115: a constructed TransitionModel of type 1 with the default preprocessor returns elements of the observation space. *)
Theorem C115_transition : forall (Act : Type) (PA : Act -> Prop) discrete sp d act s0 a0 f p, supported sp -> zero_based sp -> mk sp = Ok d -> inside sp s0 ->
  t_init discrete d (t_default d) act s0 a0 f = Ok p -> hk_sig f = [NS; NA; NTrain] -> traceable f -> steady f -> uniform PA act -> PA a0 ->
  forall s a gs, inside sp s -> PA a -> noise (ties sp) gs -> exists s', t_call d p gs s a = Ok s' /\ inside sp s'.
Proof.
  intros Act PA discrete sp d act s0 a0 f p HS HZ M HI0 E Hsig HT HB [HV1 HV2] HA0 s a gs Hs Ha [Lg Hg]. destruct (C111_defined sp d HS M) as (_ & _ & HPre). destruct (HPre s0 HI0) as (V0 & EV0 & HV0). destruct (HPre s Hs) as (V & EV & HV).
  unfold t_init, signature_type in E. rewrite Hsig in E. cbn [sig_eqb pname_eqb andb bind] in E. rewrite EV0 in E. cbn [bind] in E. destruct (act a0) as [A0|] eqn:EA0; [|discriminate]. cbn [bind inputs] in E. rewrite try_out_eq in E.
  destruct (hk_run f _ [of_pv V0; A0] true) as [o|] eqn:E1; [|discriminate]. cbn [bind] in E. pose proof (asks_states [] sp V0 HV0) as HP. destruct (check_tree_iff o HP) as [[E2 Ho]|[E2 _]]; rewrite E2 in E; [|discriminate]. cbn [bind] in E. injection E as <-.
  destruct (HV1 a Ha) as (A & EA & _). destruct (@settled f (map erase [of_pv V0; A0]) [of_pv V0; A0] [of_pv V; A] _ HT HB E1) as (o1 & o2 & F1 & F2 & E3 & S3); [constructor; [eapply of_pv_form; eauto|constructor; [now apply (HV2 a0 a)|constructor]]|].
  pose proof (states_vary _ _ (laid_form HP Ho F1 F2) S3) as HF. destruct (good_all (zb := true) sp HS (fun _ => HZ)) as (d' & E' & G). assert (d' = d) by congruence. subst d'. destruct (@g_post _ _ _ G (to_pv o2) gs [] HF Lg Hg) as (x & Ex & Ix & _). rewrite app_nil_r in Ex.
  exists x. split; auto. unfold t_call, t_default. cbn [ap_obs ap_act ap_fun ap_made]. rewrite EV. cbn [bind]. rewrite EA. cbn [bind map] in *. rewrite E3. cbn [bind]. rewrite Ex. reflexivity.
Qed.
Print Assumptions C115_transition.
Example C115_transition_ex : exists p, t_init None (PCat 2) (t_default (PCat 2)) (ex_pre 3) (CInt 0) 0%nat (ex_layer [NS; NA; NTrain] (fun _ => ex_row [0; 1])) = Ok p /\ supported (SpDiscrete 2 0) /\ inside (SpDiscrete 2 0) (CInt 0) /\ hk_sig (ex_layer [NS; NA; NTrain] (fun _ => ex_row [0; 1])) = [NS; NA; NTrain].
Proof. eexists. split; [reflexivity|]. cbn. repeat split; lia. Qed.

(** C115 refuted for TransitionModel with an observation_preprocessor: it is accepted although every call raises. *)
Theorem C115_transition_refuted : exists (pre : clean -> outcome otree) f p, (forall P, uniform P pre) /\ traceable f /\ steady f /\ inside (SpDiscrete 2 0) (CInt 0) /\ mk (SpDiscrete 2 0) = Ok (PCat 2) /\
  t_init None (PCat 2) pre (ex_pre 3) (CInt 0) 0%nat f = Ok p /\ forall gs s a, t_call (PCat 2) p gs s a = Err EValue.
Proof.
  exists (fun _ => Ok (ex_row [1; 2; 3])), (ex_layer [NS; NA; NTrain] (fun _ => ex_row [0; 1])). eexists. split; [|split; [apply ex_layer_traceable; intros; reflexivity|split; [apply ex_layer_steady|]]].
  - intros P. split; [intros; eexists; split; reflexivity|]. intros x y o o' _ _ H H'. injection H as <-. injection H' as <-. constructor.
  - split; [cbn; lia|]. split; [reflexivity|]. split; [reflexivity|]. intros gs s a. reflexivity.
Qed.
Print Assumptions C115_transition_refuted.

(** ** C84: the constructor of SuccessorStateQ *)
(** C84: SuccessorStateQ(v, p, r) can be made exactly for a (stochastic) state-value function v, a TransitionModel p and a (stochastic) reward
    function r; TypeError otherwise, except that a StochasticTransitionModel p passes the type check and then raises AttributeError. *)
Theorem C84_constructor : forall v p r, match successor_init v p r with
  | Ok _ => (v = ClsV \/ v = ClsStochasticV) /\ p = ClsTransitionModel /\ (r = ClsRewardFunction \/ r = ClsStochasticRewardFunction)
  | Err EAttribute => (v = ClsV \/ v = ClsStochasticV) /\ p = ClsStochasticTransitionModel /\ (r = ClsRewardFunction \/ r = ClsStochasticRewardFunction)
  | Err EType => ~ ((v = ClsV \/ v = ClsStochasticV) /\ (p = ClsTransitionModel \/ p = ClsStochasticTransitionModel) /\ (r = ClsRewardFunction \/ r = ClsStochasticRewardFunction))
  | Err _ => False
  end.
Proof. intros v p r. destruct v, p, r; cbn; repeat split; auto; intros ([C|C] & [D|D] & [G|G]); discriminate. Qed.
Print Assumptions C84_constructor.
Example C84_constructor_ex : successor_init ClsStochasticV ClsTransitionModel ClsRewardFunction = Ok tt /\ successor_init ClsQ ClsTransitionModel ClsRewardFunction = Err EType.
Proof. split; reflexivity. Qed.
Theorem C84_stochastic_refuted : exists v p r, (v = ClsV \/ v = ClsStochasticV) /\ (p = ClsTransitionModel \/ p = ClsStochasticTransitionModel) /\ (r = ClsRewardFunction \/ r = ClsStochasticRewardFunction) /\ successor_init v p r = Err EAttribute.
Proof. exists ClsV, ClsStochasticTransitionModel, ClsRewardFunction. cbn. auto 8. Qed.
Print Assumptions C84_stochastic_refuted.
