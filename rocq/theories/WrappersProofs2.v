(** TrainMonitor. *)
From Coq Require Import List ZArith Lia Bool Reals Lra.
From Verif Require Import PyCommon CommonProofs UtilsModel UtilsSpec UtilsProofs2 UtilsProofs3 WrappersModel WrappersSpec WrappersProofs.
Import ListNotations.
Set Implicit Arguments.
Local Open Scope R_scope.

(** References are in range. *)
Definition valid (m : monitor) : Prop :=
  (c_met (m_c m) < length (h_met (m_heap m)))%nat /\ (c_act (m_c m) < length (h_act (m_heap m)))%nat /\ (c_per (m_c m) < length (h_per (m_heap m)))%nat.

Definition vper_ep (ep : nat) (pr : dict nat * dict nat) (name : nat) (epp : option nat) : (dict nat * dict nat) * outcome bool :=
  match epp with
  | None => (pr, Ok false)
  | Some O => (pr, Err EAssertion)
  | Some p => let (de, b) := poll (snd pr) name p ep in ((fst pr, de), Ok b)
  end.
Definition vper (T ep : nat) (pr : dict nat * dict nat) (name : nat) (Tp epp : option nat) : (dict nat * dict nat) * outcome bool :=
  match Tp with
  | None => vper_ep ep pr name epp
  | Some O => (pr, Err EAssertion)
  | Some p => let (dT, b) := poll (fst pr) name p T in if b then ((dT, snd pr), Ok true) else vper_ep ep (dT, snd pr) name epp
  end.
Definition vdo (s : nat) (v : view_t) (e : mon_event) : view_t :=
  match e with
  | MReset => mkView (v_T v + 1) (v_ep v + 1) 0 0 (v_avg_G v) (v_n v) [] (ss_reset (v_act v)) (v_per v)
  | MStep a u i r d =>
      let G := v_G v + r in
      let n := if d then (if Nat.ltb (v_n v) s then S (v_n v) else v_n v) else v_n v in
      let avg := if d then v_avg_G v + (G - v_avg_G v) / INR n else v_avg_G v in
      mkView (v_T v + 1) (v_ep v) (v_t v + 1) G avg n (v_met v) (ss_append (v_act v) a u i) (v_per v)
  | MRecord kvs => mkView (v_T v) (v_ep v) (v_t v) (v_G v) (v_avg_G v) (v_n v) (fold_left record_one kvs (v_met v)) (v_act v) (v_per v)
  | MPeriod name Tp epp => mkView (v_T v) (v_ep v) (v_t v) (v_G v) (v_avg_G v) (v_n v) (v_met v) (v_act v) (fst (vper (v_T v) (v_ep v) (v_per v) name Tp epp))
  end.

Lemma mon_set_per_view : forall m pr, valid m -> valid (mon_set_per m pr) /\ m_c (mon_set_per m pr) = m_c m /\ m_met (mon_set_per m pr) = m_met m /\ m_act (mon_set_per m pr) = m_act m /\ m_per (mon_set_per m pr) = pr.
Proof.
  intros m pr [V1 [V2 V3]]. unfold mon_set_per, valid, m_met, m_act, m_per, cell. cbn. rewrite upd_length. repeat split; auto. now apply nth_upd_same.
Qed.
Lemma mon_set_per_id : forall m, valid m -> view (mon_set_per m (m_per m)) = view m.
Proof. intros m V. destruct (@mon_set_per_view m (m_per m) V) as [_ [E1 [E2 [E3 E4]]]]. unfold view. rewrite E1, E2, E3, E4. reflexivity. Qed.

Lemma period_ep_view : forall m name epp, valid m -> let r := period_ep m name epp in let q := vper_ep (c_ep (m_c m)) (m_per m) name epp in
  valid (fst r) /\ m_c (fst r) = m_c m /\ m_met (fst r) = m_met m /\ m_act (fst r) = m_act m /\ m_per (fst r) = fst q /\ snd r = snd q.
Proof.
  intros m name epp V. unfold period_ep, vper_ep. destruct epp as [[|p]|]; cbn [fst snd]; try solve [auto 10].
  destruct (poll (snd (m_per m)) name (S p) (c_ep (m_c m))) as [de b]. cbn [fst snd]. destruct (@mon_set_per_view m (fst (m_per m), de) V) as [H1 [H2 [H3 [H4 H5]]]]. auto 10.
Qed.
Lemma mon_period_view : forall m name Tp epp, valid m -> let r := mon_period m name Tp epp in let q := vper (c_T (m_c m)) (c_ep (m_c m)) (m_per m) name Tp epp in
  valid (fst r) /\ m_c (fst r) = m_c m /\ m_met (fst r) = m_met m /\ m_act (fst r) = m_act m /\ m_per (fst r) = fst q /\ snd r = snd q.
Proof.
  intros m name Tp epp V. unfold mon_period, vper. destruct Tp as [[|p]|].
  - cbn. auto 10.
  - destruct (poll (fst (m_per m)) name (S p) (c_T (m_c m))) as [dT b]. destruct (@mon_set_per_view m (dT, snd (m_per m)) V) as [H1 [H2 [H3 [H4 H5]]]]. destruct b; cbn [fst snd].
    + auto 10.
    + pose proof (@period_ep_view (mon_set_per m (dT, snd (m_per m))) name epp H1) as P. cbv zeta in P. rewrite H2, H3, H4, H5 in P. exact P.
  - exact (@period_ep_view m name epp V).
Qed.

Lemma cell_last : forall A (l : list A) x d, cell (l ++ [x]) (length l) d = x.
Proof. intros. unfold cell. rewrite app_nth2, Nat.sub_diag by lia. reflexivity. Qed.
Lemma mon_do_view : forall s m e, valid m -> valid (mon_do s m e) /\ view (mon_do s m e) = vdo s (view m) e.
Proof.
  intros s m e V. pose proof V as [V1 [V2 V3]]. destruct e as [|a u i r d|kvs|name Tp epp]; cbn [mon_do vdo].
  - split; [unfold valid; cbn; rewrite app_length, upd_length; cbn; lia|]. unfold view. cbn [m_c mon_reset c_T c_ep c_t c_G c_avg_G c_n c_met c_act c_per v_T v_ep v_t v_G v_avg_G v_n v_met v_act v_per].
    f_equal; [apply cell_last|unfold m_act at 1, cell; cbn; now apply nth_upd_same].
  - split; [unfold valid; cbn; rewrite upd_length; auto|]. unfold view. f_equal. unfold m_act at 1, mon_step. cbn. now apply nth_upd_same.
  - split; [unfold valid; cbn; rewrite upd_length; auto|]. unfold view. f_equal. unfold m_met at 1, mon_record. cbn. now apply nth_upd_same.
  - destruct (@mon_period_view m name Tp epp V) as [H1 [H2 [H3 [H4 [H5 _]]]]]. split; auto. unfold view. rewrite H2, H3, H4, H5. reflexivity.
Qed.
Lemma mon_run_view : forall s es m, valid m -> valid (mon_run s m es) /\ view (mon_run s m es) = fold_left (vdo s) es (view m).
Proof.
  intros s. induction es as [|e es IH]; intros m V; [split; auto|]. cbn [mon_run fold_left]. destruct (mon_do_view s e V) as [V' E1].
  destruct (IH _ V') as [V2 E2]. unfold mon_run in *. rewrite <- E1. auto.
Qed.
Lemma new_valid : valid mon_new. Proof. unfold valid. cbn. lia. Qed.
Lemma new_view : view mon_new = mkView 0 0 0 0 0 0 [] (ss_new Z maxlen_actions) ([], []).
Proof. reflexivity. Qed.

(** * Counters (C32) *)
Lemma count_app : forall f a b, count f (a ++ b) = (count f a + count f b)%nat.
Proof. intros. unfold count. now rewrite filter_app, app_length. Qed.
Lemma count_one : forall f e, count f [e] = if f e then 1%nat else 0%nat.
Proof. intros. unfold count. cbn. destruct (f e); auto. Qed.

Lemma run_globals : forall s es v, let w := fold_left (vdo s) es v in
  v_T w = (v_T v + count is_reset es + count is_step es)%nat /\ v_ep w = (v_ep v + count is_reset es)%nat.
Proof.
  intros s es v. induction es as [|e es IH] using rev_ind; [cbn; lia|]. cbv zeta in *. rewrite fold_left_app. cbn [fold_left]. rewrite !count_app, !count_one.
  set (w := fold_left (vdo s) es v) in *. destruct e; cbn [vdo v_T v_ep is_reset is_step]; lia.
Qed.
Lemma run_episode : forall s es v, (forall e, In e es -> is_reset e = false) -> let w := fold_left (vdo s) es v in
  v_t w = (v_t v + count is_step es)%nat /\ v_G w = v_G v + rewards_total es.
Proof.
  intros s es v. induction es as [|e es IH] using rev_ind; intros H; [cbn; unfold rewards_total; cbn; split; [lia|lra]|]. cbv zeta in *.
  rewrite fold_left_app. cbn [fold_left]. rewrite count_app, count_one. unfold rewards_total in *. rewrite map_app, total_app. cbn [map]. change (total [reward e]) with (reward e + 0).
  destruct IH as [H1 H2]; [intros e' He'; apply H; apply in_or_app; now left|]. set (w := fold_left (vdo s) es v) in *.
  assert (R : is_reset e = false) by (apply H; apply in_or_app; right; now left).
  destruct e; cbn [vdo v_t v_G is_step reward]; try discriminate; split; try lia; lra.
Qed.
Lemma run_avg : forall s es v, (v_n v <= s)%nat -> v_avg_G (fold_left (vdo s) es v) = smooth s (v_n v) (v_avg_G v) (end_returns (v_G v) es).
Proof.
  intros s. induction es as [|e es IH]; intros v Hn; [reflexivity|]. cbn [fold_left end_returns]. destruct e as [|a u i r d|kvs|name Tp epp].
  - rewrite IH; auto.
  - assert (EM : (if Nat.ltb (v_n v) s then S (v_n v) else v_n v) = Nat.min s (v_n v + 1)) by (destruct (Nat.ltb_spec (v_n v) s); lia).
    destruct d; rewrite IH; cbn [vdo v_n v_avg_G v_G]; rewrite ?EM; auto; lia.
  - rewrite IH; auto.
  - rewrite IH; auto.
Qed.

Lemma monitor_counters : forall s es post, (1 <= s)%nat -> current_episode es post -> let m := mon_run s mon_new es in let c := m_c m in
  c_T c = (count is_step es + count is_reset es)%nat /\ c_ep c = count is_reset es /\
  c_t c = count is_step post /\ c_G c = rewards_total post /\
  (avg_r m = if Nat.eqb (count is_step post) 0 then None else Some (rewards_total post / INR (count is_step post))) /\
  c_avg_G c = smooth s 0 0 (end_returns 0 es).
Proof.
  intros s es post Hs [HP HE] m c. destruct (mon_run_view s es new_valid) as [_ V]. rewrite new_view in V. fold m in V.
  pose proof (run_globals s es (mkView 0 0 0 0 0 0 [] (ss_new Z maxlen_actions) ([], []))) as G. cbv zeta in G. rewrite <- V in G. destruct G as [G1 G2].
  cbn [view v_T v_ep] in G1, G2. fold c in G1, G2.
  assert (EP : c_t c = count is_step post /\ c_G c = rewards_total post).
  { assert (VC : exists v, v_t v = 0%nat /\ v_G v = 0 /\ view m = fold_left (vdo s) post v).
    { destruct HE as [->|[pre ->]].
      - eexists; split; [|split; [|exact V]]; reflexivity.
      - rewrite fold_left_app in V. cbn [fold_left] in V. eexists; split; [|split; [|exact V]]; reflexivity. }
    destruct VC as [v [E1 [E2 E3]]]. destruct (run_episode s post v HP) as [F1 F2]. rewrite <- E3 in F1, F2. cbn [view v_t v_G] in F1, F2. fold c in F1, F2.
    rewrite E1, E2 in *. split; [lia|lra]. }
  destruct EP as [E1 E2]. split; [lia|]. split; [lia|]. split; [auto|]. split; [auto|]. split.
  - unfold avg_r. fold c. rewrite E1, E2. destruct (count is_step post) as [|k]; reflexivity.
  - pose proof (@run_avg s es (mkView 0 0 0 0 0 0 [] (ss_new Z maxlen_actions) ([], []))) as A. rewrite <- V in A. apply A. cbn. lia.
Qed.

(** * Metrics *)
Definition met_ok (d : metrics) (k : nat) (xs : list R) : Prop := dget k d = match xs with [] => None | _ => Some (total xs, length xs) end.
Lemma record_one_ok : forall d kv k xs, met_ok d k xs -> met_ok (record_one d kv) k (xs ++ (if Nat.eqb (fst kv) k then [snd kv] else [])).
Proof.
  intros d [k' v] k xs H. unfold met_ok, record_one in *. cbn [fst snd]. destruct (Nat.eqb_spec k' k) as [->|Hk].
  - destruct xs as [|x xs]; rewrite H; rewrite dget_dset, Nat.eqb_refl.
    + cbn. do 2 f_equal. lra.
    + cbn [app]. f_equal. f_equal; [|cbn [length]; rewrite app_length; cbn; lia]. change (x :: xs ++ [v]) with ((x :: xs) ++ [v]). rewrite total_app.
      change (total [v]) with (v + 0). lra.
  - rewrite app_nil_r. rewrite <- H. destruct (dget k' d) as [[x n]|]; rewrite dget_dset; destruct (Nat.eqb_spec k k'); congruence.
Qed.
Lemma record_many_ok : forall kvs d k xs, met_ok d k xs -> met_ok (fold_left record_one kvs d) k (xs ++ map snd (filter (fun kv => Nat.eqb (fst kv) k) kvs)).
Proof.
  induction kvs as [|kv kvs IH]; intros d k xs H; cbn [fold_left filter map]; [now rewrite app_nil_r|].
  apply (record_one_ok kv) in H. apply IH in H. rewrite <- app_assoc in H. destruct (Nat.eqb (fst kv) k); exact H.
Qed.
Lemma run_metrics : forall s k es v xs, (forall e, In e es -> is_reset e = false) -> met_ok (v_met v) k xs -> met_ok (v_met (fold_left (vdo s) es v)) k (xs ++ recorded k es).
Proof.
  intros s k. induction es as [|e es IH]; intros v xs HR H; cbn [fold_left recorded]; [now rewrite app_nil_r|].
  assert (HR' : forall e', In e' es -> is_reset e' = false) by (intros e' He'; apply HR; now right). pose proof (HR e (or_introl eq_refl)) as R.
  destruct e as [|a u i r d|kvs|name Tp epp]; [discriminate| | |]; cbn [vdo]; try (apply IH; auto; fail).
  rewrite app_assoc. apply IH; auto. cbn [v_met]. now apply record_many_ok.
Qed.
Lemma dget_map : forall V W (f : V -> W) (d : dict V) k, dget k (map (fun kv => (fst kv, f (snd kv))) d) = option_map f (dget k d).
Proof. intros V W f. induction d as [|[k' v] d IH]; intros k; cbn; auto. destruct (Nat.eqb k k'); auto. Qed.
Lemma monitor_metrics : forall s es post k, current_episode es post ->
  dget k (get_metrics (mon_run s mon_new es)) = match recorded k post with [] => None | xs => Some (mean xs) end.
Proof.
  intros s es post k [HP HE]. destruct (mon_run_view s es new_valid) as [_ V]. rewrite new_view in V. unfold get_metrics.
  rewrite (dget_map (fun xn : R * nat => fst xn / INR (snd xn))).
  assert (VC : exists v, v_met v = [] /\ view (mon_run s mon_new es) = fold_left (vdo s) post v).
  { destruct HE as [->|[pre ->]].
    - eexists; split; [|exact V]; reflexivity.
    - rewrite fold_left_app in V. cbn [fold_left] in V. eexists; split; [|exact V]; reflexivity. }
  destruct VC as [v [E1 E2]]. pose proof (@run_metrics s k post v [] HP) as M. rewrite E1 in M. specialize (M eq_refl). rewrite <- E2 in M. cbn [view v_met app] in M.
  unfold met_ok in M. rewrite M. destruct (recorded k post) as [|x xs]; reflexivity.
Qed.

(** * Period (C33) *)
(** How often a name has fired according to its counter. *)
Definition fired (d : dict nat) (name : nat) : nat := match dget name d with Some c => (c - 1)%nat | None => 0%nat end.
Definition per_ok (d : dict nat) (name : nat) : Prop := match dget name d with Some c => (1 <= c)%nat | None => True end.

Lemma poll_spec : forall d name p now, per_ok d name -> let (d', b) := poll d name p now in
  b = Nat.leb (S (fired d name) * p) now /\ per_ok d' name /\ fired d' name = (fired d name + (if b then 1 else 0))%nat /\ (forall j, j <> name -> dget j d' = dget j d).
Proof.
  intros d name p now H. unfold poll, has_key, per_ok, fired in *. destruct (dget name d) as [c|] eqn:E.
  - rewrite E. replace (S (c - 1)) with c by lia. destruct (Nat.leb (c * p) now) eqn:L; cbn [fst snd].
    + split; auto. rewrite dget_dset, Nat.eqb_refl. split; [lia|]. split; [lia|]. intros j Hj. rewrite dget_dset. destruct (Nat.eqb_spec j name); congruence.
    + split; auto. rewrite E. split; [lia|]. split; [lia|]. auto.
  - rewrite dget_dset, Nat.eqb_refl. destruct (Nat.leb (1 * p) now) eqn:L; cbn [fst snd].
    + split; auto. rewrite dget_dset, Nat.eqb_refl. split; [lia|]. split; [lia|]. intros j Hj. rewrite !dget_dset. destruct (Nat.eqb_spec j name); congruence.
    + split; auto. rewrite dget_dset, Nat.eqb_refl. split; [lia|]. split; [lia|]. intros j Hj. rewrite !dget_dset. destruct (Nat.eqb_spec j name); congruence.
Qed.

(** One of the two counters: [sel] picks the dict, [now] the clock. *)
Definition sel (ck : clock) (pr : dict nat * dict nat) : dict nat := match ck with ClockT => fst pr | ClockEp => snd pr end.
Definition now (ck : clock) (v : view_t) : nat := match ck with ClockT => v_T v | ClockEp => v_ep v end.

Lemma poll_other : forall d name p t j, j <> name -> dget j (fst (poll d name p t)) = dget j d.
Proof.
  intros d name p t j Hj. unfold poll. destruct (has_key name d); destruct (Nat.leb _ _); cbn [fst]; rewrite ?dget_dset; destruct (Nat.eqb_spec j name); congruence.
Qed.
Lemma vper_other : forall T ep pr name Tp epp ck j, j <> name -> dget j (sel ck (fst (vper T ep pr name Tp epp))) = dget j (sel ck pr).
Proof.
  intros T ep pr name Tp epp ck j Hj.
  assert (H : forall pr, dget j (sel ck (fst (vper_ep ep pr name epp))) = dget j (sel ck pr)).
  { intros [a b]. unfold vper_ep. destruct epp as [[|p]|]; auto. cbn [fst snd]. pose proof (@poll_other b name (S p) ep j Hj) as P. destruct (poll b name (S p) ep). destruct ck; auto. }
  unfold vper. destruct Tp as [[|p]|]; auto. destruct pr as [a b]. cbn [fst snd]. pose proof (@poll_other a name (S p) T j Hj) as P. destruct (poll a name (S p) T) as [dT [|]]; cbn [fst].
  - destruct ck; auto.
  - rewrite H. destruct ck; auto.
Qed.

Definition inv_per (ck : clock) (name : nat) (v : view_t) : Prop := per_ok (sel ck (v_per v)) name.
Definition nf (ck : clock) (name : nat) (v : view_t) : nat := fired (sel ck (v_per v)) name.

Lemma vdo_other : forall s ck name v e, ~ asks name e -> inv_per ck name v -> inv_per ck name (vdo s v e) /\ nf ck name (vdo s v e) = nf ck name v.
Proof.
  intros s ck name v e Ha Hi. unfold inv_per, nf, per_ok, fired in *. destruct e as [|a u i r d|kvs|k Tp epp]; cbn [vdo v_per]; auto.
  rewrite vper_other; auto. intros ->. apply Ha. exists Tp, epp. auto.
Qed.
Lemma vdo_now : forall s ck v e, now ck (vdo s v e) = (now ck v + if ticks ck e then 1 else 0)%nat.
Proof. intros s ck v e. destruct ck, e; cbn; lia. Qed.

Lemma vdo_ask : forall s ck name p v, (1 <= p)%nat -> inv_per ck name v -> let v' := vdo s v (ask ck name p) in
  let b := Nat.leb (S (nf ck name v) * p) (now ck v) in
  inv_per ck name v' /\ nf ck name v' = (nf ck name v + if b then 1 else 0)%nat /\
  (forall T ep pr, T = v_T v -> ep = v_ep v -> pr = v_per v -> snd (match ask ck name p with MPeriod k Tp epp => vper T ep pr k Tp epp | _ => (pr, Ok false) end) = Ok b).
Proof.
  intros s ck name p v Hp Hi v' b. unfold inv_per, nf in *. destruct p as [|p]; [lia|]. destruct (v_per v) as [a c] eqn:EP. destruct ck; cbn [sel fst snd ask] in *.
  - pose proof (@poll_spec a name (S p) (v_T v) Hi) as P. subst v' b. cbn [vdo v_per vper now]. rewrite EP. cbn [fst snd]. destruct (poll a name (S p) (v_T v)) as [d' b'] eqn:EQ. destruct P as [P1 [P2 [P3 _]]].
    rewrite <- P1. destruct b'; cbn [fst snd vper_ep]; (split; [auto|split; [auto|]]); intros T ep pr -> -> ->; cbn [vper fst snd]; rewrite EQ; auto.
  - pose proof (@poll_spec c name (S p) (v_ep v) Hi) as P. subst v' b. cbn [vdo v_per vper vper_ep now]. rewrite EP. cbn [fst snd]. destruct (poll c name (S p) (v_ep v)) as [d' b'] eqn:EQ. destruct P as [P1 [P2 [P3 _]]].
    rewrite <- P1. cbn [fst snd]. split; [auto|split; [auto|]]. intros T ep pr -> -> ->. cbn [vper vper_ep fst snd]. rewrite EQ. auto.
Qed.

(** Fires as counted along the run agree with the counter. *)
Lemma fires_run : forall s ck name p es m, (1 <= p)%nat -> valid m -> inv_per ck name (view m) -> (forall e, In e es -> asks name e -> e = ask ck name p) ->
  inv_per ck name (view (mon_run s m es)) /\ nf ck name (view (mon_run s m es)) = (nf ck name (view m) + fires s m name es)%nat.
Proof.
  intros s ck name p. induction es as [|e es IH]; intros m Hp V Hi He; [cbn; split; auto; lia|]. cbn [mon_run fold_left fires]. fold (mon_run s (mon_do s m e) es).
  destruct (mon_do_view s e V) as [V' E1].
  assert (He' : forall e', In e' es -> asks name e' -> e' = ask ck name p) by (intros e' H'; apply He; now right).
  assert (D : asks name e \/ ~ asks name e).
  { destruct e as [|a u i r d|kvs|k Tp epp]; try (right; intros [Tp [epp C]]; discriminate). destruct (Nat.eq_dec k name) as [->|N]; [left; exists Tp, epp; auto|].
    right. intros [Tp' [epp' C]]. congruence. }
  destruct D as [D|D].
  - pose proof (He e (or_introl eq_refl) D) as Ee. destruct (@vdo_ask s ck name p (view m) Hp Hi) as [A1 [A2 A3]]. rewrite Ee in E1. rewrite <- E1 in A1, A2. rewrite <- Ee in A1, A2.
    destruct (IH _ Hp V' A1 He') as [I1 I2]. split; auto. rewrite I2, A2.
    assert (F : (match e with MPeriod k Tp epp => if Nat.eqb k name then match snd (mon_period m k Tp epp) with Ok true => 1 | _ => 0 end else 0 | _ => 0 end = if Nat.leb (S (nf ck name (view m)) * p) (now ck (view m)) then 1 else 0)%nat).
    { rewrite Ee. specialize (A3 _ _ _ eq_refl eq_refl eq_refl). destruct ck; cbn [ask] in *; rewrite Nat.eqb_refl;
      [destruct (@mon_period_view m name (Some p) None V) as [_ [_ [_ [_ [_ ->]]]]]|destruct (@mon_period_view m name None (Some p) V) as [_ [_ [_ [_ [_ ->]]]]]];
      cbn [view v_T v_ep v_per] in A3; rewrite A3; destruct (Nat.leb _ _); reflexivity. }
    rewrite F. lia.
  - destruct (@vdo_other s ck name (view m) e D Hi) as [B1 B2]. rewrite <- E1 in B1, B2. destruct (IH _ Hp V' B1 He') as [I1 I2]. split; auto. rewrite I2, B2.
    assert (F : (match e with MPeriod k Tp epp => if Nat.eqb k name then match snd (mon_period m k Tp epp) with Ok true => 1 | _ => 0 end else 0 | _ => 0 end = 0)%nat).
    { destruct e as [|a u i r d|kvs|k Tp epp]; auto. destruct (Nat.eqb_spec k name) as [->|]; auto. exfalso. apply D. exists Tp, epp. auto. }
    rewrite F. lia.
Qed.

(** Never too often. *)
Lemma nf_bound : forall s ck name p es v, (1 <= p)%nat -> inv_per ck name v -> (nf ck name v * p <= now ck v)%nat -> (forall e, In e es -> asks name e -> e = ask ck name p) ->
  (nf ck name (fold_left (vdo s) es v) * p <= now ck (fold_left (vdo s) es v))%nat.
Proof.
  intros s ck name p. induction es as [|e es IH]; intros v Hp Hi Hb He; [auto|]. cbn [fold_left].
  assert (He' : forall e', In e' es -> asks name e' -> e' = ask ck name p) by (intros e' H'; apply He; now right).
  assert (D : asks name e \/ ~ asks name e).
  { destruct e as [|a u i r d|kvs|k Tp epp]; try (right; intros [Tp [epp C]]; discriminate). destruct (Nat.eq_dec k name) as [->|N]; [left; exists Tp, epp; auto|].
    right. intros [Tp' [epp' C]]. congruence. }
  destruct D as [D|D].
  - pose proof (He e (or_introl eq_refl) D) as ->. destruct (@vdo_ask s ck name p v Hp Hi) as [A1 [A2 _]]. apply IH; auto. rewrite A2, vdo_now.
    destruct (Nat.leb_spec (S (nf ck name v) * p) (now ck v)); nia.
  - destruct (@vdo_other s ck name v e D Hi) as [B1 B2]. apply IH; auto. rewrite B2, vdo_now. lia.
Qed.

Lemma div_step : forall p a b, (1 <= p)%nat -> (a <= b)%nat -> (b <= a + p)%nat -> (b / p = a / p + if Nat.leb (S (a / p) * p) b then 1 else 0)%nat.
Proof.
  intros p a b Hp H1 H2. pose proof (Nat.div_mod a p ltac:(lia)) as D. pose proof (Nat.mod_upper_bound a p ltac:(lia)) as M. set (q := (a / p)%nat) in *. symmetry.
  destruct (Nat.leb_spec (S q * p) b); [apply (Nat.div_unique b p (q + 1) (b - (q + 1) * p))|apply (Nat.div_unique b p (q + 0) (b - (q + 0) * p))]; nia.
Qed.

Lemma quiet_chunk : forall s ck name c v, (forall e, In e c -> ~ asks name e) -> inv_per ck name v ->
  inv_per ck name (fold_left (vdo s) c v) /\ nf ck name (fold_left (vdo s) c v) = nf ck name v /\ now ck (fold_left (vdo s) c v) = (now ck v + count (ticks ck) c)%nat.
Proof.
  intros s ck name. induction c as [|e c IH]; intros v H Hi; [cbn; auto with arith|]. cbn [fold_left]. destruct (@vdo_other s ck name v e (H e (or_introl eq_refl)) Hi) as [B1 B2].
  destruct (IH (vdo s v e) (fun e' He' => H e' (or_intror He')) B1) as [I1 [I2 I3]]. rewrite I2, I3, B2, vdo_now. split; auto. split; auto.
  change (e :: c) with ([e] ++ c). rewrite count_app, count_one. lia.
Qed.
Lemma chunks_exact : forall s ck name p chunks v, (1 <= p)%nat -> inv_per ck name v -> nf ck name v = (now ck v / p)%nat ->
  (forall c, In c chunks -> (forall e, In e c -> ~ asks name e) /\ (count (ticks ck) c <= p)%nat) ->
  let v' := fold_left (vdo s) (flat_map (fun c => c ++ [ask ck name p]) chunks) v in nf ck name v' = (now ck v' / p)%nat.
Proof.
  intros s ck name p. induction chunks as [|c chunks IH]; intros v Hp Hi Hn HC; [auto|]. cbn [flat_map]. rewrite !fold_left_app. cbn [fold_left].
  destruct (HC c (or_introl eq_refl)) as [C1 C2]. destruct (@quiet_chunk s ck name c v C1 Hi) as [Q1 [Q2 Q3]]. set (v1 := fold_left (vdo s) c v) in *.
  destruct (@vdo_ask s ck name p v1 Hp Q1) as [A1 [A2 _]]. cbv zeta in *. apply IH; auto; [|intros c' Hc'; apply HC; now right].
  rewrite A2, vdo_now, Q2, Hn.
  assert (ticks ck (ask ck name p) = false) as -> by (destruct ck; reflexivity). rewrite (Nat.add_0_r (now ck v1)).
  symmetry. apply div_step; lia.
Qed.

Lemma asks_catch_up : forall s ck name p n v, (1 <= p)%nat -> inv_per ck name v -> (nf ck name v * p <= now ck v)%nat ->
  nf ck name (fold_left (vdo s) (repeat (ask ck name p) n) v) = Nat.min (nf ck name v + n) (now ck v / p).
Proof.
  intros s ck name p. induction n as [|n IH]; intros v Hp Hi Hb; cbn [repeat fold_left].
  - rewrite Nat.add_0_r, Nat.min_l; auto. apply Nat.div_le_lower_bound; lia.
  - destruct (@vdo_ask s ck name p v Hp Hi) as [A1 [A2 _]]. cbv zeta in *.
    assert (N : now ck (vdo s v (ask ck name p)) = now ck v) by (rewrite vdo_now; destruct ck; cbn; lia). rewrite IH; auto; rewrite ?A2, ?N.
    + destruct (Nat.leb_spec (S (nf ck name v) * p) (now ck v)) as [L|L]; [lia|]. assert (now ck v / p = nf ck name v)%nat; [|lia].
      symmetry. apply (Nat.div_unique (now ck v) p (nf ck name v) (now ck v - nf ck name v * p)); nia.
    + destruct (Nat.leb_spec (S (nf ck name v) * p) (now ck v)); nia.
Qed.

Lemma new_inv : forall ck name, inv_per ck name (view mon_new) /\ nf ck name (view mon_new) = 0%nat /\ now ck (view mon_new) = 0%nat.
Proof. intros [] name; cbn; auto. Qed.


Lemma period_bound : forall s ck name p es, (1 <= p)%nat -> (forall e, In e es -> asks name e -> e = ask ck name p) ->
  (fires s mon_new name es <= clock_value ck (mon_run s mon_new es) / p)%nat.
Proof.
  intros s ck name p es Hp He. destruct (new_inv ck name) as [N1 [N2 N3]]. destruct (@fires_run s ck name p es mon_new Hp new_valid N1 He) as [_ F].
  rewrite N2 in F. cbn in F. rewrite <- F. destruct (mon_run_view s es new_valid) as [_ V].
  pose proof (@nf_bound s ck name p es (view mon_new) Hp N1 ltac:(rewrite N2, N3; lia) He) as B. rewrite <- V in B. apply Nat.div_le_lower_bound; [lia|].
  rewrite Nat.mul_comm. destruct ck; exact B.
Qed.
Lemma period_exact : forall s ck name p chunks, (1 <= p)%nat -> (forall c, In c chunks -> (forall e, In e c -> ~ asks name e) /\ (count (ticks ck) c <= p)%nat) ->
  let es := flat_map (fun c => c ++ [ask ck name p]) chunks in fires s mon_new name es = (clock_value ck (mon_run s mon_new es) / p)%nat.
Proof.
  intros s ck name p chunks Hp HC es. destruct (new_inv ck name) as [N1 [N2 N3]].
  assert (He : forall e, In e es -> asks name e -> e = ask ck name p).
  { intros e Hin Ha. unfold es in Hin. apply in_flat_map in Hin. destruct Hin as [c [Hc Hin]]. apply in_app_or in Hin. destruct Hin as [Hin|[<-|[]]]; auto.
    exfalso. destruct (HC c Hc) as [C1 _]. exact (C1 e Hin Ha). }
  destruct (@fires_run s ck name p es mon_new Hp new_valid N1 He) as [_ F]. rewrite N2 in F. cbn in F. rewrite <- F. destruct (mon_run_view s es new_valid) as [_ V].
  pose proof (@chunks_exact s ck name p chunks (view mon_new) Hp N1 ltac:(rewrite N2, N3; symmetry; apply Nat.div_0_l; lia) HC) as B. cbv zeta in B. fold es in B. rewrite <- V in B.
  rewrite B. destruct ck; reflexivity.
Qed.
Lemma period_catch_up : forall s ck name p es n, (1 <= p)%nat -> (forall e, In e es -> asks name e -> e = ask ck name p) ->
  fires s mon_new name (es ++ repeat (ask ck name p) n) = Nat.min (fires s mon_new name es + n) (clock_value ck (mon_run s mon_new es) / p).
Proof.
  intros s ck name p es n Hp He. destruct (new_inv ck name) as [N1 [N2 N3]].
  assert (He2 : forall e, In e (es ++ repeat (ask ck name p) n) -> asks name e -> e = ask ck name p).
  { intros e Hin Ha. apply in_app_or in Hin. destruct Hin as [Hin|Hin]; auto. now apply repeat_spec in Hin. }
  destruct (@fires_run s ck name p _ mon_new Hp new_valid N1 He2) as [_ F2]. destruct (@fires_run s ck name p es mon_new Hp new_valid N1 He) as [I F]. rewrite N2 in F, F2. cbn [Nat.add] in F, F2.
  rewrite <- F, <- F2. destruct (mon_run_view s es new_valid) as [_ V]. destruct (mon_run_view s (es ++ repeat (ask ck name p) n) new_valid) as [_ V2].
  rewrite V2, fold_left_app, <- V. rewrite asks_catch_up; [destruct ck; reflexivity|auto|auto|].
  - rewrite V. apply nf_bound; auto. rewrite N2, N3. lia.
Qed.

(** * Snapshots (C35) *)
Lemma load_view : forall m m0, view (load_counters m (save_counters m0)) = view m0 /\ valid (load_counters m (save_counters m0)).
Proof.
  intros m m0. split.
  - unfold view, load_counters, m_met at 1, m_act at 1, m_per at 1. cbn [m_c m_heap h_met h_act h_per c_met c_act c_per save_counters s_c s_met s_act s_per]. rewrite !cell_last. reflexivity.
  - unfold valid. cbn. rewrite !app_length. cbn. lia.
Qed.
Lemma load_restores : forall s before between after,
  let m0 := mon_run s mon_new before in
  view (mon_run s (load_counters (mon_run s m0 between) (save_counters m0)) after) = view (mon_run s m0 after).
Proof.
  intros s before between after m0. destruct (mon_run_view s before new_valid) as [V0 _]. fold m0 in V0. destruct (load_view (mon_run s m0 between) m0) as [L1 L2].
  destruct (mon_run_view s after L2) as [_ ->]. destruct (mon_run_view s after V0) as [_ ->]. now rewrite L1.
Qed.
