(** Proofs for DqnProps.v. *)
From Coq Require Import List Bool Arith ZArith Lia Reals Lra.
From Verif Require Import PyCommon CommonProofs UtilsModel DistModel LossModel QModel TDModel TDSpec CoreModel ReplayModel TracerModel TracerSpec WorkerModel PipeModel PipeSpec PipeProofs3 LearnModel LearnSpec LearnProofs4 LearnProofs6 DqnModel DqnSpec.
Import ListNotations.
Set Implicit Arguments.

(** ---- the rows ---- *)
Section Rows.
Variables nS nA : nat.
Variable dyn : nat -> nat -> nat * R * bool.
Notation step := (step nat nat).
Local Open Scope nat_scope.
Definition basic (x : step) (r : R) : Prop := st_s x < nS /\ st_a x < nA /\ (st_logp x <= 0)%R /\ st_w x = 1%R /\ st_wnative x = true /\ r = reward dyn (st_s x) (st_a x).
Definition linked (ep : list (step * R)) (nx : option nat) : Prop := forall t x r, nth_error ep t = Some (x, r) -> basic x r /\
  match nth_error ep (t + 1) with
  | Some (x', _) => ends dyn (st_s x) (st_a x) = false /\ st_s x' = next dyn (st_s x) (st_a x)
  | None => match nx with Some s => ends dyn (st_s x) (st_a x) = false /\ s = next dyn (st_s x) (st_a x) | None => True end
  end.
Definition whole (ep : list (step * R)) : Prop := linked ep None /\ forall t x r, nth_error ep t = Some (x, r) -> t + 1 = length ep -> ends dyn (st_s x) (st_a x) = true.
Definition head_s (es : list (envstep nat nat)) : option nat := match es with [] => None | e :: _ => Some (st_s (es_step e)) end.

Lemma linked_snoc : forall ep x r nx, linked ep (Some (st_s x)) -> basic x r -> match nx with Some s => ends dyn (st_s x) (st_a x) = false /\ s = next dyn (st_s x) (st_a x) | None => True end -> linked (ep ++ [(x, r)]) nx.
Proof.
  intros ep x r nx L B N t z w E. destruct (Nat.lt_ge_cases t (length ep)) as [H|H].
  - rewrite nth_error_app1 in E by auto. destruct (L t z w E) as [B' M]. split; auto. destruct (Nat.lt_ge_cases (t + 1) (length ep)) as [H'|H'].
    + rewrite nth_error_app1 by auto. destruct (nth_error ep (t + 1)) as [[x' r']|] eqn:E'; auto. apply nth_error_None in E'. lia.
    + assert (E' : nth_error ep (t + 1) = None) by now apply nth_error_None. rewrite E' in M. rewrite nth_error_app2 by auto. replace (t + 1 - length ep) with 0 by lia. cbn. exact M.
  - rewrite nth_error_app2 in E by auto. destruct (t - length ep) as [|m] eqn:Et; [|cbn in E; destruct m; discriminate]. cbn in E. injection E as <- <-. split; auto.
    rewrite nth_error_app2 by lia. replace (t + 1 - length ep) with 1 by lia. cbn. exact N.
Qed.

Lemma cut_follows : forall es cur, follows nS nA dyn es -> linked cur (head_s es) ->
  (forall ep, In ep (fst (cut cur (played es))) -> whole ep) /\ linked (snd (cut cur (played es))) None.
Proof.
  induction es as [|e es IH]; intros cur F L.
  - cbn. split; [intros ? []|exact L].
  - destruct F as (F1 & F2 & F3 & F4 & F5 & F6 & F7 & F8 & F9 & F10). cbn [played map]. cbn [head_s] in L. fold (played es).
    assert (B : basic (es_step e) (es_r e)) by (repeat split; auto). rewrite F8, Bool.orb_false_r. cbn [cut]. destruct (es_done e) eqn:Ed.
    + destruct (cut [] (played es)) as [eps rest] eqn:C. destruct (IH [] F10) as [I1 I2]; [intros t x r E; destruct t; discriminate|]. rewrite C in I1, I2. cbn [fst snd] in *. split; auto.
      intros ep [<-|I]; auto. split; [apply linked_snoc; auto|]. intros t x r E T. rewrite app_length in T. cbn in T. rewrite nth_error_app2 in E by lia. replace (t - length cur) with 0 in E by lia. cbn in E. injection E as <- <-. now symmetry.
    + apply IH; auto. apply linked_snoc; auto. destruct es as [|e' es]; cbn [head_s]; auto.
Qed.

(** What a row of a batch is. *)
Definition row_ok (gamma : R) (y : single nat nat) : Prop :=
  x_s y < nS /\ x_a y < nA /\ x_w y = 1%R /\ x_rn y = reward dyn (x_s y) (x_a y) /\ x_s_next y < nS /\
  (if ends dyn (x_s y) (x_a y) then x_in y = 0%R else x_in y = gamma /\ x_s_next y = next dyn (x_s y) (x_a y)).
Lemma episode_row : forall gamma es y, closed nS nA dyn -> follows nS nA dyn es -> of_one_episode 1 gamma es y -> row_ok gamma y.
Proof.
  intros gamma es y CL F (ep & fin & t & H & x & r & E & Y1 & Y2 & Y3 & Y4 & Y5 & Y6 & Y7 & _).
  destruct (@cut_follows es [] F) as [C1 C2]; [intros u z w U; destruct u; discriminate|].
  assert (L : linked ep None). { destruct fin; [now apply C1|]. destruct H as [-> _]. exact C2. }
  destruct (L t x r E) as [B M]. destruct B as (B1 & B2 & B3 & B4 & B5 & B6). red. rewrite Y1, Y2, Y4. do 3 (split; auto).
  assert (RR : x_rn y = reward dyn (st_s x) (st_a x)).
  { rewrite Y5. cbn [disc_sum pow]. rewrite Nat.add_0_r. unfold rewards. rewrite (nth_error_nth (map snd ep) t 0%R (map_nth_error snd t ep E)). cbn. lra. }
  split; auto. assert (Ht : t < length ep) by (apply nth_error_Some; congruence). destruct (Nat.lt_ge_cases (t + 1) (length ep)) as [H1|H1].
  - destruct (Y6 H1) as (I1 & x' & r' & E' & S' & _). rewrite E' in M. destruct M as [M1 M2]. rewrite S', M1, M2. split; [now apply CL|]. split; auto. rewrite I1. cbn. lra.
  - destruct (Y7 H1) as (I1 & S' & _). rewrite S'. split; auto. destruct fin; [|destruct H; lia]. destruct (C1 ep H) as [_ W]. rewrite (W t x r E) by lia. exact I1.
Qed.

Lemma rows_genuine : forall gamma ys, ys <> [] -> (forall y, In y ys -> row_ok gamma y) -> genuine nS nA dyn gamma (map (fun y => (x_s y, x_a y)) ys) (batch_of nA ys) /\ (forall w, In w (fb_W (batch_of nA ys)) -> w = 1%R).
Proof.
  intros gamma ys NE OK. split.
  - split; [destruct ys; [congruence|discriminate]|]. unfold batch_of. cbn [fb_S fb_A fb_W fb_t tb_Rn tb_In tb_Snext]. rewrite !map_map, !map_length. do 6 (split; [reflexivity|]).
    intros i s a s' E1 E2. destruct (nth_error ys i) as [y|] eqn:E.
    + rewrite (map_nth_error _ _ _ E) in E1. rewrite (map_nth_error _ _ _ E) in E2. injection E1 as <- <-. injection E2 as <-.
      rewrite (nth_error_nth _ _ 0%R (map_nth_error (@x_rn nat nat) _ _ E)), (nth_error_nth _ _ 0%R (map_nth_error (@x_in nat nat) _ _ E)). destruct (OK y (nth_error_In _ _ E)) as (H1 & H2 & H3 & H4 & H5 & H6). auto 10.
    + apply nth_error_None in E. assert (X : nth_error (map (fun y => (x_s y, x_a y)) ys) i = None) by (apply nth_error_None; now rewrite map_length). congruence.
  - intros w I. cbn in I. apply in_map_iff in I. destruct I as (y & <- & I). now apply OK.
Qed.
End Rows.

(** ---- the run ---- *)
Section Run.
Variable nA : nat.
Variable net : list R -> qfun nat R.
Variable target : list R -> list R -> TDModel.tbatch nat -> outcome (list R).
Variable loss : list R -> list R -> option (list R) -> outcome (option R).
Variable grads : list R -> list R -> fbatch nat -> list R.
Variable sub : nat -> nat -> bool.
Variable G : Type.
Variable draw : G -> nat -> nat -> list nat * G.
Variables (n : nat) (gamma : R).
Variables (warm k : nat) (tau : R).
Notation npipe := (pipe nat nat (nstate nat nat) G).
Notation stored := (ReplayModel.tbatch (single nat nat)).
Notation yrun := (yrun nA net target loss grads sub).
Notation dqn_run := (dqn_run nA net target loss grads sub draw n gamma warm k tau).

Definition call_ops (b : option (list stored)) : list yop := match b with Some b => [YUpdate (batch_of nA (sampled_rows b)); YSync tau] | None => [YSync tau] end.
Definition keep (log : list (option (list stored))) : list (list stored) := flat_map (fun b => match b with Some b => [b] | None => [] end) log.
Lemma dqn_run_yrun : forall es p p' bs, script_run draw n gamma DoneOrTruncated (Some warm) k p es = (p', Ok bs) ->
  exists log, keep log = bs /\ forall y y', yrun y (flat_map call_ops log) = (y', Ok tt) -> dqn_run y p es = (y', p', Ok log).
Proof.
  induction es as [|e es IH]; intros p p' bs R.
  - cbn in R. injection R as <- <-. exists []. split; [reflexivity|]. cbn. intros y y' E. injection E as <-. reflexivity.
  - cbn [script_run] in R. destruct (script_step draw n gamma DoneOrTruncated (Some warm) k p e) as [p1 [b|x]] eqn:S1; [|discriminate]. destruct (script_run draw n gamma DoneOrTruncated (Some warm) k p1 es) as [p2 [bs'|x]] eqn:S2; [|discriminate]. injection R as <- <-.
    destruct (IH p1 p2 bs' S2) as (log & K & H). exists (b :: log). split; [cbn [keep flat_map]; fold (keep log); rewrite K; now destruct b|].
    intros y y' Y. cbn [flat_map] in Y. cbn [DqnModel.dqn_run]. unfold dqn_step. rewrite S1. destruct b as [b|]; cbn [call_ops app LearnModel.yrun] in Y.
    + destruct (ystep nA net target loss grads sub y (YUpdate (batch_of nA (sampled_rows b)))) as [y1 [[]|x]]; [|discriminate]. destruct (ystep nA net target loss grads sub y1 (YSync tau)) as [y2 [[]|x]]; [|discriminate]. now rewrite (H _ _ Y).
    + destruct (ystep nA net target loss grads sub y (YSync tau)) as [y2 [[]|x]]; [|discriminate]. now rewrite (H _ _ Y).
Qed.
Lemma dqn_run_script : forall es y p y' p' log, dqn_run y p es = (y', p', Ok log) -> script_run draw n gamma DoneOrTruncated (Some warm) k p es = (p', Ok (keep log)).
Proof.
  induction es as [|e es IH]; intros y p y' p' log R.
  - cbn in R. injection R as <- <- <-. reflexivity.
  - cbn [DqnModel.dqn_run] in R. unfold dqn_step in R. cbn [script_run]. destruct (script_step draw n gamma DoneOrTruncated (Some warm) k p e) as [p1 [b|x]]; [|discriminate].
    destruct (match b with Some b => ystep nA net target loss grads sub y (YUpdate (batch_of nA (sampled_rows b))) | None => (y, Ok tt) end) as [y1 [u|x]]; [|discriminate]. destruct (ystep nA net target loss grads sub y1 (YSync tau)) as [y2 [v|x]]; [|discriminate].
    destruct (dqn_run y2 p1 es) as [[y3 p3] [bs|x]] eqn:E; [|discriminate]. injection R as <- <- <-. rewrite (IH _ _ _ _ _ E). cbn [keep flat_map]. now destruct b.
Qed.
Lemma in_keep : forall log b, In b (keep log) <-> In (Some b) log.
Proof.
  intros log b. unfold keep. rewrite in_flat_map. split.
  - intros ([c|] & I & H); [|destruct H]. destruct H as [<-|[]]. exact I.
  - intros I. exists (Some b). split; auto. now left.
Qed.
Lemma flat_map_parts : forall parts, flat_map call_ops (concat parts) = concat (map (flat_map call_ops) parts).
Proof. induction parts as [|p ps IH]; cbn; auto. now rewrite flat_map_app, IH. Qed.
End Run.
