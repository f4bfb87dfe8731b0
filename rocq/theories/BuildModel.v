(** Model of the constructors of the function approximators: coax/_core/base_func.py (BaseFunc.__init__), _check_signature, example_data and
    _check_output of v.py, q.py, transition_model.py, base_stochastic_func_type1.py and base_stochastic_func_type2.py, and of the calls with a
    single observation.  Spaces are gymnasium spaces (the isinstance checks of base_func.py:59-70 pass).  Random keys are not modelled: the
    function handed over is an arbitrary function of the shapes its parameters were made for, its arguments and the flag is_training. *)
From Coq Require Import List ZArith Bool Reals.
From Verif Require Import PyCommon DistModel CompModel StochModel.
Import ListNotations.
Set Implicit Arguments.
Local Open Scope R_scope.

(** Trees of arrays.  An array has a dtype (floating or not), a shape and its entries in row-major order.  Dicts have their entries in a
    fixed order of the keys (jax sorts them). *)
Inductive otree : Type := OArr (floating : bool) (shape : list nat) (data : list R) | OTuple (l : list otree) | OLst (l : list otree) | ODict (l : list (nat * otree)).
(** The abstract value of a tree: what jit and the initialisers of haiku see. *)
Fixpoint erase (o : otree) : otree :=
  match o with
  | OArr f s _ => OArr f s []
  | OTuple l => OTuple (map erase l)
  | OLst l => OLst (map erase l)
  | ODict l => ODict (map (fun kx => (fst kx, erase (snd kx))) l)
  end.

(** The parameters of a python function. *)
Inductive pname : Type := NS | NA | NTrain | NOther (k : nat).
Definition pname_eqb (a b : pname) : bool :=
  match a, b with NS, NS | NA, NA | NTrain, NTrain => true | NOther i, NOther j => Nat.eqb i j | _, _ => false end.
Fixpoint sig_eqb (a b : list pname) : bool :=
  match a, b with [] , [] => true | x :: a', y :: b' => pname_eqb x y && sig_eqb a' b' | _, _ => false end.
(** A forward-pass function.  [hk_run sp args training]: transformed.apply with parameters that transformed.init made for arguments of the
    abstract values [sp]; init itself runs the function on the arguments. *)
Record hkfun : Type := mkHk { hk_sig : list pname; hk_run : list otree -> list otree -> bool -> outcome otree }.

(** base_func.py:75-86: init and one evaluation, with is_training=True; returns the output that is checked. *)
Definition try_out (f : hkfun) (args : list otree) : outcome otree :=
  bind (hk_run f (map erase args) args true) (fun _ => hk_run f (map erase args) args true).

Fixpoint shape_eqb (a b : list nat) : bool :=
  match a, b with [], [] => true | x :: a', y :: b' => Nat.eqb x y && shape_eqb a' b' | _, _ => false end.
(** v.py:149-161, q.py:285-297 [_check_output]. *)
Definition check_array (shape : list nat) (o : otree) : outcome unit :=
  match o with OArr fl s _ => if fl then if shape_eqb s shape then Ok tt else Err EType else Err EType | _ => Err EType end.
(** base_stochastic_func_type1.py:412-432, base_stochastic_func_type2.py:188-208, transition_model.py:300-320 [_check_output]: the same
    structure and the same shapes.  (A leaf that is no array does not come out of jit.) *)
Fixpoint same_tree (e o : otree) {struct e} : bool :=
  match e, o with
  | OArr _ s _, OArr _ s' _ => shape_eqb s' s
  | OTuple l, OTuple l' => (fix go (l l' : list otree) : bool := match l, l' with [], [] => true | x :: r, y :: r' => same_tree x y && go r r' | _, _ => false end) l l'
  | OLst l, OLst l' => (fix go (l l' : list otree) : bool := match l, l' with [], [] => true | x :: r, y :: r' => same_tree x y && go r r' | _, _ => false end) l l'
  | ODict l, ODict l' => (fix go (l l' : list (nat * otree)) : bool := match l, l' with [], [] => true | (k, x) :: r, (j, y) :: r' => Nat.eqb k j && same_tree x y && go r r' | _, _ => false end) l l'
  | _, _ => false
  end.
Definition check_tree (expected o : otree) : outcome unit := if same_tree expected o then Ok tt else Err EType.

(** Trees of rows (CompModel.pv) and trees of arrays: a row is an array of shape (1, n).  batch_to_single takes the only row back. *)
Fixpoint of_pv (v : pv) : otree :=
  match v with
  | VArr x => OArr true [1%nat; length x] x
  | VList l => OLst (map of_pv l)
  | VDict l => ODict (map (fun kx => (fst kx, of_pv (snd kx))) l)
  end.
Fixpoint to_pv (o : otree) : pv :=
  match o with
  | OArr _ _ x => VArr x
  | OTuple l | OLst l => VList (map to_pv l)
  | ODict l => VDict (map (fun kx => (fst kx, to_pv (snd kx))) l)
  end.
(** _composite.py:223-234 [default_priors] (a tuple for MultiDiscrete, MultiBinary and Tuple spaces); _categorical.py:126-127,
    _normal.py:180-182. *)
Fixpoint priors (d : pdist) : otree :=
  match d with
  | PCat n => ODict [(logits_key, OArr true [1%nat; n] (repeat 0 n))]
  | PNorm bs => ODict [(mu_key, OArr true [1%nat; length bs] (repeat 0 (length bs))); (logvar_key, OArr true [1%nat; length bs] (repeat 0 (length bs)))]
  | PNode KDict l => ODict (map (fun kd => (fst kd, priors (snd kd))) l)
  | PNode _ l => OTuple (map (fun kd => priors (snd kd)) l)
  end.
(** base_stochastic_func_type2.py:165-166, base_stochastic_func_type1.py:229-230, 239-241 and transition_model.py:253, 262-263: the shapes
    (batch_size, *x.shape[1:]) and (batch_size, n, *x.shape[1:]) with batch_size=1; [ax] is empty or the number of actions. *)
Fixpoint widen (ax : list nat) (o : otree) : otree :=
  match o with
  | OArr _ s _ => OArr true (1%nat :: ax ++ tl s) []
  | OTuple l => OTuple (map (widen ax) l)
  | OLst l => OLst (map (widen ax) l)
  | ODict l => ODict (map (fun kx => (fst kx, widen ax (snd kx))) l)
  end.

(** What a constructor stores: the function, the abstract values its parameters were made for, the preprocessors and the modeltype. *)
Inductive mtype : Type := Type1 | Type2.
Section Approx.
Variables Obs Act : Type.
Record approx : Type := mkAp { ap_fun : hkfun; ap_made : list otree; ap_obs : Obs -> outcome otree; ap_act : Act -> outcome otree; ap_type : mtype }.

(** q.py:255-267, transition_model.py:270-282, base_stochastic_func_type1.py:379-392: which signature; [discrete] is the number of actions of a
    Discrete action space. *)
Definition signature_type (discrete : option nat) (f : hkfun) : outcome mtype :=
  if sig_eqb (hk_sig f) [NS; NA; NTrain] then Ok Type1
  else if sig_eqb (hk_sig f) [NS; NTrain] then match discrete with Some _ => Ok Type2 | None => Err EType end
  else Err EType.
Definition inputs (t : mtype) (S A : otree) : list otree := match t with Type1 => [S; A] | Type2 => [S] end.

(** v.py:67-85, 134-147: V.__init__ with the preprocessor [pre]; [s0] is the sampled example observation. *)
Definition v_init (pre : Obs -> outcome otree) (noact : Act -> outcome otree) (s0 : Obs) (f : hkfun) : outcome approx :=
  if sig_eqb (hk_sig f) [NS; NTrain]
  then bind (pre s0) (fun S => bind (try_out f [S]) (fun o => bind (check_array [1%nat] o) (fun _ => Ok (mkAp f [erase S] pre noact Type2))))
  else Err EType.
(** V[0] of a batch of numbers.  (Arrays of other shapes do not get past the constructor.) *)
Definition first_number (o : otree) : outcome R :=
  match o with OArr _ [_] (x :: _) => Ok x | OArr _ _ _ => Err EIndex | _ => Err EType end.
(** v.py:105-108 [V.__call__]; [finv] is the inverse of the value transform. *)
Definition v_call (v : approx) (finv : R -> R) (s : Obs) : outcome R :=
  bind (ap_obs v s) (fun S => bind (hk_run (ap_fun v) (ap_made v) [S] false) (fun o => bind (first_number o) (fun x => Ok (finv x)))).

(** q.py:74-96, 209-283: Q.__init__ (also RewardFunction).  [def] is default_preprocessor(env.observation_space), [pre] the
    observation_preprocessor that is stored; lines 269-274 do not hand [pre] to example_data. *)
Definition q_init (discrete : option nat) (def pre : Obs -> outcome otree) (act : Act -> outcome otree) (s0 : Obs) (a0 : Act) (f : hkfun) : outcome approx :=
  bind (signature_type discrete f) (fun t => bind (def s0) (fun S => bind (act a0) (fun A => bind (try_out f (inputs t S A)) (fun o =>
    bind (check_array (match t, discrete with Type2, Some n => [1%nat; n] | _, _ => [1%nat] end) o) (fun _ =>
      Ok (mkAp f (map erase (inputs t S A)) pre act t)))))).
(** q.py:141-153 [function_type1]: a type-2 function needs actions of shape (batch, n), then the dot product with q(S) is taken. *)
Definition check_action (t : mtype) (discrete : option nat) (A : otree) : outcome unit :=
  match t with
  | Type1 => Ok tt
  | Type2 => match discrete, A with Some n, OArr _ [_; m] _ => if Nat.eqb m n then Ok tt else Err EAssertion | _, _ => Err EAssertion end
  end.
Definition project (t : mtype) (A o : otree) : outcome otree :=
  match t with
  | Type1 => Ok o
  | Type2 => match A, o with OArr _ _ a, OArr _ [_; _] q => Ok (OArr true [1%nat] [dot a q]) | _, _ => Err EType end
  end.
(** q.py:124-131 [Q.__call__] with an action.  (Without an action: QModel.) *)
Definition q_call (discrete : option nat) (q : approx) (finv : R -> R) (s : Obs) (a : Act) : outcome R :=
  bind (ap_obs q s) (fun S => bind (ap_act q a) (fun A => bind (check_action (ap_type q) discrete A) (fun _ =>
    bind (hk_run (ap_fun q) (ap_made q) (inputs (ap_type q) S A) false) (fun o => bind (project (ap_type q) A o) (fun o =>
      bind (first_number o) (fun x => Ok (finv x))))))).

(** base_stochastic_func_type2.py:124-136, 173-186: Policy, StochasticV, StateDensity. *)
Definition s2_init (d : pdist) (pre : Obs -> outcome otree) (noact : Act -> outcome otree) (s0 : Obs) (f : hkfun) : outcome approx :=
  if sig_eqb (hk_sig f) [NS; NTrain]
  then bind (pre s0) (fun S => bind (try_out f [S]) (fun o => bind (check_tree (widen [] (priors d)) o) (fun _ => Ok (mkAp f [erase S] pre noact Type2))))
  else Err EType.
(** Lines 48-51 [dist_params], 30-34 [__call__], 42-46 [mode]. *)
Definition s2_params (p : approx) (s : Obs) : outcome pv :=
  bind (ap_obs p s) (fun S => bind (hk_run (ap_fun p) (ap_made p) [S] false) (fun o => Ok (to_pv o))).
Definition s2_call (d : pdist) (p : approx) (us gs : list R) (s : Obs) : outcome clean := bind (s2_params p s) (fun z => c_draw d z us gs).
Definition s2_mode (d : pdist) (p : approx) (gs : list R) (s : Obs) : outcome clean := bind (s2_params p s) (fun z => c_best d z gs).
(** base_stochastic_func_type2.py:36-40 [StochasticV.mean] with a DiscretizedIntervalDist (a categorical distribution over its bins). *)
Definition sv_mean_call (n : nat) (lo hi : R) (p : approx) (s : Obs) : outcome R :=
  bind (s2_params p s) (fun z => bind (array_at logits_key z) (fun l => sv_mean (DInterval n lo hi) l)).

(** base_stochastic_func_type1.py:29-42, 379-410: StochasticTransitionModel, StochasticQ, StochasticRewardFunction. *)
Definition s1_init (discrete : option nat) (d : pdist) (pre : Obs -> outcome otree) (act : Act -> outcome otree) (s0 : Obs) (a0 : Act) (f : hkfun) : outcome approx :=
  bind (signature_type discrete f) (fun t => bind (pre s0) (fun S => bind (act a0) (fun A => bind (try_out f (inputs t S A)) (fun o =>
    bind (check_tree (widen (match t, discrete with Type2, Some n => [n] | _, _ => [] end) (priors d)) o) (fun _ =>
      Ok (mkAp f (map erase (inputs t S A)) pre act t)))))).
(** Lines 44-57 [__call__] with an action, for a type-1 function.  (Type-2 functions: StochModel.) *)
Definition s1_call (d : pdist) (p : approx) (us gs : list R) (s : Obs) (a : Act) : outcome clean :=
  bind (ap_obs p s) (fun S => bind (ap_act p a) (fun A => bind (hk_run (ap_fun p) (ap_made p) [S; A] false) (fun o => c_draw d (to_pv o) us gs))).
End Approx.
Arguments mkAp {Obs Act} _ _ _ _ _.

(** transition_model.py:62-82, 218-298: TransitionModel.__init__; the example observation goes through
    ProbaDist(observation_space).preprocess_variate even if another observation_preprocessor [pre] is stored (284-289). *)
Definition t_init {Act : Type} (discrete : option nat) (d : pdist) (pre : clean -> outcome otree) (act : Act -> outcome otree) (s0 : clean) (a0 : Act) (f : hkfun) : outcome (approx clean Act) :=
  bind (signature_type discrete f) (fun t => bind (c_pre d s0) (fun V => let S := of_pv V in bind (act a0) (fun A => bind (try_out f (inputs t S A)) (fun o =>
    bind (check_tree (widen (match t, discrete with Type2, Some n => [n] | _, _ => [] end) S) o) (fun _ =>
      Ok (mkAp f (map erase (inputs t S A)) pre act t)))))).
(** Lines 71-74: the default preprocessor; 110-120 [__call__] with an action, for a type-1 function and the default postprocessor. *)
Definition t_default (d : pdist) (s : clean) : outcome otree := bind (c_pre d s) (fun V => Ok (of_pv V)).
Definition t_call {Act : Type} (d : pdist) (p : approx clean Act) (gs : list R) (s : clean) (a : Act) : outcome clean :=
  bind (ap_obs p s) (fun S => bind (ap_act p a) (fun A => bind (hk_run (ap_fun p) (ap_made p) [S; A] false) (fun o =>
    bind (c_post d (to_pv o) gs) (fun cg => Ok (fst cg))))).

(** * The constructor of SuccessorStateQ *)
(** The classes of the objects that can be passed. *)
Inductive cls : Type := ClsV | ClsStochasticV | ClsQ | ClsStochasticQ | ClsSuccessorStateQ | ClsRewardFunction | ClsStochasticRewardFunction | ClsTransitionModel | ClsStochasticTransitionModel | ClsPolicy | ClsOther.
(** utils/_misc.py:569-590 [is_vfunction], 521-542 [is_transition_model], 545-566 [is_reward_function]. *)
Definition is_vfunction (c : cls) : bool := match c with ClsV | ClsStochasticV => true | _ => false end.
Definition is_transition_model (c : cls) : bool := match c with ClsTransitionModel | ClsStochasticTransitionModel => true | _ => false end.
Definition is_reward_function (c : cls) : bool := match c with ClsRewardFunction | ClsStochasticRewardFunction => true | _ => false end.
(** The attribute observation_postprocessor is set by TransitionModel.__init__ (transition_model.py:67) only. *)
Definition has_postprocessor (c : cls) : bool := match c with ClsTransitionModel => true | _ => false end.
(** successor_state_q.py:47-67 [__init__] (the warning of 69-79 does not stop the constructor). *)
Definition successor_init (v p r : cls) : outcome unit :=
  if negb (is_vfunction v) then Err EType
  else if negb (is_transition_model p) then Err EType
  else if negb (is_reward_function r) then Err EType
  else if negb (has_postprocessor p) then Err EAttribute
  else Ok tt.
