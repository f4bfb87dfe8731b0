(** Model of coax/proba_dists.  The functions act on each row of a batch separately, so one row (a list of reals) is modelled.
    Floats are exact reals; random draws are arguments. *)
From Coq Require Import List ZArith Lia Bool Reals.
From Verif Require Import PyCommon UtilsModel WrappersModel.
Import ListNotations.
Set Implicit Arguments.
Local Open Scope R_scope.

(** Componentwise binary operation on arrays of equal size. *)
Fixpoint zipw (f : R -> R -> R) (a b : list R) : list R := match a, b with x :: a', y :: b' => f x y :: zipw f a' b' | _, _ => [] end.
(** einsum('ij,ij->i') for one row. *)
Definition dot (a b : list R) : R := rsum (zipw Rmult a b).

(** jax.nn.log_softmax and jax.nn.softmax for one row (without the subtraction of the maximum, which cancels). *)
Definition sumexp (z : list R) : R := rsum (map exp z).
Definition log_softmax (z : list R) : list R := map (fun x => x - ln (sumexp z)) z.
Definition softmax (z : list R) : list R := map (fun x => exp x / sumexp z) z.

(** * CategoricalDist *)

(** _categorical.py:57-62 [check_shape], one row: the row must have n entries. *)
Definition check_n (n : nat) (z : list R) : outcome (list R) := if Nat.eqb (length z) n then Ok z else Err EValue.

(** _categorical.py:64-69 [sample]: [us] are the uniform draws, [tau] gumbel_softmax_tau. *)
Definition gumbel (u : R) : R := - ln (- ln u).
Definition cat_sample (n : nat) (tau : R) (z us : list R) : outcome (list R) :=
  bind (check_n n z) (fun z => Ok (softmax (map (fun x => x / tau) (zipw Rplus (map gumbel us) (log_softmax z))))).
(** _categorical.py:71-73 [mean]. *)
Definition cat_mean (n : nat) (z : list R) : outcome (list R) := bind (check_n n z) (fun z => Ok (softmax z)).
(** _categorical.py:75-78 [mode]. *)
Definition cat_mode (n : nat) (tau : R) (z : list R) : outcome (list R) :=
  bind (check_n n z) (fun z => Ok (softmax (map (fun x => x / tau) (log_softmax z)))).
(** _categorical.py:80-84 [log_proba]. *)
Definition cat_log_proba (n : nat) (z x : list R) : outcome R :=
  bind (check_n n x) (fun x => bind (check_n n z) (fun z => Ok (dot x (log_softmax z)))).
(** _categorical.py:86-89 [entropy]. *)
Definition cat_entropy (n : nat) (z : list R) : outcome R :=
  bind (check_n n z) (fun z => let logp := log_softmax z in Ok (dot (map exp logp) (map Ropp logp))).
(** _categorical.py:91-96 [cross_entropy]. *)
Definition cat_cross_entropy (n : nat) (zp zq : list R) : outcome R :=
  bind (check_n n zp) (fun zp => bind (check_n n zq) (fun zq => Ok (dot (softmax zp) (map Ropp (log_softmax zq))))).
(** _categorical.py:98-103 [kl_divergence]. *)
Definition cat_kl (n : nat) (zp zq : list R) : outcome R :=
  bind (check_n n zp) (fun zp => bind (check_n n zq) (fun zq =>
    let logp := log_softmax zp in Ok (dot (map exp logp) (zipw Rminus logp (log_softmax zq))))).

(** _categorical.py:129-133 [preprocess_variate] for one integer: jax.nn.one_hot. *)
Definition one_hot (n a : nat) : list R := map (fun k => if Nat.eqb k a then 1 else 0) (seq 0 n).
(** _categorical.py:135-139 [postprocess_variate]: argmax with noise [gs] (see UtilsModel). *)
Definition cat_post (n : nat) (x gs : list R) : outcome nat := if Nat.eqb (length x) n then argmax x gs else Err EAssertion.

(** * NormalDist *)

(** One dist_params row: mu and logvar, already flattened; [d] is the number of coordinates, [clo], [chi] = clip_logvar. *)
Record nparams : Type := mkN { n_mu : list R; n_logvar : list R }.
Record ndist : Type := mkND { nd_dim : nat; nd_clo : R; nd_chi : R }.
(** The literal 1.8378770664093453 of line 83 stands for log(2 pi). *)
Definition log_2pi : R := ln (2 * PI).
(** _normal.py:85-95 [check_shape] for an argument whose name starts with "logvar": the values are clipped. *)
Definition check_logvar (D : ndist) (lv : list R) : outcome (list R) :=
  bind (check_n (nd_dim D) lv) (fun lv => Ok (map (fun x => clip x (nd_clo D) (nd_chi D)) lv)).

(** _normal.py:97-101 [sample]; [es] are the standard normal draws. *)
Definition n_sample (D : ndist) (p : nparams) (es : list R) : outcome (list R) :=
  bind (check_n (nd_dim D) (n_mu p)) (fun mu => bind (check_logvar D (n_logvar p)) (fun lv =>
    Ok (zipw Rplus mu (zipw Rmult (map (fun x => exp (x / 2)) lv) es)))).
(** _normal.py:103-108 [mean], [mode]. *)
Definition n_mean (D : ndist) (p : nparams) : outcome (list R) := check_n (nd_dim D) (n_mu p).
(** _normal.py:110-119 [log_proba]. *)
Definition n_log_proba (D : ndist) (p : nparams) (x : list R) : outcome R :=
  bind (check_n (nd_dim D) x) (fun x => bind (check_n (nd_dim D) (n_mu p)) (fun mu => bind (check_logvar D (n_logvar p)) (fun lv =>
    let quadratic := dot (map Rsqr (zipw Rminus x mu)) (map (fun v => exp (- v)) lv) in
    Ok (- (1/2) * (INR (length lv) * log_2pi + rsum lv + quadratic))))).
(** _normal.py:121-127 [entropy]. *)
Definition n_entropy (D : ndist) (p : nparams) : outcome R :=
  bind (check_logvar D (n_logvar p)) (fun lv => Ok (1/2 * (INR (length lv) * log_2pi + rsum lv + INR (length lv)))).
(** The four checked arguments of cross_entropy and kl_divergence. *)
Definition n_quadratic (mu1 mu2 lv1 lv2 : list R) : R :=
  dot (zipw Rplus (map exp lv1) (map Rsqr (zipw Rminus mu1 mu2))) (map (fun v => exp (- v)) lv2).
Definition n_checked {T} (D : ndist) (p q : nparams) (k : list R -> list R -> list R -> list R -> T) : outcome T :=
  bind (check_n (nd_dim D) (n_mu p)) (fun mu1 => bind (check_n (nd_dim D) (n_mu q)) (fun mu2 =>
  bind (check_logvar D (n_logvar p)) (fun lv1 => bind (check_logvar D (n_logvar q)) (fun lv2 => Ok (k mu1 mu2 lv1 lv2))))).
(** _normal.py:129-142 [cross_entropy]. *)
Definition n_cross_entropy (D : ndist) (p q : nparams) : outcome R :=
  n_checked D p q (fun mu1 mu2 lv1 lv2 => 1/2 * (INR (length mu1) * log_2pi + rsum lv2 + n_quadratic mu1 mu2 lv1 lv2)).
(** _normal.py:144-158 [kl_divergence]. *)
Definition n_kl (D : ndist) (p q : nparams) : outcome R :=
  n_checked D p q (fun mu1 mu2 lv1 lv2 => 1/2 * (rsum lv2 - rsum lv1 + n_quadratic mu1 mu2 lv1 lv2 - INR (length mu1))).

(** jnp.log: -inf at 0, nan below. *)
Inductive xreal : Type := XFin (x : R) | XNegInf | XNan.
Definition jlog (x : R) : xreal := if Rlt_dec 0 x then XFin (ln x) else if Req_EM_T x 0 then XNegInf else XNan.
(** jnp.clip of such a value with finite bounds; nan stays nan. *)
Definition xclip (x : xreal) (lo hi : R) : option R := match x with XFin x => Some (clip x lo hi) | XNegInf => Some (Rmin lo hi) | XNan => None end.
(** _normal.py:160-168 [affine_transform_func], one coordinate: new mu and new logvar; [f], [finv] is the value transform
    (identities if None). *)
Definition n_affine (D : ndist) (f finv : R -> R) (scale shift mu logvar : R) : R * xreal :=
  let lv := clip logvar (nd_clo D) (nd_chi D) in (f (finv mu + shift), jlog (f (finv (exp lv) * Rsqr scale))).

(** _normal.py:70-76: the effective bounds of one coordinate; None is an infinite bound of the Box. *)
Definition n_bounds (lo hi : option R) (cb_lo cb_hi : R) : outcome (R * R) :=
  let l := match lo with Some l => Rmax l cb_lo | None => cb_lo end in
  let h := match hi with Some h => Rmin h cb_hi | None => cb_hi end in
  if Rlt_dec l h then Ok (l, h) else Err EAssertion.
(** utils/_array.py:272-301 [clipped_logit]. *)
Definition clipped_logit (eps x : R) : R := ln (clip x eps 1) - ln (clip (1 - x) eps 1).
Definition eps15 : R := / (1000000000 * 1000000).
(** _normal.py:184-189 [preprocess_variate], one coordinate with effective bounds [l], [h]. *)
Definition n_pre (l h x : R) : R := clipped_logit eps15 ((clip x l h - l) / (h - l)).
(** _normal.py:191-196 [postprocess_variate], one coordinate; [rlo], [rhi] = clip_reals. *)
Definition n_post (l h rlo rhi x : R) : R := l + (h - l) * sigmoid (clip x rlo rhi).

(** * SquashedNormalDist, on a Box of shape (d,) *)

(** _squashed_normal.py:35-40: clip_logvar is handed to NormalDist; with the default None, jnp.clip(x, *None) raises TypeError
    in every function that uses logvar. *)
Record sdist : Type := mkSD { sd_lo : list R; sd_hi : list R; sd_clip : option (R * R) }.
Definition sd_normal (S : sdist) : outcome ndist := match sd_clip S with None => Err EType | Some (a, b) => Ok (mkND (length (sd_lo S)) a b) end.
Definition sd_scale (S : sdist) : list R := zipw (fun h l => (h - l) / 2) (sd_hi S) (sd_lo S).
Definition sd_offset (S : sdist) : list R := zipw (fun h l => (h + l) / 2) (sd_hi S) (sd_lo S).
(** Lines 42-51 [sample], [mean], [mode].  (mean does not touch logvar.) *)
Definition squash (S : sdist) (x : list R) : list R := zipw Rplus (zipw Rmult (map tanh x) (sd_scale S)) (sd_offset S).
Definition s_sample (S : sdist) (p : nparams) (es : list R) : outcome (list R) := bind (sd_normal S) (fun D => bind (n_sample D p es) (fun x => Ok (squash S x))).
Definition s_mean (S : sdist) (p : nparams) : outcome (list R) := bind (check_n (length (sd_lo S)) (n_mu p)) (fun x => Ok (squash S x)).
(** jnp.arctanh. *)
Definition arctanh (x : R) : R := 1/2 * ln ((1 + x) / (1 - x)).
Definition arctanh_eps : R := / 10000000.
(** Lines 53-58 [log_proba].  The variate is not shifted and scaled back. *)
Definition s_unsquash (x : R) : R := arctanh (clip x (-1 + arctanh_eps) (1 - arctanh_eps)).
Definition s_log_proba (S : sdist) (p : nparams) (x : list R) : outcome R :=
  let x := map s_unsquash x in
  bind (sd_normal S) (fun D => bind (n_log_proba D p x) (fun logp =>
    Ok (logp - rsum (map (fun x => 2 * (ln 2 - x - ln (1 + exp (-2 * x)))) x)))).

(** * DiscretizedIntervalDist *)

(** _discretized_interval.py:67: the atoms. *)
Definition atom (n : nat) (lo hi : R) (j : nat) : R := lo + (INR j + 1/2) * (hi - lo) / INR n.
Definition atoms (n : nat) (lo hi : R) : list R := map (atom n lo hi) (seq 0 n).
(** jnp.floor and jnp.ceil. *)
Definition floor (b : R) : Z := Int_part b.
Definition ceil (b : R) : Z := (- Int_part (- b))%Z.
(** m.at[i].add(v) for an index in range; an index out of range is dropped (jax). *)
Definition at_add (m : list R) (i : Z) (v : R) : list R := if (i <? 0)%Z then m else upd m (Z.to_nat i) (nth (Z.to_nat i) m 0 + v).
(** Lines 94-98: the transformed atom and its position in units of the atom distance.  At least two bins. *)
Definition di_Tz (n : nat) (lo hi : R) (f finv : R -> R) (scale shift : R) (j : nat) : R :=
  clip (f (scale * finv (atom n lo hi j) + shift)) (atom n lo hi 0) (atom n lo hi (n - 1)).
Definition di_b (n : nat) (lo hi : R) (tz : R) : R := (tz - atom n lo hi 0) / (atom n lo hi 1 - atom n lo hi 0).
(** Lines 103-107: the three scatter-adds. *)
Definition di_project (n : nat) (p bs : list R) : list R :=
  let pb := combine p bs in
  let m0 := repeat 0 n in
  let m1 := fold_left (fun m x => at_add m (floor (snd x)) (fst x * (IZR (ceil (snd x)) - snd x))) pb m0 in
  let m2 := fold_left (fun m x => at_add m (ceil (snd x)) (fst x * (snd x - IZR (floor (snd x))))) pb m1 in
  fold_left (fun m x => at_add m (floor (snd x)) (fst x * (if (floor (snd x) =? ceil (snd x))%Z then 1 else 0))) pb m2.
(** The masses before taking the log. *)
Definition di_masses (n : nat) (lo hi : R) (f finv : R -> R) (scale shift : R) (p : list R) : list R :=
  di_project n p (map (fun j => di_b n lo hi (di_Tz n lo hi f finv scale shift j)) (seq 0 n)).
Definition eps16 : R := / (10000000000 * 1000000).
(** Lines 69-119 [affine_transform]: the new logits. *)
Definition di_affine (n : nat) (lo hi : R) (f finv : R -> R) (scale shift : R) (z : list R) : outcome (list R) :=
  if Nat.eqb (length z) n then Ok (map (fun m => ln (Rmax m eps16)) (di_masses n lo hi f finv scale shift (softmax z))) else Err EAssertion.
(** Lines 143-148 [preprocess_variate]: a variate is an integer or a float; floats are rejected. *)
Inductive variate : Type := VInt (x : Z) | VFloat (x : R).
Definition di_pre (n : nat) (lo hi : R) (x : variate) : outcome (list R) :=
  match x with
  | VFloat _ => Err EAssertion
  | VInt x => let k := floor ((IZR x - lo) * INR n / (hi - lo)) in Ok (map (fun j => if (Z.of_nat j =? k)%Z then 1 else 0) (seq 0 n))
  end.
(** Lines 150-160 [postprocess_variate]. *)
Definition di_post (n : nat) (lo hi : R) (x : list R) : outcome R := if Nat.eqb (length x) n then Ok (dot x (atoms n lo hi)) else Err EAssertion.

(** * EmpiricalQuantileDist *)

(** _empirical_quantile.py:26-28 [mean], one row. *)
Definition eq_mean (values : list R) : R := rsum values / INR (length values).
(** _empirical_quantile.py:41-67 [affine_transform], one row: values; the quantile fractions stay. *)
Definition eq_affine (f finv : R -> R) (scale shift : R) (values : list R) : list R := map (fun v => f (shift + scale * finv v)) values.

(** * ProbaDist *)

(** _composite.py:45-64: a leaf, or a list or dict of distributions; a list is a dict with the keys 0, 1, ... *)
Inductive cdist : Type := CCat (n : nat) | CNorm (D : ndist) | CNode (l : list (nat * cdist)).
Inductive cparams : Type := PCat (z : list R) | PNorm (p : nparams) | PNode (l : list (nat * cparams)).

(** sum(... for k, dist in structure.items()): the generator stops at the first exception; dist_params[k] raises when the key is
    missing (KeyError, for a list IndexError).  Superfluous parameters are ignored. *)
Section Composite.
Variable leaf_cat : nat -> list R -> list R -> outcome R.
Variable leaf_norm : ndist -> nparams -> nparams -> outcome R.
Fixpoint csum2 (d : cdist) (p q : cparams) {struct d} : outcome R :=
  match d, p, q with
  | CCat n, PCat zp, PCat zq => leaf_cat n zp zq
  | CNorm D, PNorm pp, PNorm pq => leaf_norm D pp pq
  | CNode l, PNode lp, PNode lq =>
      (fix go (l : list (nat * cdist)) : outcome R :=
         match l with
         | [] => Ok 0
         | (k, d') :: l' =>
             match dget k lp, dget k lq with
             | Some p', Some q' => bind (csum2 d' p' q') (fun x => bind (go l') (fun y => Ok (x + y)))
             | _, _ => Err EKey
             end
         end) l
  | _, _, _ => Err EType
  end.
End Composite.
(** _composite.py:129-143 [entropy]. *)
Definition c_entropy (d : cdist) (p : cparams) : outcome R := csum2 (fun n z _ => cat_entropy n z) (fun D p _ => n_entropy D p) d p p.
(** _composite.py:145-159 [cross_entropy]. *)
Definition c_cross_entropy (d : cdist) (p q : cparams) : outcome R := csum2 cat_cross_entropy n_cross_entropy d p q.
(** _composite.py:161-175 [kl_divergence]. *)
Definition c_kl (d : cdist) (p q : cparams) : outcome R := csum2 cat_kl n_kl d p q.
