(** Model of coax/value_losses/_losses.py and coax/value_transforms/_log_transform.py.  Floats are exact reals; infinities and nan
    are represented where the functions produce them. *)
From Coq Require Import List Bool Reals.
From Verif Require Import PyCommon UtilsModel DistModel.
Import ListNotations.
Set Implicit Arguments.
Local Open Scope R_scope.

(** * Batches *)

(** jnp.mean over all entries; None is nan (empty array). *)
Definition jmean (l : list R) : option R := match l with [] => None | _ => Some (rsum l / INR (length l)) end.
(** _losses.py:180-186 [_mean_with_weights] for a loss of rank 2 with rows; a loss of rank 1 has rows of length one. *)
Definition mean_w (loss : list (list R)) (w : option (list R)) : outcome (option R) :=
  match w with
  | None => Ok (jmean (concat loss))
  | Some w => if Nat.eqb (length loss) (length w) then Ok (jmean (concat (map (fun wl => map (Rmult (fst wl)) (snd wl)) (combine w loss)))) else Err EAssertion
  end.
(** Arrays of rank 1 of equal length (the code also broadcasts; not modelled: TypeError). *)
Definition zip_loss (l : R -> R -> R) (y yhat : list R) (w : option (list R)) : outcome (option R) :=
  if Nat.eqb (length y) (length yhat) then mean_w (map (fun x => [x]) (zipw l y yhat)) w else Err EType.

(** * The losses *)

(** _losses.py:48-49 [mse]. *)
Definition mse1 (y yhat : R) : R := 1/2 * Rsqr (yhat - y).
Definition mse := zip_loss mse1.
(** _losses.py:96-99 [huber]. *)
Definition huber1 (delta y yhat : R) : R := let err := Rabs (yhat - y) in let c := Rmin err delta in 1/2 * Rsqr c + delta * (err - c).
Definition huber (delta : R) := zip_loss (huber1 delta).
(** _losses.py:176-177 [logloss_sign]. *)
Definition logloss_sign1 (y z : R) : R := ln (1 + exp (- y * z)).
Definition logloss_sign := zip_loss logloss_sign1.

(** Numbers with infinities and nan. *)
Inductive ext : Type := Fin (x : R) | PInf | NInf | NaN.
Definition elog (x : R) : ext := if Rlt_dec 0 x then Fin (ln x) else if Req_EM_T x 0 then NInf else NaN.
Definition escale (c : R) (x : ext) : ext :=
  match x with
  | Fin x => Fin (c * x)
  | NaN => NaN
  | PInf => if Req_EM_T c 0 then NaN else if Rlt_dec 0 c then PInf else NInf
  | NInf => if Req_EM_T c 0 then NaN else if Rlt_dec 0 c then NInf else PInf
  end.
Definition esub (x y : ext) : ext :=
  match x, y with
  | Fin a, Fin b => Fin (a - b)
  | NaN, _ | _, NaN => NaN
  | Fin _, PInf => NInf | Fin _, NInf => PInf
  | PInf, PInf | NInf, NInf => NaN
  | PInf, _ => PInf | NInf, _ => NInf
  end.
(** _losses.py:135-136 [logloss], one element. *)
Definition logloss1 (y p : R) : ext := esub (escale (- y) (elog p)) (escale (1 - y) (elog (1 - p))).
Definition eadd (x y : ext) : ext := esub x (escale (-1) y).
(** jnp.mean with infinities and nan. *)
Definition emean (l : list ext) : ext := match l with [] => NaN | _ => escale (/ INR (length l)) (fold_right eadd (Fin 0) l) end.
Fixpoint ezip (l : R -> R -> ext) (a b : list R) : list ext := match a, b with x :: a', y :: b' => l x y :: ezip l a' b' | _, _ => [] end.
Definition logloss (y p : list R) (w : option (list R)) : outcome ext :=
  if Nat.eqb (length y) (length p) then
    match w with
    | None => Ok (emean (ezip logloss1 y p))
    | Some w => if Nat.eqb (length (ezip logloss1 y p)) (length w) then Ok (emean (map (fun wl => escale (fst wl) (snd wl)) (combine w (ezip logloss1 y p)))) else Err EAssertion
    end
  else Err EType.

(** _losses.py:232-243 [quantile_huber]: one entry of the [batch, N, N'] array, one row of the batch, the batch. *)
Definition qhuber1 (delta tau y yhat : R) : R :=
  let td := y - yhat in let err := Rabs td in let c := Rmin err delta in
  Rabs (tau - (if Rlt_dec td 0 then 1 else 0)) * (1/2 * Rsqr c + delta * (err - c)) / delta.
Definition qhuber_row (delta : R) (y yhat taus : list R) : list R := map (fun pt => rsum (map (fun y => qhuber1 delta (snd pt) y (fst pt)) y)) (combine yhat taus).
Fixpoint qhuber_rows (delta : R) (y yhat taus : list (list R)) : list (list R) :=
  match y, yhat, taus with y1 :: y', h1 :: h', t1 :: t' => qhuber_row delta y1 h1 t1 :: qhuber_rows delta y' h' t' | _, _, _ => [] end.
Definition quantile_huber (delta : R) (y yhat taus : list (list R)) (w : option (list R)) : outcome (option R) := mean_w (qhuber_rows delta y yhat taus) w.

(** * LogTransform *)
(** jnp.sign. *)
Definition sign (x : R) : R := if Rlt_dec 0 x then 1 else if Rlt_dec x 0 then -1 else 0.
(** _log_transform.py:42-53 [LogTransform]: the constructor and the two functions. *)
Definition log_transform (scale : R) : outcome ((R -> R) * (R -> R)) :=
  if Rlt_dec 0 scale then Ok (fun x => sign x * scale * ln (1 + Rabs x / scale), fun x => sign x * scale * (exp (Rabs x / scale) - 1)) else Err EAssertion.
