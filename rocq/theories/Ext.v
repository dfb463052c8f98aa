(** * Real numbers with infinities and NaN

    Arithmetic as IEEE 754 prescribes it for the special values; finite
    results are exact (rounding and overflow are not modelled).  The sign of
    zero is not modelled. *)
From Coq Require Import Reals List.
Import ListNotations.
Local Open Scope R_scope.

(** A float32 of TensorFlow (for instance metropolis_hastings.py:95-140). *)
Inductive ext : Type := Fin (r : R) | PInf | NInf | NaN.

(** Negation (used by [esub]; metropolis_hastings.py:108). *)
Definition eneg (a : ext) : ext :=
  match a with Fin r => Fin (- r) | PInf => NInf | NInf => PInf | NaN => NaN end.

(** Addition (metropolis_hastings.py:117-134). *)
Definition eadd (a b : ext) : ext :=
  match a, b with
  | NaN, _ | _, NaN => NaN
  | Fin r, Fin s => Fin (r + s)
  | PInf, NInf | NInf, PInf => NaN
  | PInf, _ | _, PInf => PInf
  | NInf, _ | _, NInf => NInf
  end.

(** Subtraction (metropolis_hastings.py:108, 125, 134). *)
Definition esub (a b : ext) : ext := eadd a (eneg b).

(** Infinity of the sign of [r], NaN for zero (an infinity times [r], for [emul]; hmc.py:101). *)
Definition inf_times (r : R) : ext :=
  if Rlt_dec 0 r then PInf else if Rlt_dec r 0 then NInf else NaN.

(** Multiplication (replica_exchange_mc.py:201, conjugate_log_probs.py:22-24). *)
Definition emul (a b : ext) : ext :=
  match a, b with
  | NaN, _ | _, NaN => NaN
  | Fin r, Fin s => Fin (r * s)
  | PInf, Fin r | Fin r, PInf => inf_times r
  | NInf, Fin r | Fin r, NInf => eneg (inf_times r)
  | PInf, PInf | NInf, NInf => PInf
  | PInf, NInf | NInf, PInf => NInf
  end.

(** tf.log (metropolis_hastings.py:138, conjugate_log_probs.py:23). *)
Definition elog (a : ext) : ext :=
  match a with
  | Fin r => if Rlt_dec 0 r then Fin (ln r) else if Req_EM_T r 0 then NInf else NaN
  | PInf => PInf
  | NInf => NaN
  | NaN => NaN
  end.

(** Division; the sign of a zero divisor is taken to be positive (monte_carlo.py:99). *)
Definition ediv (a b : ext) : ext :=
  match a, b with
  | NaN, _ | _, NaN => NaN
  | Fin r, Fin s => if Req_EM_T s 0 then inf_times r else Fin (r / s)
  | Fin _, _ => Fin 0
  | PInf, Fin s => if Req_EM_T s 0 then PInf else inf_times s
  | NInf, Fin s => if Req_EM_T s 0 then NInf else eneg (inf_times s)
  | _, _ => NaN
  end.

(** tf.reduce_sum over a vector (conjugate_log_probs.py:53, param_mixture.py:194). *)
Definition esum (l : list ext) : ext := fold_right eadd (Fin 0) l.

(** Comparison [a < b]; false whenever a NaN is involved (metropolis_hastings.py:138). *)
Definition eltb (a b : ext) : bool :=
  match a, b with
  | NaN, _ | _, NaN => false
  | Fin r, Fin s => if Rlt_dec r s then true else false
  | NInf, NInf | PInf, PInf => false
  | NInf, _ | _, PInf => true
  | _, _ => false
  end.
