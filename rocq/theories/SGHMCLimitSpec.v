(** * Vocabulary for C88. *)
From Coq Require Import Reals.
Local Open Scope R_scope.

(** The variance of the stationary law of x' = x + v, v' = (1 - f / 2) v - h (x - mu) / s2 +
    sqrt (h f) noise. *)
Definition stationary_variance (h f s2 : R) : R :=
  s2 * (f * (2 - f / 2 + h / s2)) / ((f / 2 - h / s2) * (4 - f + h / s2)).
