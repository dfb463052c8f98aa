(** * conjugate_log_prob of edward/inferences/conjugacy/conjugate_log_probs.py
      and the table of conjugacy.py

    Simplifications.  One batch element at a time: a scalar distribution has
    real parameters and a real value, a vector distribution lists of them.
    Numbers are reals, integer values are [nat] and tf.cast is [INR].
    tf.lgamma is the argument [lgamma].  The functions on [ext] follow the same
    lines with the arithmetic of special values. *)
From Coq Require Import Reals List.
From Verif Require Import Ext.
Import ListNotations.
Local Open Scope R_scope.

(** tf.reduce_sum of a vector; elementwise operation on two vectors
    (conjugate_log_probs.py:53, 63, 70-71, 116-118). *)
Definition vsum (l : list R) : R := fold_right Rplus 0 l.
(** Elementwise operation on two vectors (for instance conjugate_log_probs.py:52-53, 69). *)
Definition map2 {A B C} (f : A -> B -> C) (l : list A) (m : list B) : list C :=
  map (fun p => f (fst p) (snd p)) (combine l m).

(** tf.one_hot(k, depth), used by conjugate_log_probs.py:52. *)
Definition one_hot (k depth : nat) : list R :=
  map (fun i => if Nat.eqb i k then 1 else 0) (seq 0 depth).

(** conjugate_log_probs.py:20-24 *)
Definition bernoulli_log_prob (probs : R) (val : nat) : R :=
  INR val * ln probs + (1 - INR val) * ln (1 - probs).

(** conjugate_log_probs.py:27-34 *)
Definition beta_log_prob (lgamma : R -> R) (conc1 conc0 val : R) : R :=
  (conc1 - 1) * ln val + (conc0 - 1) * ln (1 - val)
  + (- lgamma conc1 - lgamma conc0 + lgamma (conc1 + conc0)).

(** conjugate_log_probs.py:37-46 *)
Definition binomial_log_prob (lgamma : R -> R) (n : nat) (probs : R) (val : nat) : R :=
  INR val * ln probs + (INR n - INR val) * ln (1 - probs)
  + (lgamma (INR n + 1) - lgamma (INR val + 1) - lgamma (INR n - INR val + 1)).

(** conjugate_log_probs.py:49-53 *)
Definition categorical_log_prob (probs : list R) (val : nat) : R :=
  vsum (map2 Rmult (map ln probs) (one_hot val (length probs))).

(** conjugate_log_probs.py:56-63; the sum over the last axis of a vector of
    one element. *)
Definition chi2_log_prob (lgamma : R -> R) (df val : R) : R :=
  let eta := / 2 * df - 1 in
  eta * ln val + exp (- / 2 * val) - (lgamma (eta + 1) + (eta + 1) * ln 2).

(** conjugate_log_probs.py:66-72 *)
Definition dirichlet_log_prob (lgamma : R -> R) (conc val : list R) : R :=
  vsum (map2 (fun c v => (c - 1) * ln v) conc val)
  + vsum (map (fun c => - lgamma c) conc)
  + lgamma (vsum conc).

(** conjugate_log_probs.py:75-79 *)
Definition exponential_log_prob (rate val : R) : R := ln rate - rate * val.

(** conjugate_log_probs.py:82-89 *)
Definition gamma_log_prob (lgamma : R -> R) (conc rate val : R) : R :=
  (conc - 1) * ln val - rate * val + (- lgamma conc + conc * ln rate).

(** conjugate_log_probs.py:92-99 *)
Definition inverse_gamma_log_prob (lgamma : R -> R) (conc rate val : R) : R :=
  - (conc + 1) * ln val - rate * / val + (- lgamma conc + conc * ln rate).

(** conjugate_log_probs.py:102-108 *)
Definition laplace_log_prob (loc scale val : R) : R :=
  - ln (2 * scale) - Rabs (val - loc) / scale.

(** conjugate_log_probs.py:111-119 *)
Definition multinomial_log_prob (lgamma : R -> R) (n : nat) (probs : list R) (val : list nat) : R :=
  vsum (map2 (fun p v => ln p * INR v) probs val)
  + (lgamma (INR n + 1) - vsum (map (fun v => lgamma (INR v + 1)) val)).

(** conjugate_log_probs.py:133-141 *)
Definition normal_log_prob (loc scale val : R) : R :=
  let prec := / (scale * scale) in
  prec * (- / 2 * (val * val) - / 2 * (loc * loc) + val * loc)
  - (ln scale + / 2 * ln (2 * PI)).

(** conjugate_log_probs.py:122-130; one entry per dimension is returned. *)
Fixpoint mvn_diag_log_prob (loc scale_diag val : list R) : list R :=
  match loc, scale_diag, val with
  | m :: loc', s :: scale', v :: val' =>
    (/ (s * s) * (- / 2 * (v * v) - / 2 * (m * m) + v * m) - (ln s + / 2 * ln (2 * PI)))
    :: mvn_diag_log_prob loc' scale' val'
  | _, _, _ => []
  end.

(** conjugate_log_probs.py:144-150 *)
Definition poisson_log_prob (lgamma : R -> R) (rate : R) (val : nat) : R :=
  INR val * ln rate + (- rate - lgamma (INR val + 1)).

(** conjugate_log_probs.py:20-24 with special values. *)
Definition bernoulli_log_prob_ext (probs : R) (val : nat) : ext :=
  eadd (emul (Fin (INR val)) (elog (Fin probs)))
       (emul (esub (Fin 1) (Fin (INR val))) (elog (esub (Fin 1) (Fin probs)))).

(** conjugate_log_probs.py:49-53 with special values. *)
Definition categorical_log_prob_ext (probs : list R) (val : nat) : ext :=
  esum (map2 emul (map (fun p => elog (Fin p)) probs)
                  (map Fin (one_hot val (length probs)))).

(** ** The table, conjugacy.py:30-58 *)

(** Values of [rv.support] used as first key (conjugacy.py:30-58, 124). *)
Inductive support : Type :=
| SupBinary | Sup01 | SupCategorical | SupNonnegative | SupSimplex
| SupMultivariateReal | SupReal | SupCountable | SupOther.

(** The simplified statistics that occur in keys: '#x', '#Log x',
    '#Log (One_minus x)', '#CPow-1 x', '#CPow2 x', '#OneHot x'; [StOther] is
    any other tuple (conjugacy.py:31-57). *)
Inductive stat : Type := StX | StLog | StLog1m | StRecip | StSquare | StOneHot | StOther.

(** Equality of the keys (conjugacy.py:125-127). *)
Definition stat_eqb (a b : stat) : bool :=
  match a, b with
  | StX, StX | StLog, StLog | StLog1m, StLog1m | StRecip, StRecip
  | StSquare, StSquare | StOneHot, StOneHot => true
  | _, _ => false
  end.

(** Distributions that are constructed, scalar ones with real parameters (conjugacy.py:31-57). *)
Inductive dist : Type :=
| DBernoulli (logits : R)
| DBeta (conc1 conc0 : R)
| DCategorical (logits : list R)
| DChi2 (df : R)
| DDirichlet (conc : list R)
| DExponential (rate : R)
| DGamma (conc rate : R)
| DInverseGamma (conc rate : R)
| DMVNDiag (loc scale_diag : list R)
| DNormal (loc scale : R)
| DPoisson (rate : R).

(** conjugacy.py:24-27 *)
Definition normal_from_natural_params (p1 p2 : R) : dist :=
  let sigmasq := / 2 * / (- p1) in DNormal (sigmasq * p2) (sqrt sigmasq).

(** conjugacy.py:18-21 *)
Definition mvn_diag_from_natural_params (p1 p2 : list R) : dist :=
  let sigmasq := map (fun p => / 2 * / (- p)) p1 in
  DMVNDiag (map2 Rmult sigmasq p2) (map sqrt sigmasq).

(** Entries with scalar natural parameters, conjugacy.py:31-36,39-40,43-50,
    54-58; a missing key gives [None] (conjugacy.py:124-130). *)
Definition scalar_table (s : support) (key : list stat) (eta : list R) : option dist :=
  match s, key, eta with
  | SupBinary, [StX], [p1] => Some (DBernoulli p1)
  | Sup01, [StLog1m; StLog], [p1; p2] => Some (DBeta (p2 + 1) (p1 + 1))
  | SupNonnegative, [StLog], [p1] => Some (DChi2 (2 * (p1 + 1)))
  | SupNonnegative, [StX], [p1] => Some (DExponential (- p1))
  | SupNonnegative, [StLog; StX], [p1; p2] => Some (DGamma (p1 + 1) (- p2))
  | SupNonnegative, [StRecip; StLog], [p1; p2] => Some (DInverseGamma (- p2 - 1) (- p1))
  | SupReal, [StSquare; StX], [p1; p2] => Some (normal_from_natural_params p1 p2)
  | SupCountable, [StX], [p1] => Some (DPoisson (exp p1))
  | _, _, _ => None
  end.

(** Entries with vector natural parameters, conjugacy.py:37-38,41-42,51-53. *)
Definition vector_table (s : support) (key : list stat) (eta : list (list R)) : option dist :=
  match s, key, eta with
  | SupCategorical, [StOneHot], [p1] => Some (DCategorical p1)
  | SupSimplex, [StLog], [p1] => Some (DDirichlet (map (fun p => p + 1) p1))
  | SupMultivariateReal, [StSquare; StX], [p1; p2] => Some (mvn_diag_from_natural_params p1 p2)
  | _, _, _ => None
  end.
