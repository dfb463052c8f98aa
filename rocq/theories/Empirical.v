(** * Empirical and PointMass.

    Models edward/models/empirical.py:30-110 and point_mass.py:35-95.  A row is a
    function from the elements of the event to values. *)
From Coq Require Import Reals List.
From Verif Require Import Transform GAN.
Import ListNotations.
Local Open Scope R_scope.

(** params: a scalar tensor, or rows along the outer dimension (empirical.py:30-50). *)
Inductive empirical_params : Type := ScalarParams (x : R) | RowParams (rows : list (nat -> R)).

(** n (empirical.py:47-50): the outer dimension, 1 for a scalar. *)
Definition empirical_n (p : empirical_params) : nat := match p with ScalarParams _ => 1 | RowParams rows => length rows end.

(** _mean (empirical.py:86-87); tf.reduce_mean over axis 0 of a scalar raises (None). *)
Definition empirical_mean (p : empirical_params) : option (nat -> R) :=
  match p with
  | ScalarParams _ => None
  | RowParams rows => Some (fun e => reduce_mean (map (fun r => r e) rows))
  end.

(** _stddev (empirical.py:89-92). *)
Definition empirical_stddev (p : empirical_params) : option (nat -> R) :=
  match p, empirical_mean p with
  | RowParams rows, Some m => Some (fun e => sqrt (reduce_mean (map (fun r => (r e - m e) * (r e - m e)) rows)))
  | _, _ => None
  end.

(** _variance (empirical.py:94-95). *)
Definition empirical_variance (p : empirical_params) : option (nat -> R) :=
  match empirical_stddev p with Some s => Some (fun e => s e * s e) | None => None end.

(** _sample_n (empirical.py:97-110); [indices] are the draws of the Categorical with
    probabilities 1 / n. *)
Definition empirical_sample (p : empirical_params) (n : nat) (indices : list nat) : list (nat -> R) :=
  match p with
  | ScalarParams x => repeat (fun _ => x) n
  | RowParams rows => map (fun i => nth i rows (fun _ => 0)) indices
  end.

(** probs (empirical.py:106). *)
Definition empirical_probs (p : empirical_params) : list R := repeat (1 / INR (empirical_n p)) (empirical_n p).

(** PointMass: _mean, _stddev, _variance, _sample_n (point_mass.py:81-95). *)
Definition point_mean (params : nat -> R) : nat -> R := params.
(** point_mass.py:84-85. *)
Definition point_stddev (params : nat -> R) : nat -> R := fun _ => 0 * 1.
(** point_mass.py:87-88. *)
Definition point_variance (params : nat -> R) : nat -> R := fun e => point_stddev params e * point_stddev params e.
(** point_mass.py:90-95. *)
Definition point_sample (params : nat -> R) (n : nat) : list (nat -> R) := repeat params n.
