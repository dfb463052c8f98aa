(** * Analytic divergences and entropies of variables with a sample_shape.

    Models what tf.reduce_sum runs over in klqp.py:674-680, 751-753 and 819-821 when the
    random variables have shapes.  A random variable has a sample_shape and the shape of
    its parameters (edward/models/random_variable.py:97-118); the distribution underneath
    knows the second only.  Entries are of any type (vectors for multivariate
    distributions).  Shapes and indices are listed from the last dimension. *)
From Coq Require Import Reals List Arith.
From Verif Require Import Transform TConj.
Import ListNotations.
Local Open Scope R_scope.

Section Shapes.
Context {P V : Type}.

(** A random variable: sample_shape, batch_shape and the parameters of an entry
    (random_variable.py:97, 114). *)
Record rv : Type := mkrv { r_sample : list nat; r_batch : list nat; r_param : list nat -> P }.

(** Its shape: sample_shape, then the shape of the parameters (random_variable.py:114-119, 128). *)
Definition r_shape (r : rv) : list nat := r_batch r ++ r_sample r.

(** log_prob of a value of shape [s] (klqp.py:674-680): parameters and value are broadcast. *)
Definition log_probs (log_density : P -> V -> R) (r : rv) (s : list nat) (v : list nat -> V) : list R :=
  match bshape (r_batch r) s with
  | Some b => map (fun idx => log_density (r_param r (proj (r_batch r) idx)) (v (proj s idx))) (indices b)
  | None => []
  end.

(** kl_divergence(qz, z) (klqp.py:752): the parameters are broadcast. *)
Definition kl_entries (kl : P -> P -> R) (q z : rv) : list R :=
  match bshape (r_batch q) (r_batch z) with
  | Some b => map (fun idx => kl (r_param q (proj (r_batch q) idx)) (r_param z (proj (r_batch z) idx))) (indices b)
  | None => []
  end.

(** qz.entropy() (klqp.py:820). *)
Definition entropies (entropy : P -> R) (q : rv) : list R := map (fun idx => entropy (r_param q idx)) (indices (r_batch q)).
End Shapes.
Arguments rv : clear implicits.
