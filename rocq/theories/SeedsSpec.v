(** * What C73 says

    A program here is the list of what it does, in order. *)
From Coq Require Import List NArith.
From Verif Require Import Seeds.
Import ListNotations.
Open Scope N_scope.

(** The program never updates Gibbs with the default scan_order='random'
    (edward/inferences/gibbs.py:105). *)
Definition no_random_scan (p : list event) : Prop := ~ In (Scan true) p.
(** No random variable of the program gets a seed of its own
    (edward/util/random_variables.py:346). *)
Definition no_own_seed (p : list event) : Prop := forall s, ~ In (Random (Some s)) p.
(** The program draws from NumPy nowhere (edward/util/graphs.py:72). *)
Definition no_numpy (p : list event) : Prop := ~ In Numpy p.
(** How many operations the program creates at most
    (edward/util/random_variables.py:346). *)
Definition size (p : list event) : N := N.of_nat (length p).

(** Generators that never give the same number twice, within one stream or in two
    (edward/util/graphs.py:72-73). *)
Record ideal {V : Type} (stream : N * N -> nat -> V) (python os : nat -> V) : Prop := mkideal {
  i_stream : forall a m b n, stream a m = stream b n -> a = b /\ m = n;
  i_python : forall m n, python m = python n -> m = n;
  i_os : forall m n, os m = os n -> m = n;
  i_stream_python : forall a m n, stream a m <> python n;
  i_stream_os : forall a m n, stream a m <> os n;
  i_python_os : forall m n, python m <> os n
}.
