(** * C73: seeds and streams *)
From Coq Require Import List Arith NArith.
From Verif Require Import Seeds SeedsSpec SeedsProofs.
Import ListNotations.
Open Scope N_scope.

(** After ed.set_seed, every random number the program sees is the same in every
    process, whatever Python's own generator and the operating system give.  Missing:
    programs that update Gibbs with the default scan_order='random'; refuted below. *)
Theorem C73_reproducible_partial : forall (V : Type) (stream : N * N -> nat -> V) np_stream x p python os python' os',
  no_random_scan p ->
  snd (run stream np_stream python os fresh (SetSeed x :: p)) = snd (run stream np_stream python' os' fresh (SetSeed x :: p)).
Proof. exact reproducible. Qed.
Print Assumptions C73_reproducible_partial.

(** A Gibbs update with scan_order='random' anywhere makes the program depend on
    Python's generator, which set_seed leaves alone. *)
Theorem C73_gibbs_refuted : forall (V : Type) (stream : N * N -> nat -> V) np_stream os x p q,
  forall python python' : nat -> V, (forall n, python n <> python' n) ->
  snd (run stream np_stream python os fresh (SetSeed x :: p ++ Scan true :: q)) <>
  snd (run stream np_stream python' os fresh (SetSeed x :: p ++ Scan true :: q)).
Proof. exact gibbs_refuted. Qed.
Print Assumptions C73_gibbs_refuted.

(** Seeded or not, no random operation of a graph, original or copied, ever repeats
    a number of another.  Missing: operations with a seed of their own; refuted below. *)
Theorem C73_fresh_noise_partial : forall (V : Type) (stream : N * N -> nat -> V) np_stream python os p,
  ideal stream python os -> no_own_seed p -> no_numpy p -> size p < 2147483648 ->
  NoDup (snd (run stream np_stream python os fresh p)).
Proof. exact (fun V => @fresh_noise V). Qed.
Print Assumptions C73_fresh_noise_partial.

(** The copy of a random operation with a seed of its own repeats the original's
    numbers: always without set_seed, and after set_seed whenever the copy is made
    when the graph holds as many operations as the seed says. *)
Theorem C73_own_seed_refuted : forall (V : Type) (stream : N * N -> nat -> V) np_stream python os,
  (forall o, exists v, snd (run stream np_stream python os fresh [Random (Some o); Copy 0; Run 0; Run 1]) = [v; v]) /\
  (forall x n, exists v, snd (run stream np_stream python os fresh
     (SetSeed x :: Random (Some (N.of_nat (S n))) :: repeat Plain n ++ [Copy 0; Run 0; Run 1])) = [v; v]).
Proof. exact (fun V s n p o => conj (own_copy V s n p o) (own_copy_seeded V s n p o)). Qed.
Print Assumptions C73_own_seed_refuted.

(** Where a number can come from (graphs.py:72-73, gibbs.py:107). *)
Inductive origin : Type := Stream (s : N * N) (n : nat) | NumpyAt (s : N) (n : nat) | Python (n : nat) | Os (n : nat).

(** A model, its copy and two runs of each (random_variables.py:346-347). *)
Definition demo : list event := [Plain; Random None; Copy 0; Run 0; Run 1; Scan false; Run 0; Run 1].
Example C73_demo :
  no_random_scan demo /\ no_own_seed demo /\ no_numpy demo /\ size demo < 2147483648 /\ ideal Stream Python Os /\
  snd (run Stream NumpyAt Python Os fresh (SetSeed 42 :: demo ++ [Numpy])) =
    [Stream (42, 1) 0; Stream (42, 2) 0; Stream (42, 1) 1; Stream (42, 2) 1; NumpyAt 42 0] /\
  snd (run Stream NumpyAt Python Os fresh (demo ++ [Numpy])) = [Os 0; Os 1; Os 2; Os 3; Os 4].
Proof.
  repeat split; try reflexivity; try congruence.
  - intros Q. cbn in Q. intuition discriminate.
  - intros s Q. cbn in Q. intuition discriminate.
  - intros Q. cbn in Q. intuition discriminate.
Qed.

(** Seed 0 and the first operation of the graph: still a fixed stream. *)
Example C73_demo_zero : snd (run Stream NumpyAt Python Os fresh [SetSeed 0; Random None; Run 0]) = [Stream (0, 2147483647) 0].
Proof. reflexivity. Qed.

(** A seed set too late changes nothing (C56 has the exception). *)
Example C73_demo_late : snd (run Stream NumpyAt Python Os fresh [Random None; SetSeed 7; Run 0; Scan true; Numpy]) = [Os 0; Python 0; Os 1].
Proof. reflexivity. Qed.
