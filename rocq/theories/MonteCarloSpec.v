(** * Vocabulary for C21 and C23: a chain, independent of where it is stored. *)
From Coq Require Import List Arith Bool Reals.
From Verif Require Import Ext MonteCarlo.
Import ListNotations.

Section Spec.
Context {V X U : Type}.

(** [chain k x z us j x' z' acc]: started in state [z], the [j]-th move of the
    algorithm leads to [z']; [acc] are the decisions up to and including it. *)
Inductive chain (k : kernel V X U) (x : X) (z : list V) (us : nat -> U * bool) : nat -> X -> list V -> list bool -> Prop :=
| chain_first : forall x' z' a, k 0 x z (fst (us 0)) = Some (x', z', a) -> chain k x z us 0 x' z' [a]
| chain_next : forall j x1 z1 acc x' z' a, chain k x z us j x1 z1 acc ->
    k (S j) x1 z1 (fst (us (S j))) = Some (x', z', a) -> chain k x z us (S j) x' z' (acc ++ [a]).

(** With these draws, from states that satisfy [P] (of [n] variables), the
    algorithm does not raise and leads to states that satisfy [P]. *)
Definition proper (k : kernel V X U) (P : X -> list V -> Prop) (n : nat) (us : nat -> U * bool) : Prop :=
  (forall x z, P x z -> length z = n) /\
  forall i x z, P x z -> exists x' z' a, k i x z (fst (us i)) = Some (x', z', a) /\ P x' z'.

(** Number of acceptances. *)
Definition accepted (acc : list bool) : nat := count_occ bool_dec acc true.

(** The moves an algorithm that accepts or rejects makes: [st 0] is the start,
    and step [i] goes to [propose i (st i)] or stays, as [acc] tells. *)
Definition accept_reject (propose : nat -> list V -> list V) (z : list V) (st : nat -> list V) (acc : list bool) : Prop :=
  st 0 = z /\ forall i a, nth_error acc i = Some a -> st (S i) = if a then propose i (st i) else st i.

(** Row [j] of every table holds the state [z]. *)
Definition row_is (tables : list (list V)) (j : nat) (z : list V) : Prop :=
  length z = length tables /\ forall i v, nth_error z i = Some v -> nth_error (nth i tables []) j = Some v.

(** Outside rows [0..n-1] the tables agree. *)
Definition rest_unchanged (tables tables' : list (list V)) (n : nat) : Prop :=
  length tables = length tables' /\
  forall i, length (nth i tables []) = length (nth i tables' []) /\
    forall j, n <= j -> nth_error (nth i tables' []) j = nth_error (nth i tables []) j.
End Spec.
