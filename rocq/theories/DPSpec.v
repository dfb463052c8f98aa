(** * Vocabulary for C47. *)
From Coq Require Import Reals List Arith Bool.
From Verif Require Import Transform.
Import ListNotations.

(** The first toss that comes up heads. *)
Definition first_heads (coin : nat -> bool) (k : nat) : Prop := coin k = true /\ forall i, i < k -> coin i = false.

(** All outcomes of [m] tosses. *)
Fixpoint outcomes (m : nat) : list (list bool) :=
  match m with O => [[]] | S m' => map (cons true) (outcomes m') ++ map (cons false) (outcomes m') end.

(** Probability of an outcome, toss i landing heads with probability [p i]. *)
Fixpoint outcome_prob (p : nat -> R) (c : list bool) : R :=
  match c with [] => 1%R | b :: c' => ((if b then p 0%nat else 1 - p 0%nat) * outcome_prob (fun i => p (S i)) c')%R end.

(** Position of the first heads in an outcome. *)
Fixpoint first_in (c : list bool) : option nat :=
  match c with [] => None | true :: _ => Some 0 | false :: c' => option_map S (first_in c') end.

(** Weight of stick k: what is left of the unit stick, times the k-th proportion. *)
Fixpoint stick_weight (p : nat -> R) (k : nat) : R :=
  match k with O => p 0%nat | S k' => ((1 - p 0%nat) * stick_weight (fun i => p (S i)) k')%R end.
