(** * Vocabulary for C53. *)
From Coq Require Import Reals List.
From Verif Require Import Transform Metrics.
Import ListNotations.
Local Open Scope R_scope.

(** Tensors of one shape: batches, rows, columns. *)
Definition rectangular (b : list (list (list R))) (batches rows cols : nat) : Prop :=
  length b = batches /\ (forall m, In m b -> length m = rows /\ forall r, In r m -> length r = cols).

(** Mean of g over all pairs of entries. *)
Definition overall_mean (g : R -> R -> R) (y_true y_pred : list R) : R :=
  sumR (map (fun p => g (fst p) (snd p)) (combine y_true y_pred)) / INR (length y_true).

Definition entries (t : tensor) : list R := match t with Rank1 v => v | Batches b => concat (concat b) end.

(** Both non-empty of one shape. *)
Definition same_shape (a b : tensor) : Prop :=
  match a, b with
  | Rank1 v, Rank1 w => length v = length w /\ v <> []
  | Batches x, Batches y => exists n m k, (0 < n)%nat /\ (0 < m)%nat /\ (0 < k)%nat /\ rectangular x n m k /\ rectangular y n m k
  | _, _ => False
  end.

(** A probability vector. *)
Definition distribution (p : list R) : Prop := Forall (fun a => 0 <= a) p /\ sumR p = 1.

(** The one-hot row of class k among K. *)
Definition one_hot (k K : nat) : list R := map (fun i => if Nat.eqb i k then 1 else 0) (seq 0 K).
