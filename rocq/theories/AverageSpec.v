(** * Vocabulary for C92: expected values of functions of a whole run. *)
From Coq Require Import Reals List.
Import ListNotations.
Local Open Scope R_scope.

(** [step f g] says that [g z] is the expected value of [f] at the state one
    update after [z].  [path_mean D step n F G] says that [G z] is the expected
    value of [F], a function of the states after the first, the second, ... and
    the [n]-th update from [z]: once the first of them is [z'], it is the value
    [H z' z'] of the run of [n - 1] updates from [z']. *)
Fixpoint path_mean {A : Type} (D : A -> Prop) (step : (A -> R) -> (A -> R) -> Prop) (n : nat) (F : list A -> R) (G : A -> R) : Prop :=
  match n with
  | O => forall z, D z -> G z = F []
  | S n' => exists H : A -> A -> R,
      (forall z', D z' -> path_mean D step n' (fun l => F (z' :: l)) (H z')) /\ step (fun z' => H z' z') G
  end.
(** 1 if the two numbers are [delta] or more apart, else 0. *)
Definition apart (delta x y : R) : R := if Rle_dec delta (Rabs (x - y)) then 1 else 0.
