(** * Vocabulary for C89. *)
From Coq Require Import Reals List.
From Verif Require Import Transform VIIntegralSpec GibbsBlockSpec.
Import ListNotations.
Local Open Scope R_scope.

(** The integral of a function without negative values is not negative. *)
Definition positive_integral {A : Type} (D : A -> Prop) (I : (A -> R) -> R -> Prop) : Prop :=
  forall f a, (forall x, D x -> 0 <= f x) -> I f a -> 0 <= a.

(** [g s]: the expected value of [f] after [n] scans of [order] from [s]. *)
Fixpoint scans {V : Type} (latent : list nat) (D : nat -> V -> Prop) (I : nat -> (V -> R) -> R -> Prop) (p : list V -> R)
    (c : nat -> list V -> R) (order : list (list nat)) (n : nat) (f g : list V -> R) : Prop :=
  match n with
  | O => forall s, inside latent D s -> g s = f s
  | S n' => exists h, scans latent D I p c order n' f h /\ after_scan latent D I p c order h g
  end.
