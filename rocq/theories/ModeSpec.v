(** * Vocabulary for C52. *)
From Coq Require Import Reals List Arith.
From Verif Require Import Mode.
Import ListNotations.
Local Open Scope R_scope.

(** NumPy's choice without replacement. *)
Definition valid_choice (choice : nat -> list nat -> nat -> list nat) : Prop :=
  forall round hot k, (k <= length hot)%nat -> NoDup hot ->
    length (choice round hot k) = k /\ NoDup (choice round hot k) /\ incl (choice round hot k) hot.

Definition total (counts : list nat) : nat := fold_right Nat.add 0%nat counts.

(** The multinomial probability of counts: n! prod_k p_k^c_k / c_k!. *)
Fixpoint weight (probs : list R) (counts : list nat) : R :=
  match probs, counts with
  | p :: probs', c :: counts' => p ^ c / INR (fact c) * weight probs' counts'
  | _, _ => 1
  end.
Definition multinomial_prob (n : nat) (probs : list R) (counts : list nat) : R := INR (fact n) * weight probs counts.

(** Counts of n trials with the largest probability. *)
Definition is_mode (n : nat) (probs : list R) (counts : list nat) : Prop :=
  length counts = length probs /\ total counts = n /\
  forall other, length other = length probs -> total other = n -> multinomial_prob n probs other <= multinomial_prob n probs counts.
