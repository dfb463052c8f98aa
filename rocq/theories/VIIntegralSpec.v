(** * Expectations on any space: sums, series and integrals (vocabulary for C37, C66, C67). *)
From Coquelicot Require Import Coquelicot.
From Coq Require Import Reals List.
From Verif Require Import Transform VI VISpec.
Import ListNotations.
Local Open Scope R_scope.

(** [I f a]: [a] is the integral of [f] over [D].  A linear operation that only
    looks at the values in [D]. *)
Record integral {A : Type} (D : A -> Prop) (I : (A -> R) -> R -> Prop) : Prop := {
  int_unique : forall f a b, I f a -> I f b -> a = b;
  int_ext : forall f g a, (forall x, D x -> f x = g x) -> I f a -> I g a;
  int_add : forall f g a b, I f a -> I g b -> I (fun x => f x + g x) (a + b);
  int_scal : forall c f a, I f a -> I (fun x => c * f x) (c * a) }.

(** [a] is the expected value of [f] over [n] independent draws with density [w]:
    the iterated integral. *)
Fixpoint expected_by {A : Type} (D : A -> Prop) (I : (A -> R) -> R -> Prop) (w : A -> R) (n : nat) (f : list A -> R) (a : R) : Prop :=
  match n with
  | O => f [] = a
  | S n' => exists h, (forall x, D x -> expected_by D I w n' (fun l => f (x :: l)) (h x)) /\ I (fun x => w x * h x) a
  end.

(** The integral of [F] may be differentiated with respect to variable [v] below
    the integral sign. *)
Definition interchange {A : Type} (I : (A -> R) -> R -> Prop) (F : params -> A -> R) (th : params) (v : nat) : Prop :=
  exists (L : params -> R) d, nearby (fun t => I (F t) (L t)) th v /\
    is_derive (fun x => L (set_param th v x)) (th v) d /\ I (fun x => partial (fun t => F t x) th v) d.

(** Four such operations: finite sums, series, integrals over an interval, and
    improper integrals over the real line. *)
Definition by_sum {A : Type} (space : list A) (f : A -> R) (a : R) : Prop := sumR (map f space) = a.
Definition by_series (f : nat -> R) (a : R) : Prop := is_series f a.
Definition by_RInt (lo hi : R) (f : R -> R) (a : R) : Prop := is_RInt f lo hi a.
Definition by_line (f : R -> R) (a : R) : Prop := is_RInt_gen f (Rbar_locally m_infty) (Rbar_locally p_infty) a.
