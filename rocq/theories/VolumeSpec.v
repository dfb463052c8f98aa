(** * Integrals over R^n of continuous functions (vocabulary for C24 and C25).

    Points of R^n are lists of n numbers.  Volume is defined by iterated Riemann
    integrals, so that nothing has to be assumed of it. *)
From Coquelicot Require Import Coquelicot.
From Coq Require Import Reals List.
Import ListNotations.
Local Open Scope R_scope.

(** Points whose entries differ by less than [d]; points in the cube [-M, M]^n. *)
Definition close (d : R) (x y : list R) : Prop := Forall2 (fun a b => Rabs (a - b) < d) x y.
Definition cube (M : R) (x : list R) : Prop := Forall (fun a => Rabs a <= M) x.

(** [f] is continuous on R^n: uniformly on every cube. *)
Definition continuous_n (n : nat) (f : list R -> R) : Prop :=
  forall M eps, 0 < eps -> exists d, 0 < d /\
    forall x y, length x = n -> length y = n -> cube M x -> cube M y -> close d x y -> Rabs (f x - f y) < eps.

(** The iterated integral over the cube [-M, M]^n. *)
Fixpoint cube_integral (M : R) (n : nat) (f : list R -> R) : R :=
  match n with
  | O => f []
  | S n' => RInt (fun x => cube_integral M n' (fun l => f (x :: l))) (- M) M
  end.

(** Continuous weights between 0 and 1 that vanish outside a cube. *)
Definition window (n : nat) (M : R) (chi : list R -> R) : Prop :=
  0 <= M /\ continuous_n n chi /\ (forall x, length x = n -> 0 <= chi x <= 1) /\
  (forall x, length x = n -> ~ cube M x -> chi x = 0).

(** The integral of a nonnegative function: what its parts within windows add up to. *)
Definition mass (n : nat) (f : list R -> R) (a : R) : Prop :=
  is_lub (fun v => exists chi M, window n M chi /\ v = cube_integral M n (fun x => chi x * f x)) a.

(** The integral over R^n of a continuous function: difference of two such. *)
Definition by_volume (n : nat) (f : list R -> R) (a : R) : Prop :=
  exists g h b c, continuous_n n g /\ continuous_n n h /\
    (forall x, length x = n -> 0 <= g x /\ 0 <= h x /\ f x = g x - h x) /\
    mass n g b /\ mass n h c /\ a = b - c.
