(** * Vocabulary for C15 and C16. *)
From Coquelicot Require Import Coquelicot.
From Coq Require Import Reals String List.
From Verif Require Import Transform.
Import ListNotations.
Local Open Scope R_scope.

Definition unconstrained (s : string) : Prop := In s ["real"; "multivariate_real"]%string.
Definition constrained (s : string) : Prop := In s ["01"; "nonnegative"; "simplex"]%string.
Definition continuous (s : string) : Prop := unconstrained s \/ constrained s.

(** The points of a support: the open interval, half line or simplex (the
    boundary, of probability zero, has no image). *)
Definition in_support (s : string) (v : list R) : Prop :=
  (s = "01"%string -> List.Forall (fun a => 0 < a < 1) v) /\
  (s = "nonnegative"%string -> List.Forall (fun a => 0 < a) v) /\
  (s = "simplex"%string -> v <> [] /\ List.Forall (fun a => 0 < a) v /\ fold_right Rplus 0 v = 1).

(** [f] is a bijection from the support onto the reals, with inverse [g]. *)
Definition bijection (s : string) (f g : list R -> list R) : Prop :=
  (forall v, in_support s v -> g (f v) = v) /\
  (forall u, in_support s (g u) /\ f (g u) = u).

(** The log-det-Jacobian [h] of an elementwise function [f]. *)
Definition log_derivative (s : string) (f h : list R -> list R) : Prop :=
  exists f1 h1, (forall v, f v = map f1 v) /\ (forall v, h v = map h1 v) /\
    forall a, in_support s [a] -> is_derive f1 a (exp (h1 a)).

(** ** The Jacobian of a function of several coordinates *)

Fixpoint update (c : list R) (j : nat) (t : R) : list R :=
  match c, j with
  | [], _ => []
  | _ :: c', O => t :: c'
  | x :: c', S j' => x :: update c' j' t
  end.

(** The matrix [m] holds the partial derivatives of [f] at [c]. *)
Definition jacobian (f : list R -> list R) (c : list R) (m : list (list R)) : Prop :=
  length m = length c /\ Forall (fun r => length r = length c) m /\
  forall i j, (i < length c)%nat -> (j < length c)%nat ->
    is_derive (fun t => nth i (f (update c j t)) 0) (nth j c 0) (nth j (nth i m []) 0).

(** Determinant by elimination: the first row times x/a is taken from each
    row, where x is its first entry and a the pivot. *)
Definition eliminate (a : R) (row r : list R) : list R :=
  map (fun yz => fst yz - hd 0 r / a * snd yz) (combine (tl r) row).
Inductive determinant : list (list R) -> R -> Prop :=
| det_nil : determinant [] 1
| det_cons : forall a row rows d, a <> 0 -> determinant (map (eliminate a row) rows) d ->
    determinant ((a :: row) :: rows) (a * d).

(** The point of the simplex with the given coordinates. *)
Definition simplex_point (c : list R) : list R := c ++ [1 - fold_right Rplus 0 c].

(** ** C16 *)

(** The pairs auto_transform is documented to rewrite: both supports continuous
    and unequal.  An approximation by samples ("points") or by one point
    ("point") is on whatever space it is told. *)
Definition to_rewrite (z qz : rv) : Prop :=
  exists s s', support z = Some s /\ support qz = Some s' /\ s <> s' /\ continuous s /\
    (continuous s' \/ s' = "points"%string).

(** [y] is [x] transformed to the unconstrained space by [b] ([None]: [y] is
    [x] itself). *)
Definition unconstrains (x y : rv) (b : option bij) : Prop :=
  match b with
  | None => y = x /\ exists s, support x = Some s /\ unconstrained s
  | Some b => exists s s', support x = Some s /\ constrained s /\ y = Trans x b (Some s') /\ unconstrained s' /\
      bijection s (fwd b) (inv b)
  end.

(** What a rewritten pair is bound to: the constrained one is the image of the
    unconstrained one under the inverse of the transformation of [z]. *)
Definition rewritten (z qz q zu qu : rv) : Prop :=
  exists b, unconstrains z zu b /\
    ((exists b', unconstrains qz qu b') \/ (support qz = Some "points"%string /\ qu = qz)) /\
    match b with
    | None => q = qu
    | Some b => exists s, q = Trans qu (Invert b) None /\ support z = Some s /\
        forall u, in_support s (fwd (Invert b) u)
    end.

(** The transformation recorded for [z] in self.transformations. *)
Fixpoint lookup (d : list (rv * rv)) (z : rv) : option rv :=
  match d with
  | [] => None
  | (k, v) :: d' => if rv_eq_dec k z then Some v else lookup d' z
  end.
