(** * Vocabulary for C87. *)
From Coquelicot Require Import Coquelicot.
From Coq Require Import Reals List Arith.
From Verif Require Import Transform.
Import ListNotations.
Local Open Scope R_scope.

(** [p] is on the line segment between [a] and [b]. *)
Definition on_segment (a b p : list R) : Prop :=
  length p = length a /\ exists t, 0 <= t <= 1 /\ forall e, (e < length a)%nat -> nth e p 0 = t * nth e a 0 + (1 - t) * nth e b 0.

(** [x] with entry [e] equal to [v]. *)
Definition with_entry (x : list R) (e : nat) (v : R) : list R := firstn e x ++ v :: skipn (S e) x.

(** The gradient of a function of one example, and the length of a vector. *)
Definition gradient_at (f : list R -> R) (x : list R) : list R :=
  map (fun e => Derive (fun v => f (with_entry x e v)) (nth e x 0)) (seq 0 (length x)).
Definition norm (g : list R) : R := sqrt (sumR (map (fun x => x * x) g)).
