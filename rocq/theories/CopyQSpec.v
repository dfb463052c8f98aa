(** * Vocabulary for C10 with [copy_q=True]. *)
From Coq Require Import String List Arith Bool.
From Verif Require Import Copy CopySpec.
Import ListNotations.

(** What stands in the place of the tensor [t]. *)
Definition put (g : graph) (sw : swap) (t : nat) : nat :=
  match replacement g sw t with Some t' => t' | None => t end.

(** The value of a tensor if the replacements are made in every expression, also
    in those of the replacements themselves. *)
Inductive qev {V N : Type} (sem : nat -> N -> list V -> V) (st : nat -> V) (noise : nat -> N)
    (g : graph) (sw : swap) : nat -> V -> Prop :=
| qev_leaf : forall o d, nth_error (ops g) o = Some d -> leaf (okind d) = true -> qev sem st noise g sw o (st o)
| qev_op : forall o d ty vs, nth_error (ops g) o = Some d -> okind d = KOp ty ->
    qevs sem st noise g sw (oins d) vs -> qev sem st noise g sw o (sem ty (noise o) vs)
with qevs {V N : Type} (sem : nat -> N -> list V -> V) (st : nat -> V) (noise : nat -> N)
    (g : graph) (sw : swap) : list nat -> list V -> Prop :=
| qevs_nil : qevs sem st noise g sw [] []
| qevs_cons : forall o v l vs, qev sem st noise g sw (put g sw o) v -> qevs sem st noise g sw l vs ->
    qevs sem st noise g sw (o :: l) (v :: vs).

(** The graph with the replacements made has no cycle. *)
Definition put_acyclic (g : graph) (sw : swap) (h : nat -> nat) : Prop :=
  forall o d, nth_error (ops g) o = Some d -> Forall (fun i => h (put g sw i) < h o) (oins d).

(** Tensors and variables are replaced by tensors or variables, and no variable
    that replaces something is itself replaced. *)
Definition plain_values (g : graph) (sw : swap) : Prop :=
  forall k y, In (k, y) sw ->
    ((exists r, k = XRV r) \/ forall r, y <> XRV r) /\
    (is_var g (tensor_of g y) = true -> replacement g sw (tensor_of g y) = None).

(** Every replacement is a variable, and none of them is replaced. *)
Definition variable_values (g : graph) (sw : swap) : Prop :=
  forall k y, In (k, y) sw -> exists u, y = XVar u /\ valid g y /\ forall k' y', In (k', y') sw -> k' <> y.
