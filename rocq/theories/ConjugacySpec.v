(** * Vocabulary for C34. *)
From Coq Require Import List Arith Reals Bool.
From Verif Require Import Simplify SimplifySpec ConjLogProb ConjSpec Conjugacy.
Import ListNotations.
Local Open Scope R_scope.

(** [s] occurs in the graph [g] above the stop tensors. *)
Inductive subgraph (base : nat) (stop : list nat) (s : tgraph) : tgraph -> Prop :=
| sg_refl : subgraph base stop s s
| sg_input : forall t ty ins i, t <> base -> mem t stop = false ->
    In i ins -> subgraph base stop s i -> subgraph base stop s (TG t ty ins).

(** The tree is the unfolding of a graph: a tensor has one definition. *)
Definition unfolding (base : nat) (stop : list nat) (g : tgraph) : Prop :=
  forall a b, subgraph base stop a g -> subgraph base stop b g -> root a = root b -> a = b.

(** What the operations outside [_extractable_nodes] compute. *)
Definition linear_ops (lty : nat -> lin) (en : env) : Prop :=
  (forall t l, lty t = LAddN -> opq en t l = rsum l) /\
  (forall t v r, lty t = LNeg -> opq en t (v :: r) = - v) /\
  (forall t v r, lty t = LSum \/ lty t = LFirst -> opq en t (v :: r) = v).

(** The number of inputs an operation has. *)
Definition arity_ok (lty : nat -> lin) (base : nat) (stop : list nat) (g : tgraph) : Prop :=
  forall t ty ins, subgraph base stop (TG t ty ins) g -> t <> base -> mem t stop = false ->
  match kind_of lty t ty with
  | KSub => length ins = 2%nat
  | KNeg | KSum | KFirst => ins <> []
  | _ => True
  end.

(** In every product above the statistics at most one factor depends on the
    variable. *)
Definition one_dependent_factor (lty : nat -> lin) (base : nat) (stop : list nat) (g : tgraph) : Prop :=
  forall t ty ins, subgraph base stop (TG t ty ins) g -> t <> base -> mem t stop = false ->
  kind_of lty t ty = KMul ->
  exists l1 m l2, ins = l1 ++ m :: l2 /\
    Forall (fun i => is_child base stop i = false) (l1 ++ l2).

(** [own] gives the values the tensors have when the variable has value [x]. *)
Definition true_values (en : env) (own : nat -> R) (base : nat) (stop : list nat) (x : R) (g : tgraph) : Prop :=
  forall s, subgraph base stop s g -> own (root s) = tval en base stop x s.

(** Statistics for which simplification is exact (C30). *)
Definition simplifies_exactly (ti : tinfo) (en : env) (A : R -> Prop) (e : expr) : Prop :=
  linear_form ti e /\ powers_within 7 e /\ forall x, A x -> dom ti en x e.
