(** * Vocabulary for C66: what Rao-Blackwellized score gradients rest on. *)
From Coquelicot Require Import Coquelicot.
From Coq Require Import Reals List Arith Bool Permutation.
From Verif Require Import Graph GraphSpec Feed VI VISpec.
Import ListNotations.
Local Open Scope R_scope.

(** [e] with [q] given the value [u]. *)
Definition update {V} (e : nat -> V) (q : nat) (u : V) : nat -> V := fun k => if Nat.eqb k q then u else e k.

(** All ways to give each of [qs] one of its values. *)
Fixpoint all_values {V} (vals : nat -> list V) (qs : list nat) (e : nat -> V) : list (nat -> V) :=
  match qs with
  | [] => [e]
  | q :: qs' => flat_map (fun u => all_values vals qs' (update e q u)) (vals q)
  end.

(** All draws from the approximations, with the data [obs]. *)
Definition all_draws {V} (vals : nat -> list V) (order : list nat) (e : nat -> V) (obs : list (nat * V)) (prior : nat -> V) : list (sample V) :=
  map (fun f => mksample f obs prior) (all_values vals order e).

(** The density of a variable of the model is conditional on its parents alone. *)
Definition model_follows {V} (g : graph) (rvs : list nat) (log_prob : params -> nat -> list (nat * V) -> V -> list R) : Prop :=
  forall t k env env' u, In k rvs -> (forall j, parent_rel g rvs j k -> Feed.dict_get env j = Feed.dict_get env' j) ->
    log_prob t k env u = log_prob t k env' u.

(** Likewise for approximations. *)
Definition approximation_follows {V} (g : graph) (qs : list nat) (q_log_prob : params -> nat -> (nat -> V) -> V -> list R) : Prop :=
  forall t q e e' u, In q qs -> (forall j, parent_rel g qs j q -> e j = e' j) -> q_log_prob t q e u = q_log_prob t q e' u.

(** Parents come before their children. *)
Definition parents_first (g : graph) (qs order : list nat) : Prop :=
  forall l1 q l2, order = l1 ++ q :: l2 -> forall j, parent_rel g qs j q -> In j l1.

(** A variable changes the density of an approximation only if the graph has a path
    from it to the approximation. *)
Definition acts_along_graph {V} (g : graph) (tensor_of_var : nat -> nat) (qs : list nat)
  (q_log_prob : params -> nat -> (nat -> V) -> V -> list R) (th : params) (v : nat) : Prop :=
  forall q, In q qs -> ~ down g anything (tensor_of_var v) (value g q) ->
    forall x e u, q_log_prob (set_param th v x) q e u = q_log_prob th q e u.

(** The Markov blanket of [x] in the collection, and [x] itself. *)
Definition in_blanket (g : graph) (coll : list nat) (x r : nat) : Prop :=
  r = x \/ parent_rel g coll r x \/ child_rel g coll r x \/ exists c, child_rel g coll c x /\ parent_rel g coll r c.
