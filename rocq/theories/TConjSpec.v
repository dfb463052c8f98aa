(** * Conditionals of tensor-valued variables, vocabulary for C78. *)
From Coquelicot Require Import Coquelicot.
From Coq Require Import Reals List Arith Bool.
From Verif Require Import SimplifySpec ConjLogProb ConjSpec.
From Verif Require Import TConj.
Import ListNotations.
Local Open Scope R_scope.

(** Dimension [i] of a shape, counted from the last; a missing one is 1. *)
Definition dim (s : list nat) (i : nat) : nat := nth i s 1%nat.
(** [s] is the shape that [a] and [b] are broadcast to: aligned at their last dimensions,
    missing dimensions are 1, and 1 is stretched. *)
Definition broadcast_to (a b s : list nat) : Prop :=
  length s = max (length a) (length b) /\
  forall i, dim a i = dim b i /\ dim s i = dim a i \/ dim a i = 1%nat /\ dim s i = dim b i \/ dim b i = 1%nat /\ dim s i = dim a i.


(** The values of the leaves with that of the variable replaced. *)
Definition put (base : nat) (x : ten) (en : nat -> ten) (t : nat) : ten :=
  if Nat.eqb t base then x else en t.
(** The value of a graph, nothing being swapped, as a function of the variable. *)
Definition value (en : nat -> ten) (base : nat) (g : graph) (x : ten) : option ten :=
  eval (fun _ => None) (put base x en) g.

(** A value the variable can take: of its shape, its entries in its support. *)
Definition possible (sup : support) (s : list nat) (x : ten) : Prop :=
  sh x = s /\ forall idx, In idx (indices s) -> in_support sup (at_ x idx).
(** A statistic of a tensor, entry by entry. *)
Definition statistic (k : stat) (x : ten) : ten := mkten (sh x) (fun idx => stat_val k (at_ x idx)).

(** [part n g]: [n] is a subgraph of [g]. *)
Inductive part : graph -> graph -> Prop :=
| part_self : forall g, part g g
| part_in : forall n i t o ins, In i ins -> part n i -> part n (GT t o ins).
(** A tensor has one definition, and the variable's value is where the graph is cut. *)
Definition one_definition (base : nat) (g : graph) : Prop :=
  (forall m n, part m g -> part n g -> top m = top n -> m = n) /\
  forall o ins, part (GT base o ins) g -> ins = [].
(** A product has one factor that depends on the variable at most. *)
Definition one_dependent (base : nat) (g : graph) : Prop :=
  forall t ins l1 i l2 j l3, part (GT t OMul ins) g -> ins = l1 ++ i :: l2 ++ j :: l3 ->
  depends base i = true -> depends base j = true -> False.

(** The list of what was found has the statistic nodes, each once, in any order. *)
Definition lists_nodes (base : nat) (g : graph) (l : found) : Prop :=
  NoDup (map fst l) /\ forall t, In t (map fst l) <-> In t (stat_nodes base g).
(** What was found is right: for the values [P], the tensor [t] is the statistic times
    the multiplier, broadcast, up to a term without the variable. *)
Definition found_right (P : ten -> Prop) (en : nat -> ten) (base : nat) (g : graph) (nsh : nat -> list nat) (l : found) : Prop :=
  forall t k m, In (t, (k, m)) l ->
  exists n C, part n g /\ top n = t /\
  forall x, P x -> exists v w, value en base n x = Some v /\ elementwise rprod [statistic k x; m] = Some w /\
    sh v = nsh t /\ sh w = nsh t /\ forall idx, In idx (indices (nsh t)) -> at_ v idx = at_ w idx + C idx.
(** The first tensor found for each statistic has shape [s]. *)
Definition first_have_shape (s : list nat) (nsh : nat -> list nat) (l : found) : Prop :=
  forall l1 t k m l2, l = l1 ++ (t, (k, m)) :: l2 -> (forall e, In e l1 -> fst (snd e) <> k) -> nsh t = s.

(** The distributions [D] of the entries are, together, the one whose log density is
    [lj] up to a constant. *)
Definition is_conditional (G : R -> R) (sup : support) (s : list nat) (D : list nat -> option dist)
    (lj : ten -> option ten) : Prop :=
  exists f c,
    (forall idx, In idx (indices s) -> exists d, D idx = Some d /\ is_log_density G d (f idx)) /\
    forall x, possible sup s x -> exists v, lj x = Some v /\ sh v = [] /\
      at_ v [] = rsum (map (fun idx => f idx (at_ x idx)) (indices s)) + c.
(** The parameters are in the domain and the entry of the table is a right one (C33). *)
Definition all_proper (s : list nat) (D : list nat -> option dist) : Prop :=
  forall idx d, In idx (indices s) -> D idx = Some d -> proper d /\ ~ wrong_entry d.
