(** * Vocabulary for C45. *)
From Coq Require Import List Arith Bool.
From Verif Require Import RandomVar.
Import ListNotations.

(** What a dictionary lists under a graph. *)
Definition listed (w : world) (d g : nat) : list nat := match w d g with Some l => l | None => [] end.

(** How often a dictionary is named. *)
Definition names (d : nat) (c : collection) : bool :=
  match c with RandomVariables => Nat.eqb d 0 | Dict d' _ => Nat.eqb d d' | NotADict => false end.
Definition times_named (d : nat) (cs : list collection) : nat := length (filter (names d) cs).

(** Collections that can take a random variable. *)
Definition usable (w : world) (g : nat) (c : collection) : Prop :=
  match c with RandomVariables => True | Dict d default => default = true \/ w d g <> None | NotADict => False end.

(** What a construction appends to a dictionary: first the inner ones. *)
Fixpoint appends (d : nat) (c : construction) : list nat :=
  match c with Construct x inner _ cs => flat_map (appends d) inner ++ repeat x (times_named d cs) end.

(** Shapes without unknowns. *)
Definition known (l : list nat) : shape := Some (map Some l).

(** A shape without unknowns is one of those that a static shape allows. *)
Definition allows (s : shape) (l : list nat) : Prop :=
  match s with None => True | Some ds => Forall2 (fun d n => d = None \/ d = Some n) ds l end.

(** Static shapes of sample, batch, event and value that fit: some value has the
    shapes, one after the other; an unknown rank fits everything. *)
Definition fits (sample batch event value : shape) : Prop :=
  sample = None \/ batch = None \/ event = None \/
  exists s b e, allows sample s /\ allows batch b /\ allows event e /\ allows value (s ++ b ++ e).
