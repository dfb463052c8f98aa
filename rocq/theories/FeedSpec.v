(** * Vocabulary for C20. *)
From Coq Require Import List Arith.
From Verif Require Import Feed.
Import ListNotations.

(** [data] binds the placeholder [k] to [v]. *)
Definition bound {V} (dt : @data V) (k : nat) (v : V) : Prop := In (k, DPlace, v) dt.
Definition unbound {V} (dt : @data V) (k : nat) : Prop := forall v, ~ bound dt k v.
(** Keys of a dictionary are distinct. *)
Definition distinct {V} (dt : @data V) : Prop := NoDup (map (fun x => fst (fst x)) dt).

(** [f] feeds the bound placeholders with their values and passes on all other
    keys of [user]. *)
Definition feeds_bound {V} (dt : @data V) (user : @dict V) (f : @dict V) : Prop :=
  (forall k v, bound dt k v -> dict_get f k = Some v) /\
  (forall k, unbound dt k -> dict_get f k = dict_get user k).

(** The dictionary passed to a call of update. *)
Definition passed {V} (fd : option (@dict V)) : @dict V := match fd with None => [] | Some d => d end.

(** Gibbs: [data] gives [k] the value [v], as a placeholder or as the value of an
    observed random variable. *)
Definition given {V} (dt : @data V) (k : nat) (v : V) : Prop := In (k, DPlace, v) dt \/ In (k, DObserved, v) dt.
Definition ungiven {V} (dt : @data V) (k : nat) : Prop := forall v, ~ given dt k v.
