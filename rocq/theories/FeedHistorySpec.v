(** * Vocabulary for C94. *)
From Coq Require Import List Arith.
From Verif Require Import Feed FeedSpec.
From Verif Require Import FeedHistory.
Import ListNotations.

Section Spec.
Context {V : Type}.

(** [ev] writes [v] to the key [k] of the program's dictionary [r]: an assignment, or
    an update that is given [r] by an inference whose data binds the placeholder. *)
Inductive writes (r k : nat) (v : V) : @event V -> Prop :=
| w_assign : writes r k v (Assign r k v)
| w_update : forall a check log dt, bound dt k v -> writes r k v (Update a check log dt (Some r)).

(** The assignment the program itself makes. *)
Inductive assigns (r k : nat) (v : V) : @event V -> Prop := a_assign : assigns r k v (Assign r k v).

(** [v] is the last value that one of the events [p] gave, and [old] if none did. *)
Inductive latest (p : V -> @event V -> Prop) (old : option V) : list (@event V) -> option V -> Prop :=
| l_none : forall evs, (forall ev v, In ev evs -> ~ p v ev) -> latest p old evs old
| l_some : forall evs ev evs' v, p v ev -> (forall ev' v', In ev' evs' -> ~ p v' ev') -> latest p old (evs ++ ev :: evs') (Some v).

(** The data sets of all inferences are dictionaries. *)
Definition data_ok (ev : @event V) : Prop :=
  match ev with Assign _ _ _ => True | Update _ _ _ dt _ => distinct dt | GibbsUpdate _ _ dt _ _ _ _ _ => distinct dt end.

(** The event is not an update of Gibbs inference [i] that draws [k]. *)
Definition leaves (i k : nat) (ev : @event V) : Prop :=
  match ev with GibbsUpdate j _ _ _ blocks _ _ _ => j = i -> forall b, In b blocks -> ~ In k b | _ => True end.
End Spec.
