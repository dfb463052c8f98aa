(** * Vocabulary for C81: which values a session run computes. *)
From Coq Require Import ZArith List Arith Bool.
From Verif Require Import Debug.
Import ListNotations.

Section Spec.
Context {V E : Type}.

(** Operation [i] is computed when those in [wanted] are fetched: it is one of them, or
    an input of one that is computed and not fed. *)
Inductive computed (g : dgraph V E) (feed : nat -> option V) (wanted : nat -> Prop) : nat -> Prop :=
| comp_fetched : forall i, wanted i -> computed g feed wanted i
| comp_input : forall i j o, computed g feed wanted i -> feed i = None -> nth_error g i = Some o -> In j (d_in o) ->
    computed g feed wanted j.

(** Operations of floating point type. *)
Definition floating (g : dgraph V E) (i : nat) : Prop := exists o, nth_error g i = Some o /\ d_float o = true.

(** What operation [i] comes out as in a session run: what is fed for it, or its
    function of what its inputs come out as. *)
Inductive comes_out (g : dgraph V E) (feed : nat -> option V) (e : E) : nat -> V -> Prop :=
| out_fed : forall i v, i < length g -> feed i = Some v -> comes_out g feed e i v
| out_run : forall i o vs, nth_error g i = Some o -> feed i = None -> d_place o = false ->
    Forall2 (comes_out g feed e) (d_in o) vs -> comes_out g feed e i (d_fun o e vs).

(** Operation [i] is a number of floating point type that comes out NaN or infinite. *)
Definition bad (finite : V -> bool) (g : dgraph V E) (feed : nat -> option V) (e : E) (i : nat) : Prop :=
  exists o v, nth_error g i = Some o /\ d_float o = true /\ comes_out g feed e i v /\ finite v = false.

(** Operations are made after their inputs. *)
Definition ordered (g : dgraph V E) : Prop := forall i o, nth_error g i = Some o -> Forall (fun j => j < i) (d_in o).

(** Every placeholder that something of floating point type depends on gets a value. *)
Definition floats_fed (g : dgraph V E) (feed : nat -> option V) : Prop :=
  forall i o, computed g feed (floating g) i -> nth_error g i = Some o -> d_place o = true -> feed i <> None.
End Spec.

(** ** Numbers with a NaN *)
Definition number : Type := option Z.
Definition is_number (v : number) : bool := match v with Some _ => true | None => false end.
(** A model: one random number, drawn anew in each run. *)
Definition one_draw : dgraph number (option Z) := [mkdop true false [] (fun e _ => e)].
(** What an algorithm makes of it: its loss is the logarithm, which is NaN below zero
    (0 here stands for any value of a logarithm). *)
Definition its_log (n : nat) : list (dop number (option Z)) :=
  [mkdop true false [0] (fun _ vs => match vs with [Some v] => if Z.ltb v 0 then None else Some 0%Z | _ => None end)].
