(** * Vocabulary for C17 and C18. *)
From Coq Require Import List Arith.
From Verif Require Import Lifecycle.
Import ListNotations.

(** The iterations at which progress is reported for n_print = [p]. *)
Definition reported (p t : nat) : Prop := 0 < p /\ (t = 1 \/ exists m, t = m * p).

(** The fault makes the k-th update raise. *)
Definition update_fault (c : config) (k : nat) (f : option fault) : Prop :=
  match f with
  | Some FBefore | Some FAfter => True
  | Some FDebug => c_debug c = true
  | Some FSummary => c_logging c = true /\ reported (n_print c) k
  | _ => False
  end.

(** The fault makes printing the progress after the k-th update raise. *)
Definition print_fault (c : config) (k : nat) (f : option fault) : Prop :=
  f = Some FPrint /\ reported (n_print c) k.

Definition quiet (c : config) (faults : nat -> option fault) (k : nat) : Prop :=
  ~ update_fault c k (faults k) /\ ~ print_fault c k (faults k).

(** Projections of a trace. *)
Definition updates (ev : list event) : list nat :=
  flat_map (fun e => match e with EUpdate t => [t] | _ => [] end) ev.
Definition summaries (ev : list event) : list nat :=
  flat_map (fun e => match e with ESummary t => [t] | _ => [] end) ev.
Definition prints (ev : list event) : list nat :=
  flat_map (fun e => match e with EPrint t => [t] | _ => [] end) ev.
(** The phases of a run. *)
Definition phases (ev : list event) : list event :=
  filter (fun e => match e with EUpdate _ | ESummary _ | EPrint _ => false | _ => true end) ev.

(** [l] lists, in increasing order, the numbers from 1 to [n] with [P]. *)
Definition lists (l : list nat) (n : nat) (P : nat -> Prop) : Prop :=
  (forall t, In t l <-> 1 <= t <= n /\ P t) /\
  forall i j a b, i < j -> nth_error l i = Some a -> nth_error l j = Some b -> a < b.

(** The counter in a history: the number of updates since the last reset, with
    those that raised after the counter was incremented. *)
Definition counts (f : option fault) : nat := match f with Some FBefore => 0 | _ => 1 end.
Fixpoint since_reset (n : nat) (os : list op) : nat :=
  match os with
  | [] => n
  | OReset :: os' => since_reset 0 os'
  | OUpdate f :: os' => since_reset (n + counts f) os'
  end.
