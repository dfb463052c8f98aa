(** * [is_independent] of [edward/util/random_variables.py]:777-853. *)
From Coq Require Import List Arith Bool.
From Verif Require Import Graph.
Import ListNotations.

(** The string "child" / "parent" saying from where the ball came
    (edward/util/random_variables.py:823-851). *)
Inductive from : Type := FromChild | FromParent.

(** [for m in ms: schedule.append((m, d))] on a stack whose head is the
    element popped next (edward/util/random_variables.py:830-831, 837-838). *)
Definition push (ms : list nat) (d : from) (sched : list (nat * from))
  : list (nat * from) :=
  fold_left (fun s m => (m, d) :: s) ms sched.

(** The while loop (edward/util/random_variables.py:824-853).  [par] and
    [ch] are the calls of get_parents and get_children, [pm n] is
    [isinstance(n, PointMass)]; [A] and [C] are the sets of queried and
    conditioning variables.  [None]: out of fuel. *)
Fixpoint bb_loop (par ch : nat -> list nat) (pm : nat -> bool)
    (A C : list nat) (fuel : nat) (sched : list (nat * from))
    (top bottom : list nat) : option bool :=
  match fuel with
  | 0 => None
  | S fuel' =>
    match sched with
    | [] => Some true
    | (n, came_from) :: sched1 =>
      match came_from with
      | FromChild =>
        if memb n C then bb_loop par ch pm A C fuel' sched1 top bottom
        else
          let '(top2, sched2) :=
            if memb n top then (top, sched1)
            else (n :: top, push (par n) FromChild sched1) in
          if negb (pm n) && negb (memb n bottom) then
            if memb n A then Some false
            else bb_loop par ch pm A C fuel'
                   (push (ch n) FromParent sched2) top2 (n :: bottom)
          else bb_loop par ch pm A C fuel' sched2 top2 bottom
      | FromParent =>
        if memb n C && negb (memb n top) then
          bb_loop par ch pm A C fuel' (push (par n) FromChild sched1)
            (n :: top) bottom
        else if negb (memb n C) && negb (memb n bottom) then
          if memb n A then Some false
          else bb_loop par ch pm A C fuel'
                 (push (ch n) FromParent sched1) top (n :: bottom)
        else bb_loop par ch pm A C fuel' sched1 top bottom
      end
    end
  end.

(** The result of a query that has been given enough fuel
    (random_variables.py:830, 837: what the calls of get_parents and get_children return). *)
Definition found (o : option (list nat)) : list nat :=
  match o with Some l => l | None => [] end.

(** [is_independent(a, b, condition)] on a graph
    (edward/util/random_variables.py:804-853); [coll] is the list of all
    random variables, used by get_parents and get_children by default
    (666-667, 560-561).  Line 823: the schedule starts with all of [B],
    entered from below. *)
Definition is_independent (g : graph) (coll : list nat) (pm : nat -> bool)
    (pick : nat -> nat) (fuel : nat) (A B C : list nat) : option bool :=
  bb_loop (fun n => found (get_parents g coll pick (enough g) (NRV n)))
          (fun n => found (get_children g coll pick (enough g) (NRV n)))
          pm A C fuel (map (fun b => (b, FromChild)) B) [] [].

(** A number of loop iterations that always suffices (proved in
    [BayesBallProofs.v]); not part of the code (bounds the loop of random_variables.py:824-853). *)
Definition bb_enough (coll B : list nat) : nat :=
  2 * (length coll * length coll) + length B + 1.
