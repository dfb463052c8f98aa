(** * The life of an inference: run, update, print_progress, finalize.

    Models edward/inferences/inference.py:97-154 ([run]), 204-213 and 285
    ([initialize]), 287-320 ([update]), 322-332 ([print_progress]), 334-338
    ([finalize]); the updates of VariationalInference
    (variational_inference.py:133-164), MonteCarlo (monte_carlo.py:111-150),
    GANInference (gan_inference.py:154-207) and Gibbs (gibbs.py:71-134) have the
    same bookkeeping.  What an update computes is left out. *)
From Coq Require Import List Arith Bool.
Import ListNotations.

(** The argument [variables] of run (inference.py:127-130): all variables, or
    these; what matters is whether the counter [t] is among them. *)
Inductive vars_arg : Type := AllVars | SomeVars (has_t : bool).

(** Arguments of run and initialize (inference.py:97, 157-159). *)
Record config : Type := mkconfig {
  c_iter : nat; c_print : option nat; c_logging : bool; c_debug : bool; c_vars : vars_arg; c_coord : bool }.

(** self.n_print (inference.py:205-208): int(n_iter / 100) by default. *)
Definition n_print (c : config) : nat := match c_print c with None => c_iter c / 100 | Some p => p end.

(** Where the k-th call of update may raise: in the session run of the
    algorithm before or after the counter was incremented (the order within one
    session run is TensorFlow's), in the check for NaN, in the summary; and
    print_progress may raise (inference.py:302-332). *)
Inductive fault : Type := FBefore | FAfter | FDebug | FSummary | FPrint.

(** What can be observed: the phases of run, completed updates with the
    iteration they return, summaries and progress with their iteration (inference.py:125-154, 302-338). *)
Inductive event : Type :=
| EInitialize | EInitVars | EStart | EUpdate (t : nat) | ESummary (t : nat) | EPrint (t : nat)
| EFinalize | ECloseWriter | EStop.

(** Condition at inference.py:316 and 331, also variational_inference.py:160
    and 171, monte_carlo.py:146 and 157, gan_inference.py:203 and 214,
    gibbs.py:130. *)
Definition due (p t : nat) : bool := negb (Nat.eqb p 0) && (Nat.eqb t 1 || Nat.eqb (t mod p) 0).

(** update (inference.py:302-320) on the value of the counter ([None] if it is
    not initialised), with the fault of this call. *)
Definition update (c : config) (t : option nat) (f : option fault)
  : option nat * list event * option nat :=
  match t with
  | None => (None, [], None)
  | Some n =>
      let t' := S n in
      match f with
      | Some FBefore => (Some n, [], None)
      | Some FAfter => (Some t', [], None)
      | _ =>
          let is_debug := match f with Some FDebug => c_debug c | _ => false end in
          if is_debug then (Some t', [], None)
          else if c_logging c && due (n_print c) t' then
            match f with
            | Some FSummary => (Some t', [], None)
            | _ => (Some t', [ESummary t'; EUpdate t'], Some t')
            end
          else (Some t', [EUpdate t'], Some t')
      end
  end.

(** print_progress (inference.py:322-332): its events, and whether it returns. *)
Definition print_progress (c : config) (t : nat) (f : option fault) : list event * bool :=
  if due (n_print c) t then
    match f with Some FPrint => ([], false) | _ => ([EPrint t], true) end
  else ([], true).

(** The loop (inference.py:145-147); [k] is the number of the call. *)
Fixpoint loop (c : config) (faults : nat -> option fault) (n k : nat) (t : option nat)
  : option nat * list event * bool :=
  match n with
  | O => (t, [], true)
  | S n' =>
      match update c t (faults k) with
      | (t', ev, None) => (t', ev, false)
      | (t', ev, Some i) =>
          match print_progress c i (faults k) with
          | (ev', false) => (t', ev ++ ev', false)
          | (ev', true) =>
              match loop c faults n' (S k) t' with
              | (t'', ev'', b) => (t'', ev ++ ev' ++ ev'', b)
              end
          end
      end
  end.

(** finalize (inference.py:334-338). *)
Definition finalize (c : config) : list event := EFinalize :: if c_logging c then [ECloseWriter] else [].

(** The counter after the initialisation (inference.py:127-138): initialize has
    just created it (inference.py:211), so it has no value unless it is
    initialised here. *)
Definition init_t (v : vars_arg) : option nat :=
  match v with AllVars => Some 0 | SomeVars b => if b then Some 0 else None end.

(** run (inference.py:97-154): final counter, events, and whether it returns. *)
Definition run (c : config) (faults : nat -> option fault) : option nat * list event * bool :=
  let start := if c_coord c then [EStart] else [] in
  match loop c faults (c_iter c) 1 (init_t (c_vars c)) with
  | (t, ev, true) =>
      (t, [EInitialize; EInitVars] ++ start ++ ev ++ finalize c ++ (if c_coord c then [EStop] else []), true)
  | (t, ev, false) => (t, [EInitialize; EInitVars] ++ start ++ ev, false)
  end.

(** ** Use step by step

    After initialize and initialisation of all variables the user calls update
    (and print_progress with what it returned), or fetches self.reset
    (inference.py:285), in any order. *)
Inductive op : Type := OUpdate (f : option fault) | OReset.

(** State: the counter (inference.py:287-332, 285). *)
Definition op_step (c : config) (t : nat) (o : op) : nat * list event :=
  match o with
  | OReset => (0, [])
  | OUpdate f =>
      match update c (Some t) f with
      | (t', ev, None) => (match t' with Some n => n | None => t end, ev)
      | (t', ev, Some i) => (match t' with Some n => n | None => t end, ev ++ fst (print_progress c i f))
      end
  end.

(** A history: the counter and the events (inference.py:287-332, 285). *)
Fixpoint op_run (c : config) (t : nat) (os : list op) : nat * list event :=
  match os with
  | [] => (t, [])
  | o :: os' => match op_step c t o with
                | (t', ev) => match op_run c t' os' with (t'', ev') => (t'', ev ++ ev') end
                end
  end.
