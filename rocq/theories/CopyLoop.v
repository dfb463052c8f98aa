(** * Copying graphs with loops and conditionals

    Models how copy (edward/util/random_variables.py:139-445) treats what Copy.v
    leaves out: cycles of operations (tf.while_loop), control inputs, frame names and
    control flow contexts, with _copy_context and _get_context_copy (lines 86-129).

    Simplifications.  Copies are told from originals by their prefix, so an operation
    and its copy share a number here; names of the scope are not otherwise used (C11
    has what happens if they are).  No random variables, whose copies are C10's; no
    _original_op; dict_swap has tensors for keys and values, copy_q is False; all
    contexts that are kept in a collection are kept in one.  ctx.from_proto (line 121)
    finds the operations it names, which have been copied by then.  The contexts of
    the copies are made where the code registers them (lines 121-128): nothing reads
    them earlier.  Running out of fuel stands for Python's recursion limit. *)
From Coq Require Import String List Arith Bool.
Import ListNotations.
Open Scope list_scope.

(** The operation and which of its outputs (random_variables.py:319-320). *)
Definition tensor : Type := (nat * nat)%type.

(** A graph of operations and of control flow contexts: whether an operation is a
    queue or a placeholder (lines 310, 331), its inputs, control inputs and context
    (lines 376, 386, 394-395), its frame name (line 343); whether a tensor has the name
    of a global variable (line 240); the tensors of a context, the context around it
    and whether some collection holds it (lines 111, 122, 93). *)
Record graph : Type := mkgraph {
  queue : nat -> bool; placeholder : nat -> bool;
  inputs : nat -> list tensor; controls : nat -> list nat; context : nat -> option nat;
  frame : nat -> option string;
  variable : tensor -> bool;
  values : nat -> list tensor; outer : nat -> option nat; listed : nat -> bool
}.

(** An element of the graph as it was, or the copy of one (line 256). *)
Inductive ref (A : Type) : Type := Old (a : A) | New (a : A).
Arguments Old {A}. Arguments New {A}.

(** A copied operation; contexts that were created are numbered in order
    (lines 362-396). *)
Record copied : Type := mkcopied {
  c_inputs : list (ref tensor); c_controls : list (ref nat); c_context : option nat; c_frame : option string
}.
(** The operations added so far, the newest state of each first; the contexts
    created, each with its original and the context around it; those in a collection
    (lines 372, 121-128). *)
Record state : Type := mkstate { ops : list (nat * copied); contexts : list (nat * option nat); kept : list nat }.
(** Before the first call (line 139). *)
Definition empty : state := mkstate [] [] [].

(** graph.as_graph_element(scope + name) of an operation (lines 262-268). *)
Fixpoint lookup (l : list (nat * copied)) (o : nat) : option copied :=
  match l with [] => None | (k, r) :: l' => if k =? o then Some r else lookup l' o end.
(** Adding or changing a copied operation (lines 372, 383, 391, 396). *)
Definition put (o : nat) (r : copied) (s : state) : state := mkstate ((o, r) :: ops s) (contexts s) (kept s).
(** A change to the copied operation, which exists (lines 383, 391, 396). *)
Definition change (o : nat) (f : copied -> copied) (s : state) : state :=
  match lookup (ops s) o with Some r => put o (f r) s | None => s end.
(** new_op._add_input (line 391). *)
Definition add_input (x : ref tensor) (r : copied) : copied := mkcopied (c_inputs r ++ [x]) (c_controls r) (c_context r) (c_frame r).
(** new_op._add_control_inputs (line 383). *)
Definition add_controls (l : list (ref nat)) (r : copied) : copied := mkcopied (c_inputs r) (c_controls r ++ l) (c_context r) (c_frame r).
(** new_op._set_control_flow_context (line 396). *)
Definition set_context (c : option nat) (r : copied) : copied := mkcopied (c_inputs r) (c_controls r) c (c_frame r).

(** _get_context_copy (lines 86-98). *)
Definition context_copy (g : graph) (c : nat) (s : state) : option nat :=
  if listed g c then
    find (fun i => match nth_error (contexts s) i with Some (k, _) => k =? c | None => false end) (kept s)
  else None.

(** A loop that copies the elements of a list, each with an action on its result
    (lines 376-381, 386-391, 111-113). *)
Fixpoint each {A B : Type} (f : A -> state -> option (B * state)) (act : B -> state -> state) (l : list A) (s : state)
  : option (list B * state) :=
  match l with
  | [] => Some ([], s)
  | x :: l' =>
    match f x s with
    | None => None
    | Some (b, s1) =>
      match each f act l' (act b s1) with None => None | Some (bs, s2) => Some (b :: bs, s2) end
    end
  end.

Section Copy.
Variable g : graph.
Variable swap : tensor -> option tensor.
Variable scope : string.

(** copy of a tensor (lines 216-268, 306-326), copy of an operation (lines 262-268,
    327-445) and _copy_context (lines 101-129). *)
Fixpoint copy_tensor (fuel : nat) (t : tensor) (s : state) : option (ref tensor * state) :=
  match fuel with
  | O => None
  | S f =>
    match swap t with
    | Some t' => Some (Old t', s)
    | None =>
      if variable g t then Some (Old t, s)
      else match lookup (ops s) (fst t) with
      | Some _ => Some (New t, s)
      | None =>
        if placeholder g (fst t) then Some (Old t, s)
        else match copy_op f (fst t) s with
          | Some (Old o, s') => Some (Old (o, snd t), s')
          | Some (New o, s') => Some (New (o, snd t), s')
          | None => None
          end
      end
    end
  end
with copy_op (fuel : nat) (o : nat) (s : state) : option (ref nat * state) :=
  match fuel with
  | O => None
  | S f =>
    match lookup (ops s) o with
    | Some _ => Some (New o, s)
    | None =>
      if queue g o then Some (Old o, s)
      else
        let s0 := put o (mkcopied [] [] None (option_map (fun n => (scope ++ n)%string) (frame g o))) s in
        match each (copy_op f) (fun _ s => s) (controls g o) s0 with
        | None => None
        | Some (cs, s1) =>
          match each (copy_tensor f) (fun x => change o (add_input x)) (inputs g o) (change o (add_controls cs) s1) with
          | None => None
          | Some (_, s2) =>
            match copy_context f (context g o) s2 with
            | None => None
            | Some (c, s3) => Some (New o, change o (set_context c) s3)
            end
          end
        end
    end
  end
with copy_context (fuel : nat) (c : option nat) (s : state) : option (option nat * state) :=
  match fuel with
  | O => None
  | S f =>
    match c with
    | None => Some (None, s)
    | Some c =>
      match each (copy_tensor f) (fun _ s => s) (values g c) s with
      | None => None
      | Some (_, s1) =>
        match context_copy g c s1 with
        | Some i => Some (Some i, s1)
        | None =>
          match copy_context f (outer g c) s1 with
          | None => None
          | Some (oc, s2) =>
            let i := length (contexts s2) in
            Some (Some i, mkstate (ops s2) (contexts s2 ++ [(c, oc)]) (if listed g c then kept s2 ++ [i] else kept s2))
          end
        end
      end
    end
  end.
End Copy.
