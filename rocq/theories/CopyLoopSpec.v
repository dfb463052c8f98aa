(** * What C74 says

    A copied graph mirrors the original, loops and contexts included. *)
From Coq Require Import String List Arith Bool.
From Verif Require Import CopyLoop.
Import ListNotations.
Open Scope list_scope.

Section Spec.
Variable g : graph.
Variable swap : tensor -> option tensor.
Variable scope : string.

(** What stands for a tensor in the copy: its replacement if it has one; itself if
    it is a variable, a placeholder or the output of a queue; else its copy
    (edward/util/random_variables.py:147-150). *)
Definition image (t : tensor) : ref tensor :=
  match swap t with
  | Some t' => Old t'
  | None => if variable g t || placeholder g (fst t) || queue g (fst t) then Old t else New t
  end.
(** The same for an operation (random_variables.py:331). *)
Definition image_op (o : nat) : ref nat := if queue g o then Old o else New o.

(** Context [d] is [c] or nested in it (random_variables.py:122). *)
Inductive within (c : nat) : nat -> Prop :=
| w_self : within c c
| w_up : forall d e, outer g d = Some e -> within c e -> within c d.
(** The operation is in the context or in one nested in it (random_variables.py:394). *)
Definition inside (c o : nat) : Prop := exists d, context g o = Some d /\ within c d.

(** Graphs that TensorFlow builds: finitely many operations and contexts, contexts
    numbered in the order of their creation; every operation of a context is one of
    its values and is not replaced or shared; what is outside a context reaches into
    it only one level, through its own operations; no placeholder is a control input
    (see C12); tf.while_loop and tf.cond keep their contexts in a collection
    (random_variables.py:92-93, 111, 122). *)
Record built (n m : nat) : Prop := mkbuilt {
  b_inputs : forall o t, In t (inputs g o) -> fst t < n;
  b_controls : forall o x, In x (controls g o) -> x < n;
  b_values : forall c t, In t (values g c) -> fst t < n;
  b_context : forall o c, context g o = Some c -> c < m;
  b_outer : forall c d, outer g c = Some d -> d < c;
  b_no_placeholder : forall o x, In x (controls g o) -> placeholder g x = false;
  b_own : forall o c, context g o = Some c -> exists i, In (o, i) (values g c) /\ image (o, i) = New (o, i);
  b_level_inputs : forall c o t, ~ inside c o -> In t (inputs g o) -> inside c (fst t) -> context g (fst t) = Some c;
  b_level_controls : forall c o x, ~ inside c o -> In x (controls g o) -> inside c x -> context g x = Some c;
  b_level_values : forall c d t, ~ within c d -> In t (values g d) -> inside c (fst t) -> context g (fst t) = Some c;
  b_listed : forall c, listed g c = true
}.

(** The copy exists (random_variables.py:372). *)
Definition exists_copy (s : state) (o : nat) : Prop := lookup (ops s) o <> None.

(** The copies mirror the originals: every copied operation has the images of its
    inputs and control inputs, in order, all of them there; a frame name of its own;
    the copy of its context.  [cp] gives every context its copy: there is exactly one,
    nested in the copy of the context around it, and all its values are copied
    (random_variables.py:340-396, 101-129). *)
Record mirror (s : state) (cp : nat -> option nat) : Prop := mkmirror {
  m_inputs : forall o r, lookup (ops s) o = Some r -> c_inputs r = map image (inputs g o);
  m_controls : forall o r, lookup (ops s) o = Some r -> c_controls r = map image_op (controls g o);
  m_frame : forall o r, lookup (ops s) o = Some r -> c_frame r = option_map (fun f => (scope ++ f)%string) (frame g o);
  m_context : forall o r, lookup (ops s) o = Some r ->
    match context g o with None => c_context r = None | Some c => exists i, c_context r = Some i /\ cp c = Some i end;
  m_there : forall o r t, lookup (ops s) o = Some r -> In (New t) (c_inputs r) -> exists_copy s (fst t);
  m_there_control : forall o r x, lookup (ops s) o = Some r -> In (New x) (c_controls r) -> exists_copy s x;
  m_outer : forall c i, cp c = Some i -> exists oc, nth_error (contexts s) i = Some (c, oc) /\
    match outer g c with None => oc = None | Some d => exists j, oc = Some j /\ cp d = Some j end;
  m_once : forall i c oc, nth_error (contexts s) i = Some (c, oc) -> cp c = Some i;
  m_values : forall c i t, cp c = Some i -> In t (values g c) -> image t = New t -> exists_copy s (fst t)
}.

(** What the copy of [t] needs: the operation of [t] if it is copied, what a needed
    operation takes as inputs and control inputs, and the values of the contexts
    around it (random_variables.py:376-395). *)
Inductive needed (t : tensor) : nat -> Prop :=
| n_root : image t = New t -> needed t (fst t)
| n_input : forall o x, needed t o -> In x (inputs g o) -> image x = New x -> needed t (fst x)
| n_control : forall o x, needed t o -> In x (controls g o) -> image_op x = New x -> needed t x
| n_value : forall o c d x, needed t o -> context g o = Some c -> within d c -> In x (values g d) -> image x = New x -> needed t (fst x).
End Spec.
