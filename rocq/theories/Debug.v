(** * The argument [debug] of initialize.

    Models what Inference.__init__ (edward/inferences/inference.py:81-95) and
    Inference.initialize (210-285) put into the graph, and the update of an inference
    with debug=True (inference.py:309-313; the same at variational_inference.py:154-157,
    monte_carlo.py:138-143, gan_inference.py:184-200, gibbs.py:121-127).  TensorFlow's
    tf.add_check_numerics_ops connects a CheckNumerics to every output of type
    float16, float32 or float64 of the operations in the graph at the time of the call;
    variables and assignments have reference types and are not among them. *)
From Coq Require Import List Arith Bool.
Import ListNotations.

Section Debug.
(** [V] are values, [E] is what an operation sees in a session run besides its
    inputs: the variables and the random draws. *)
Context {V E : Type}.

(** An operation with one output, by its place in the order of creation: whether the
    type of the output is one of float16, float32 and float64, whether it is a
    tf.placeholder, its inputs, and what it computes (inference.py:91-94, 211-213). *)
Record dop : Type := mkdop { d_float : bool; d_place : bool; d_in : list nat; d_fun : E -> list V -> V }.

(** The graph, in the order of creation (tf.get_default_graph, inference.py:269). *)
Definition dgraph : Type := list dop.

(** The values an operation takes, [None] if one cannot be computed (inference.py:309-313). *)
Fixpoint taken (vals : list (option V)) (l : list nat) : option (list V) :=
  match l with
  | [] => Some []
  | i :: l' => match nth i vals None, taken vals l' with Some v, Some vs => Some (v :: vs) | _, _ => None end
  end.

(** A session run: what each operation would return; a value that is fed replaces the
    operation, and a placeholder that is not fed raises ([None]) (inference.py:309-313). *)
Definition values (g : dgraph) (feed : nat -> option V) (e : E) : list (option V) :=
  fold_left (fun vals o => vals ++ [match feed (length vals) with
    | Some v => Some v
    | None => if d_place o then None else option_map (d_fun o e) (taken vals (d_in o))
    end]) g [].

(** sess.run(fetches, feed_dict): [None] if it raises (inference.py:309-313). *)
Definition session_run (g : dgraph) (feed : nat -> option V) (e : E) (fetches : list nat) : option (list V) :=
  taken (values g feed e) fetches.

(** The value of a variable in a session run, by the place of the variable
    (inference.py:93, 211). *)
Variable mem : E -> nat -> V.
(** Some value for what nobody looks at: the result of an assignment (inference.py:94, 213). *)
Variable unit_value : V.

(** A tf.Variable made at place [n] of an initial value at place [init]: the variable,
    the assignment that initialises it, and what reads it (inference.py:93, 211).
    [float] is that of its type; the first two have reference types. *)
Definition variable_ops (float : bool) (n init : nat) : list dop :=
  [ mkdop false false [] (fun e _ => mem e n);
    mkdop false false [n; init] (fun _ _ => unit_value);
    mkdop float false [n] (fun _ vs => hd unit_value vs) ].

(** What the constructor adds for one item of [data]: for a RandomVariable or tensor
    whose value is a Python or NumPy one, a placeholder of the key's type and a variable
    made of it (inference.py:88-95); nothing for other values.  An item: whether the
    key's type is one of float16, float32 and float64, and whether its value is a Python
    or NumPy one. *)
Definition data_ops (g : dgraph) (item : bool * bool) : dgraph :=
  let '(float, python) := item in
  if python then
    g ++ mkdop float true [] (fun _ _ => unit_value) :: variable_ops float (S (length g)) (length g)
  else g.

(** The loop of the constructor (inference.py:81-95) on the graph of the model. *)
Definition construct (g : dgraph) (items : list (bool * bool)) : dgraph := fold_left data_ops items g.

(** The counter and its increment, of type int32 (inference.py:211-213). *)
Definition counter_ops (n : nat) (zero : V) : list dop :=
  mkdop false false [] (fun _ _ => zero) :: variable_ops false (S n) n ++ [mkdop false false [S n] (fun _ _ => unit_value)].

(** tf.add_check_numerics_ops (inference.py:281): the operations whose outputs are
    checked.  The CheckNumerics operations themselves are left out of the graph. *)
Definition check_ops (g : dgraph) : list nat :=
  filter (fun i => match nth_error g i with Some o => d_float o | None => false end) (seq 0 (length g)).

(** Inference.initialize (inference.py:210-285): [before] are the operations made
    before line 281, those of auto_transform and of the log.  The graph then, and
    self.op_check. *)
Definition initialize (g : dgraph) (zero : V) (before : list dop) : dgraph * list nat :=
  let g' := g ++ counter_ops (length g) zero ++ before in (g', check_ops g').

(** The initialize of an algorithm, for example VariationalInference
    (variational_inference.py:51-129) or MonteCarlo (monte_carlo.py:87-110): it calls
    Inference.initialize first; [rest] are the operations it makes then. *)
Definition algorithm (g : dgraph) (items : list (bool * bool)) (zero : V) (before rest : list dop) : dgraph * list nat :=
  let '(g', checks) := initialize (construct g items) zero before in (g' ++ rest, checks).

(** Whether a value is neither NaN nor infinite (CheckNumerics, inference.py:281). *)
Variable finite : V -> bool.

(** Whether sess.run(self.op_check, feed_dict) returns (inference.py:313). *)
Definition check_passes (g : dgraph) (checks : list nat) (feed : nat -> option V) (e : E) : bool :=
  forallb (fun i => match nth i (values g feed e) None with Some v => finite v | None => false end) checks.

(** How a call of update ends: its own session run raises, self.op_check raises, or it
    returns what it fetched (inference.py:309-320). *)
Inductive ending : Type := Raised | CheckRaised | Returned (vs : list V).

(** update (variational_inference.py:154-157 and those above): the session run of the
    algorithm, with the variables and draws [e]; then the checks, in a session run of
    their own with the variables as they are then and other draws, [e']. *)
Definition update (debug : bool) (g : dgraph) (checks fetches : list nat) (feed : nat -> option V) (e e' : E) : ending :=
  match session_run g feed e fetches with
  | None => Raised
  | Some vs => if debug && negb (check_passes g checks feed e') then CheckRaised else Returned vs
  end.
End Debug.
Arguments dop : clear implicits.
Arguments dgraph : clear implicits.
Arguments ending : clear implicits.
