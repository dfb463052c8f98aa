(** * Construction and registration of random variables.

    Models edward/models/random_variable.py:15, 76-138, 162-166 and
    edward/util/graphs.py:44-56. *)
From Coq Require Import List Arith Bool.
Import ListNotations.

(** ** Static shapes (tf.TensorShape): None is an unknown rank, a None entry an
    unknown dimension (random_variable.py:118-126). *)
Definition shape : Type := option (list (option nat)).

(** Dimension.is_compatible_with (random_variable.py:121). *)
Definition dim_compatible (a b : option nat) : bool :=
  match a, b with Some m, Some n => Nat.eqb m n | _, _ => true end.

(** TensorShape.is_compatible_with (random_variable.py:121). *)
Fixpoint dims_compatible (a b : list (option nat)) : bool :=
  match a, b with
  | [], [] => true
  | x :: a', y :: b' => andb (dim_compatible x y) (dims_compatible a' b')
  | _, _ => false
  end.
(** TensorShape.is_compatible_with (random_variable.py:121). *)
Definition shape_compatible (a b : shape) : bool :=
  match a, b with Some x, Some y => dims_compatible x y | _, _ => true end.

(** TensorShape.concatenate (random_variable.py:118-120). *)
Definition concatenate (a b : shape) : shape :=
  match a, b with Some x, Some y => Some (x ++ y) | _, _ => None end.

(** ** Collections *)

(** Elements of the argument collections: the string "random_variables", a
    dictionary from graphs to lists (defaultdict(list) or a plain one), or anything
    else, as a list (random_variable.py:107-111, 135-138). *)
Inductive collection : Type := RandomVariables | Dict (d : nat) (default : bool) | NotADict.

(** Exceptions of random_variable.py:113-138. *)
Inductive rv_error : Type := ValueError | NotImplementedError | TypeError | KeyError | ConstructorError.

(** The lists in each dictionary under each graph; dictionary 0 is
    _RANDOM_VARIABLE_COLLECTION, a defaultdict(list) (line 15). *)
Definition world : Type := nat -> nat -> option (list nat).

(** The assignment of a list in a dictionary (random_variable.py:138). *)
Definition set_entry (w : world) (d g : nat) (l : list nat) : world :=
  fun d' g' => if andb (Nat.eqb d' d) (Nat.eqb g' g) then Some l else w d' g'.

(** collection[tf.get_default_graph()].append(self) (lines 135-138). *)
Definition append_to (g x : nat) (c : collection) (w : world) : world + rv_error :=
  match c with
  | RandomVariables => inl (set_entry w 0 g (match w 0 g with Some l => l | None => [] end ++ [x]))
  | Dict d default =>
      match w d g with
      | Some l => inl (set_entry w d g (l ++ [x]))
      | None => if default then inl (set_entry w d g [x]) else inr KeyError
      end
  | NotADict => inr TypeError
  end.

(** The loop of lines 135-138; earlier appends stay when a later one raises. *)
Fixpoint register (g x : nat) (cs : list collection) (w : world) : world * option rv_error :=
  match cs with
  | [] => (w, None)
  | c :: cs' => match append_to g x c w with inl w' => register g x cs' w' | inr e => (w, Some e) end
  end.

(** ** Construction *)

(** The arguments that decide the outcome: whether the distribution's constructor
    raises, the shapes, the shape of value if given, whether sample is implemented
    (random_variable.py:103-133). *)
Record rv_args : Type := mkargs
  { a_init_raises : bool; a_sample_shape : shape; a_batch_shape : shape; a_event_shape : shape;
    a_value : option shape; a_can_sample : bool }.

(** Lines 113-133. *)
Definition value_step (a : rv_args) : option rv_error :=
  if a_init_raises a then Some ConstructorError else
  match a_value a with
  | Some s =>
      let expected_shape := concatenate (concatenate (a_sample_shape a) (a_batch_shape a)) (a_event_shape a) in
      if shape_compatible s expected_shape then None else Some ValueError
  | None => if a_can_sample a then None else Some NotImplementedError
  end.

(** One construction, with the random variables that the distribution's own
    constructor and sample construct on the way, in order: ParamMixture makes cat
    (param_mixture.py:80) and components (line 85), DirichletProcess a Beta
    (dirichlet_process.py:70) and a Bernoulli (line 219). *)
Inductive construction : Type := Construct (x : nat) (inner : list construction) (a : rv_args) (collections : list collection).

(** RandomVariable.__init__ (lines 76-138) under the default graph [g]. *)
Fixpoint construct (g : nat) (c : construction) (w : world) {struct c} : world * option rv_error :=
  match c with
  | Construct x inner a collections =>
      let (w', e) := (fix run l w := match l with
                      | [] => (w, None)
                      | c' :: l' => let (w', e) := construct g c' w in match e with None => run l' w' | Some _ => (w', e) end
                      end) inner w in
      match e with
      | Some _ => (w', e)
      | None => match value_step a with Some e' => (w', Some e') | None => register g x collections w' end
      end
  end.

(** random_variables(graph) (graphs.py:44-56). *)
Definition random_variables (w : world) (g : nat) : list nat := match w 0 g with Some l => l | None => [] end.

(** A program: constructions, each under a default graph, whose exceptions are caught
    (random_variable.py:76-138). *)
Definition run_program (p : list (nat * construction)) (w : world) : world :=
  fold_left (fun w gc => fst (construct (fst gc) (snd gc) w)) p w.

(** __eq__ and __hash__ (lines 162-166) over object identities. *)
Definition rv_eq (x y : nat) : bool := Nat.eqb x y.
(** random_variable.py:162-163. *)
Definition rv_hash (x : nat) : nat := x.
