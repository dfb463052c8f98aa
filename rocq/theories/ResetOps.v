(** * The reset operations.

    Models what creates variables and reset operations in
    edward/inferences/inference.py:211-213 and 283-285, monte_carlo.py:93-104,
    sghmc.py:54-55, replica_exchange_mc.py:66-70 and 92-97,
    variational_inference.py:83-131, gan_inference.py:94-107 and 219-222.

    A graph is the list of variables in the collection GLOBAL_VARIABLES, in the
    order of creation, with name and initial value, and the names of the variable
    scopes opened so far.  Names that TensorFlow makes unique are arguments,
    except that of the scope of the optimizer. *)
From Coq Require Import Ascii String DecimalString List Arith Bool.
Import ListNotations.

Section ResetOps.
Context {V : Type}.
(** The initial value of counters. *)
Variable zero : V.

(** tf.Variable with its name and initial value (inference.py:211). *)
Record variable : Type := mkv { v_name : string; v_init : V }.
(** The default graph (inference.py:283-285). *)
Record graph : Type := mkgraph { g_vars : list variable; g_scopes : list string }.

(** An inference after initialize: the variables it created (identified by
    position) and those its reset operations initialise (inference.py:211-213, 285). *)
Record inference : Type := mkinf { i_own : list nat; i_reset : list nat }.

(** Creation of variables (inference.py:211, monte_carlo.py:98). *)
Definition add_vars (g : graph) (vs : list (string * V)) : graph * list nat :=
  (mkgraph (g_vars g ++ map (fun nv => mkv (fst nv) (snd nv)) vs) (g_scopes g),
   seq (length (g_vars g)) (length vs)).

(** str(n) (names of scopes, variational_inference.py:118). *)
Definition str (n : nat) : string := NilZero.string_of_uint (Nat.to_uint n).

(** tf.variable_scope(None, default_name=...) (variational_inference.py:118): name,
    name_1, name_2, ...; [fuel] bounds the search. *)
Fixpoint next_scope (fuel : nat) (scopes : list string) (name : string) (i : nat) : string :=
  let candidate := (name ++ "_" ++ str i)%string in
  match fuel with
  | O => candidate
  | S f => if in_dec string_dec candidate scopes then next_scope f scopes name (S i) else candidate
  end.
(** tf.variable_scope(None, default_name="optimizer") (variational_inference.py:118). *)
Definition unique_scope (scopes : list string) (name : string) : string :=
  if in_dec string_dec name scopes then next_scope (length scopes) scopes name 1 else name.

(** tf.get_collection(GLOBAL_VARIABLES, scope=name) (variational_inference.py:130-131):
    the variables whose name starts with [name] (re.match; a name of letters,
    digits, slashes and underscores matches itself only). *)
Definition collection (g : graph) (scope : string) : list nat :=
  map fst (filter (fun iv => prefix scope (v_name (snd iv))) (combine (seq 0 (length (g_vars g))) (g_vars g))).

(** The algorithms by the variables they create, with names and initial values.
    - [Sampler]: the name of n_accept and further variables (sghmc.py:54-55,
      replica_exchange_mc.py:66-70 and 92-97);
    - [Variational]: the default global step, if any (variational_inference.py:83-85),
      and what apply_gradients creates (line 120), names being relative to the
      scope;
    - [Adversarial]: the same without scope (gan_inference.py:100-107). *)
Inductive algorithm : Type :=
| Sampler (n_accept : string) (further : list (string * V))
| Variational (global_step : option string) (slots : list (string * V))
| Adversarial (global_steps : list string) (slots : list (string * V)).

(** initialize: [outer] is the name of the variable scope it is called in, empty
    or ending with a slash, [t] the name of the iteration counter
    (inference.py:211-213, monte_carlo.py:93-104, variational_inference.py:83-131, gan_inference.py:94-107). *)
Definition initialize (g : graph) (outer t : string) (a : algorithm) : graph * inference :=
  match a with
  | Sampler n_accept further =>
      let '(g1, own1) := add_vars g further in
      let '(g2, own2) := add_vars g1 [(t, zero)] in
      let '(g3, own3) := add_vars g2 [(n_accept, zero)] in
      (g3, mkinf (own1 ++ own2 ++ own3) (own2 ++ own3))
  | Variational step slots =>
      let '(g1, own1) := add_vars g [(t, zero)] in
      let '(g2, own2) := add_vars g1 match step with Some s => [(s, zero)] | None => [] end in
      let scope := unique_scope (g_scopes g2) (outer ++ "optimizer")%string in
      let '(g3, own3) := add_vars (mkgraph (g_vars g2) (scope :: g_scopes g2))
                           (map (fun nv => ((scope ++ "/" ++ fst nv)%string, snd nv)) slots) in
      (g3, mkinf (own1 ++ own2 ++ own3) (own1 ++ collection g3 scope))
  | Adversarial steps slots =>
      let '(g1, own1) := add_vars g [(t, zero)] in
      let '(g2, own2) := add_vars g1 (map (fun s => (s, zero)) steps) in
      let '(g3, own3) := add_vars g2 slots in
      (g3, mkinf (own1 ++ own2 ++ own3) own1)
  end.

(** sess.run(inference.reset): the values of the variables afterwards
    (inference.py:285, variational_inference.py:129-131). *)
Definition run_reset (g : graph) (i : inference) (values : nat -> V) : nat -> V := fun v =>
  if in_dec Nat.eq_dec v (i_reset i)
  then match nth_error (g_vars g) v with Some x => v_init x | None => values v end
  else values v.

(** A program that builds several inferences, with variables of its own between
    them, none of them in a variable scope (inference.py:157-285). *)
Inductive step : Type := Declare (vs : list (string * V)) | Initialize (t : string) (a : algorithm).
(** One step after the other (inference.py:157-285). *)
Fixpoint build (g : graph) (steps : list step) : graph * list inference :=
  match steps with
  | [] => (g, [])
  | Declare vs :: s => build (fst (add_vars g vs)) s
  | Initialize t a :: s =>
      let '(g1, i) := initialize g "" t a in
      let '(g2, is) := build g1 s in (g2, i :: is)
  end.
End ResetOps.
Arguments graph : clear implicits.
Arguments variable : clear implicits.
Arguments algorithm : clear implicits.
Arguments step : clear implicits.
