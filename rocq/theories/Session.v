(** * Sessions and seeds.

    Models edward/util/graphs.py:13-41 and 59-73. *)
From Coq Require Import String List Arith ZArith Bool.
Import ListNotations.
Local Open Scope string_scope.

(** The state of the process: the names of the nodes of the default graph, in order; the
    seeds of NumPy and of the default graph, if set; the stack of default sessions, innermost
    first; the number of sessions created; the global _ED_SESSION and the session last
    handed to Keras (graphs.py:10, 24-41, 70-73). *)
Record process : Type := mkprocess {
  p_nodes : list string; p_np_seed : option Z; p_tf_seed : option Z;
  p_default : list nat; p_created : nat; p_ed : option nat; p_keras : option nat }.

(** get_session (lines 13-41); [keras]: whether Keras can be imported.  A new
    InteractiveSession installs itself as the default. *)
Definition get_session (keras : bool) (p : process) : nat * process :=
  let '(s, p) :=
    match p_default p with
    | [] => (p_created p, mkprocess (p_nodes p) (p_np_seed p) (p_tf_seed p) [p_created p] (S (p_created p)) (Some (p_created p)) (p_keras p))
    | s :: _ => (s, mkprocess (p_nodes p) (p_np_seed p) (p_tf_seed p) (p_default p) (p_created p) (Some s) (p_keras p))
    end in
  (s, mkprocess (p_nodes p) (p_np_seed p) (p_tf_seed p) (p_default p) (p_created p) (p_ed p) (if keras then Some s else p_keras p)).

(** The argument of set_seed (graphs.py:59). *)
Inductive seed_arg : Type := SInt (z : Z) | SFloat (z : Z).   (* a float, here of integral value *)

(** How set_seed returns: normally, or by an exception (graphs.py:66-73). *)
Inductive seed_result : Type := SOk | SRuntimeError | STypeError | SValueError.

(** set_seed (lines 59-73).  np.random.seed refuses floats (TypeError) and integers
    outside 0 .. 2^32 - 1 (ValueError). *)
Definition set_seed (x : seed_arg) (p : process) : seed_result * process :=
  if negb (match p_nodes p with [] => true | _ => false end) && negb (if list_eq_dec string_dec (p_nodes p) ["keras_learning_phase"] then true else false)
  then (SRuntimeError, p)
  else match x with
       | SFloat _ => (STypeError, p)
       | SInt z =>
           if Z.leb 0 z && Z.ltb z 4294967296
           then (SOk, mkprocess (p_nodes p) (Some z) (Some z) (p_default p) (p_created p) (p_ed p) (p_keras p))
           else (SValueError, p)
       end.

(** What else happens to the process: an operation is added to the default graph, a
    session is entered (with sess.as_default(), or a new tf.InteractiveSession()) or the innermost left, the two functions
    (graphs.py:13-73). *)
Inductive step : Type :=
| AddNode (name : string) | Enter (s : nat) | NewSession | Leave
| GetSession (keras : bool) | SetSeed (x : seed_arg).
(** The transition of each step (graphs.py:13-73). *)
Definition run_step (e : step) (p : process) : process :=
  match e with
  | AddNode n => mkprocess (p_nodes p ++ [n]) (p_np_seed p) (p_tf_seed p) (p_default p) (p_created p) (p_ed p) (p_keras p)
  | Enter s => mkprocess (p_nodes p) (p_np_seed p) (p_tf_seed p) (s :: p_default p) (p_created p) (p_ed p) (p_keras p)
  | NewSession => mkprocess (p_nodes p) (p_np_seed p) (p_tf_seed p) (p_created p :: p_default p) (S (p_created p)) (p_ed p) (p_keras p)
  | Leave => mkprocess (p_nodes p) (p_np_seed p) (p_tf_seed p) (tl (p_default p)) (p_created p) (p_ed p) (p_keras p)
  | GetSession k => snd (get_session k p)
  | SetSeed x => snd (set_seed x p)
  end.
(** A history of steps (graphs.py:13-73). *)
Definition run_steps (h : list step) (p : process) : process := fold_left (fun p e => run_step e p) h p.
