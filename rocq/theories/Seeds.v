(** * Seeds and streams of random numbers

    Models which generator every random number comes from: set_seed
    (edward/util/graphs.py:59-73), the seeds of copied operations
    (edward/util/random_variables.py:346-347), the scan of Gibbs
    (edward/inferences/gibbs.py:105-107) and the uses of NumPy's generator.

    Simplifications.  One graph and one session; the exception of set_seed for the
    node 'keras_learning_phase' is left out (C56 has it).  A random operation makes
    its seeds, then is created; operations that draw nothing only take a number. *)
From Coq Require Import List Arith Bool NArith.
Import ListNotations.
Open Scope N_scope.

(** The default graph with its seed, the number of its last operation and the seeds
    of its random operations in order of creation, (0, 0) if there are none; the
    operations the session has run; the seed of NumPy's generator with the numbers
    drawn since; the numbers drawn from Python's generator and from the operating
    system (graphs.py:59-73, random_variables.py:346-347, gibbs.py:107). *)
Record world : Type := mkworld {
  gseed : option N; last_id : N; rops : list (N * N);
  ran : list nat;
  np_seed : option N; np_drawn : nat;
  py_drawn : nat; os_drawn : nat
}.
(** A fresh interpreter (before graphs.py:59). *)
Definition fresh : world := mkworld None 0 [] [] None 0 0 0.

(** tf.get_seed: tensorflow/python/framework/random_seed.py, called at
    random_variables.py:346-347; 87654321 is DEFAULT_GRAPH_SEED. *)
Definition get_seed (w : world) (own : option N) : option (N * N) :=
  let seeds := match gseed w, own with
    | Some s, Some o => Some (s, o)
    | Some s, None => Some (s, last_id w)
    | None, Some o => Some (87654321, o)
    | None, None => None
    end in
  match seeds with
  | Some (0, 0) => Some (0, 2147483647)
  | _ => seeds
  end.
(** Attributes of an operation without seeds (random_variables.py:346). *)
Definition attributes (s : option (N * N)) : N * N := match s with Some p => p | None => (0, 0) end.

(** A new random operation (compare random_variables.py:346-372). *)
Definition new_op (w : world) (l : list (N * N)) : world :=
  mkworld (gseed w) (last_id w + 1) (rops w ++ l) (ran w) (np_seed w) (np_drawn w) (py_drawn w) (os_drawn w).
(** The seeds of a copy: seed2 is replaced if the graph has a seed
    (random_variables.py:346-347). *)
Definition copied_seeds (w : world) (p : N * N) : N * N :=
  match get_seed w None with Some (_, s2) => (fst p, s2) | None => p end.

(** What a program does: set_seed; an operation that draws nothing; a random
    operation, perhaps with a seed of its own; the copy of random operation [r]; a
    session run of random operation [r]; a Gibbs update with scan_order='random' or
    with a given order (gibbs.py:105-108); a number from NumPy's generator
    (metrics and data of the program; graphs.py:72). *)
Inductive event : Type :=
| SetSeed (x : N) | Plain | Random (own : option N) | Copy (r : nat) | Run (r : nat)
| Scan (random : bool) | Numpy.

Section Run.
Context {V : Type}.
(** The generators: TensorFlow's from two seeds, NumPy's from one, Python's, and the
    operating system's randomness (graphs.py:72-73, gibbs.py:107). *)
Variable stream : N * N -> nat -> V.
Variable np_stream : N -> nat -> V.
Variable python : nat -> V.
Variable os : nat -> V.

(** One step, with the random numbers it consumes (graphs.py:66-73,
    random_variables.py:346-347, gibbs.py:105-107). *)
Definition step (w : world) (e : event) : world * list V :=
  match e with
  | SetSeed x =>
    if last_id w =? 0 then
      (mkworld (Some x) (last_id w) (rops w) (ran w) (Some x) 0 (py_drawn w) (os_drawn w), [])
    else (w, [])
  | Plain => (new_op w [], [])
  | Random own => (new_op w [attributes (get_seed w own)], [])
  | Copy r =>
    match nth_error (rops w) r with
    | Some p => (new_op w [copied_seeds w p], [])
    | None => (w, [])
    end
  | Run r =>
    match nth_error (rops w) r with
    | Some (0, 0) =>
      (mkworld (gseed w) (last_id w) (rops w) (ran w ++ [r]) (np_seed w) (np_drawn w) (py_drawn w) (S (os_drawn w)),
       [os (os_drawn w)])
    | Some p =>
      (mkworld (gseed w) (last_id w) (rops w) (ran w ++ [r]) (np_seed w) (np_drawn w) (py_drawn w) (os_drawn w),
       [stream p (count_occ Nat.eq_dec (ran w) r)])
    | None => (w, [])
    end
  | Scan true =>
    (mkworld (gseed w) (last_id w) (rops w) (ran w) (np_seed w) (np_drawn w) (S (py_drawn w)) (os_drawn w),
     [python (py_drawn w)])
  | Scan false => (w, [])
  | Numpy =>
    match np_seed w with
    | Some x =>
      (mkworld (gseed w) (last_id w) (rops w) (ran w) (np_seed w) (S (np_drawn w)) (py_drawn w) (os_drawn w),
       [np_stream x (np_drawn w)])
    | None =>
      (mkworld (gseed w) (last_id w) (rops w) (ran w) (np_seed w) (np_drawn w) (py_drawn w) (S (os_drawn w)),
       [os (os_drawn w)])
    end
  end.
(** A program and all random numbers it sees (graphs.py:59-73). *)
Fixpoint run (w : world) (p : list event) : world * list V :=
  match p with
  | [] => (w, [])
  | e :: p' => let (w1, a) := step w e in let (w2, b) := run w1 p' in (w2, a ++ b)
  end.
End Run.
