(** * Dataflow-graph queries of [edward/util/random_variables.py].

    Tensors, random variables and tf.Variables are identified by natural
    numbers.  A graph is the list of its operations, each with its input and
    output tensors, together with the tensor held by every random variable
    and the reference tensor of every tf.Variable.  Control edges are not
    modelled: the code never follows them. *)
From Coq Require Import List Arith Bool Lia.
Import ListNotations.

(** A TensorFlow operation as seen through [tensor.op.inputs],
    [tensor.consumers()] and [op.outputs]
    (edward/util/random_variables.py:494, 583-584). *)
Record op : Type := mkop { op_in : list nat; op_out : list nat }.

(** The graph.  [value r] is [r.value()] for a random variable
    (edward/models/random_variable.py:283-286); [vref v] is the tensor whose
    name is [v.name] for a tf.Variable
    (edward/util/random_variables.py:752, 768). *)
Record graph : Type := mkgraph {
  ops : list op;
  value : nat -> nat;
  vref : nat -> nat
}.

(** Membership test on lists of naturals: Python's [in] on a set or list of
    tensors, which compares by identity (random_variables.py:484, 687). *)
Definition memb (x : nat) (l : list nat) : bool := existsb (Nat.eqb x) l.

(** [tensor.op.inputs] (edward/util/random_variables.py:494, 689, 772):
    inputs of the operation producing [t]; a tensor produced by no listed
    operation has none. *)
Definition op_inputs (g : graph) (t : nat) : list nat :=
  match find (fun o => memb t (op_out o)) (ops g) with
  | Some o => op_in o
  | None => []
  end.

(** [for op in node.consumers(): nodes.update(op.outputs)]
    (edward/util/random_variables.py:583-584, 636-637): all outputs of all
    operations consuming [t]. *)
Definition consumer_outputs (g : graph) (t : nat) : list nat :=
  flat_map op_out (filter (fun o => memb t (op_in o)) (ops g)).

(** An element of the pending set: the query may be a random variable or a
    tensor; everything reached later is a tensor
    (edward/util/random_variables.py:479, 494). *)
Inductive node : Type :=
| NRV (r : nat)
| NT (t : nat).

(** Python equality/hash of set elements: identity
    (edward/models/random_variable.py:162-166). *)
Definition node_eqb (a b : node) : bool :=
  match a, b with
  | NRV r, NRV s => Nat.eqb r s
  | NT t, NT u => Nat.eqb t u
  | _, _ => false
  end.

(** [x in s] for a Python set of nodes (random_variables.py:484). *)
Definition node_mem (x : node) (l : list node) : bool := existsb (node_eqb x) l.

(** [if isinstance(node, RandomVariable): node = node.value()]
    (edward/util/random_variables.py:487-488). *)
Definition tensor_of (g : graph) (n : node) : nat :=
  match n with
  | NRV r => value g r
  | NT t => t
  end.

(** [node_dict = {key(node): node for node in collection}] followed by
    [.get] (edward/util/random_variables.py:474, 490, 752, 768): on equal
    keys the last member of the collection wins. *)
Definition dict_get (key : nat -> nat) (coll : list nat) (t : nat)
  : option nat :=
  find (fun r => Nat.eqb (key r) t) (rev coll).

(** [candidate_node is not None and candidate_node != x]
    (edward/util/random_variables.py:491): a random variable differs from a
    tensor, two random variables differ unless identical. *)
Definition cand_rv (g : graph) (coll : list nat) (x : node) (t : nat)
  : option nat :=
  match dict_get (value g) coll t with
  | Some r => if node_eqb (NRV r) x then None else Some r
  | None => None
  end.

(** Same for tf.Variables (edward/util/random_variables.py:768-769): the
    query [x] is a random variable or tensor, never a tf.Variable, so the
    test [candidate_node != x] is always true. *)
Definition cand_var (g : graph) (coll : list nat) (t : nat) : option nat :=
  dict_get (vref g) coll t.

(** [set.add] / [set.update] on a duplicate-free list (random_variables.py:485, 494). *)
Definition add_node (s : list node) (n : node) : list node :=
  if node_mem n s then s else n :: s.

(** nodes.update(node.op.inputs) (random_variables.py:494). *)
Definition add_nodes (s : list node) (ts : list nat) : list node :=
  fold_left (fun s t => add_node s (NT t)) ts s.

(** [output.add] (edward/util/random_variables.py:492). *)
Definition add_nat (s : list nat) (n : nat) : list nat :=
  if memb n s then s else n :: s.

(** [set.update] on random variables (random_variables.py:523, 729). *)
Definition add_nats (s : list nat) (ns : list nat) : list nat :=
  fold_left add_nat ns s.

(** Remove the element at an index: [nodes.pop()] returns an arbitrary
    element (edward/util/random_variables.py:481). *)
Fixpoint remove_at {A} (i : nat) (l : list A) : list A :=
  match l, i with
  | [], _ => []
  | _ :: l', 0 => l'
  | a :: l', S i' => a :: remove_at i' l'
  end.

(** The worklist loop shared by get_ancestors (479-496), get_children
    (568-586), get_descendants (621-639), get_parents (674-691) and
    get_variables (757-774).
    - [cand] is the dictionary lookup with the [!= x] test,
    - [next] the neighbouring tensors followed,
    - [stop] says whether the walk stops at a hit (the [else] of lines 582
      and 688) or goes through it,
    - [pick k] chooses the element popped at step [k]: Python's order is
      arbitrary, so theorems quantify over [pick].
    [None] means that the fuel ran out. *)
Fixpoint loop (g : graph) (cand : nat -> option nat)
    (next : nat -> list nat) (stop : bool) (pick : nat -> nat)
    (fuel step : nat) (nodes visited : list node) (output : list nat)
  : option (list nat) :=
  match fuel with
  | 0 => None
  | S fuel' =>
    match nodes with
    | [] => Some output
    | n0 :: _ =>
      let i := pick step mod length nodes in
      let n := nth i nodes n0 in
      let rest := remove_at i nodes in
      if node_mem n visited
      then loop g cand next stop pick fuel' (S step) rest visited output
      else
        let t := tensor_of g n in
        let visited' := n :: visited in
        match cand t with
        | Some r =>
          let output' := add_nat output r in
          if stop
          then loop g cand next stop pick fuel' (S step)
                 rest visited' output'
          else loop g cand next stop pick fuel' (S step)
                 (add_nodes rest (next t)) visited' output'
        | None =>
          loop g cand next stop pick fuel' (S step)
            (add_nodes rest (next t)) visited' output
        end
    end
  end.

(** get_ancestors (edward/util/random_variables.py:448-496). *)
Definition get_ancestors (g : graph) (coll : list nat) (pick : nat -> nat)
    (fuel : nat) (x : node) : option (list nat) :=
  loop g (cand_rv g coll x) (op_inputs g) false pick fuel 0 [x] [] [].

(** get_children (edward/util/random_variables.py:536-586). *)
Definition get_children (g : graph) (coll : list nat) (pick : nat -> nat)
    (fuel : nat) (x : node) : option (list nat) :=
  loop g (cand_rv g coll x) (consumer_outputs g) true pick fuel 0 [x] [] [].

(** get_descendants (edward/util/random_variables.py:589-639). *)
Definition get_descendants (g : graph) (coll : list nat) (pick : nat -> nat)
    (fuel : nat) (x : node) : option (list nat) :=
  loop g (cand_rv g coll x) (consumer_outputs g) false pick fuel 0 [x] [] [].

(** get_parents (edward/util/random_variables.py:642-691). *)
Definition get_parents (g : graph) (coll : list nat) (pick : nat -> nat)
    (fuel : nat) (x : node) : option (list nat) :=
  loop g (cand_rv g coll x) (op_inputs g) true pick fuel 0 [x] [] [].

(** get_variables (edward/util/random_variables.py:726-774). *)
Definition get_variables (g : graph) (coll : list nat) (pick : nat -> nat)
    (fuel : nat) (x : node) : option (list nat) :=
  loop g (cand_var g coll) (op_inputs g) false pick fuel 0 [x] [] [].

(** [output.discard(x)] (edward/util/random_variables.py:532, 722): removes
    the query if it is a random variable; a tensor is never in the set. *)
Definition discard (x : node) (l : list nat) : list nat :=
  filter (fun r => negb (node_eqb (NRV r) x)) l.

(** Accumulate [output.update(f(m))] for every [m] of a list
    (edward/util/random_variables.py:529-530, 719-720). *)
Fixpoint update_all (f : nat -> option (list nat)) (ms : list nat)
    (out : list nat) : option (list nat) :=
  match ms with
  | [] => Some out
  | m :: ms' =>
    match f m with
    | Some l => update_all f ms' (add_nats out l)
    | None => None
    end
  end.

(** get_blanket (edward/util/random_variables.py:499-533). *)
Definition get_blanket (g : graph) (coll : list nat) (pick : nat -> nat)
    (fuel : nat) (x : node) : option (list nat) :=
  match get_parents g coll pick fuel x, get_children g coll pick fuel x with
  | Some ps, Some cs =>
    match update_all (fun c => get_parents g coll pick fuel (NRV c)) cs
            (add_nats (add_nats [] ps) cs) with
    | Some out => Some (discard x out)
    | None => None
    end
  | _, _ => None
  end.

(** get_siblings (edward/util/random_variables.py:694-723). *)
Definition get_siblings (g : graph) (coll : list nat) (pick : nat -> nat)
    (fuel : nat) (x : node) : option (list nat) :=
  match get_parents g coll pick fuel x with
  | Some ps =>
    match update_all (fun p => get_children g coll pick fuel (NRV p)) ps []
    with
    | Some out => Some (discard x out)
    | None => None
    end
  | None => None
  end.

(** All tensors mentioned by the graph; bounds the size of a traversal
    (no lines of its own; random_variables.py:480-494 runs over them). *)
Definition tensors (g : graph) : list nat :=
  flat_map (fun o => op_in o ++ op_out o) (ops g).

(** A number of loop iterations that always suffices (proved in
    [GraphProofs.v]); not part of the code, which loops until done (random_variables.py:480-494). *)
Definition enough (g : graph) : nat :=
  let n := S (S (length (tensors g))) in n * n + n.
