(** * copy of edward/util/random_variables.py

    Simplifications.  Every operation has one output, and a tensor is
    identified with the operation that produces it; a tf.Variable is identified
    with its reference tensor and convert_to_tensor of it is that tensor.  A
    random variable is built from arguments that are random variables, tensors
    or variables (Python numbers among its arguments are constant operations)
    and its sample is produced by one operation whose inputs are the arguments;
    random variables created with a given [value] are not modelled.  Control
    inputs, control flow contexts, devices, shapes and collections are not
    modelled. *)
From Coq Require Import Ascii String List Arith Bool.
From Verif Require Graph.
Import ListNotations.
Local Open Scope string_scope.

(** Types of operations that copy distinguishes
    (random_variables.py:238-252, 310, 331); all others by a number. *)
Inductive kind : Type := KPlace | KQueue | KVar | KOp (ty : nat).

(** An operation: name, type and inputs (random_variables.py:331-391). *)
Record op : Type := mkop { oname : string; okind : kind; oins : list nat }.

(** RandomVariable, tf.Tensor, tf.Variable, tf.Operation
    (random_variables.py:206-208). *)
Inductive elem : Type := XRV (r : nat) | XT (t : nat) | XVar (t : nat) | XOp (o : nat).

(** A random variable: name, class, arguments and [value()]
    (edward/models/random_variable.py:76-138, 283-286). *)
Record rvdef : Type := mkrv { rname : string; rclass : nat; rargs : list elem; rvalue : nat }.

(** The default graph and the random variables registered in it
    (edward/util/graphs.py:44-56); elements are identified by position. *)
Record graph : Type := mkgraph { ops : list op; rvs : list rvdef }.

(** Identity of elements, the equality of Python dictionaries and sets
    (edward/models/random_variable.py:162-166). *)
Definition elem_eqb (a b : elem) : bool :=
  match a, b with
  | XRV r, XRV s | XT r, XT s | XVar r, XVar s | XOp r, XOp s => Nat.eqb r s
  | _, _ => false
  end.

(** [org_instance in dict_swap] and [dict_swap[org_instance]],
    random_variables.py:216-219. *)
Definition swap := list (elem * elem).
(** dict_swap[org_instance], random_variables.py:216-219. *)
Definition lookup (sw : swap) (x : elem) : option elem :=
  match find (fun kv => elem_eqb (fst kv) x) sw with Some kv => Some (snd kv) | None => None end.

(** [rv.value()], edward/models/random_variable.py:283-286. *)
Definition value_of (g : graph) (r : nat) : option nat := option_map rvalue (nth_error (rvs g) r).

(** The loop of random_variables.py:224-233 over the random variables among
    the keys: the value that replaces their sample. *)
Definition rv_key (g : graph) (sw : swap) (t : nat) : option elem :=
  match find (fun kv => match fst kv with
                        | XRV r => match value_of g r with Some v => Nat.eqb v t | None => false end
                        | _ => false end) sw with
  | Some (_, XRV q) => option_map XT (value_of g q)
  | Some (_, y) => Some y
  | None => None
  end.

(** Is there a variable of that name in tf.global_variables(),
    random_variables.py:239-240? *)
Definition is_var (g : graph) (t : nat) : bool :=
  match nth_error (ops g) t with Some d => match okind d with KVar => true | _ => false end | None => false end.

(** [isinstance(org_instance, tf.Variable)], random_variables.py:245. *)
Definition is_xvar (x : elem) : bool := match x with XVar _ => true | _ => false end.

(** random_variables.py:215-252: [inl y] if copy returns [y] there, otherwise
    [inr y] with the instance [y] it continues with. *)
Definition front (g : graph) (sw : swap) (replace_itself copy_q : bool) (x : elem) : elem + elem :=
  let on_swap y := if copy_q then inr y else inl y in
  let s1 :=
    match (if replace_itself then lookup sw x else None) with
    | Some y => on_swap y
    | None =>
      match x with
      | XT t =>
        match (if replace_itself then rv_key g sw t else None) with
        | Some y => on_swap y
        | None => inr x
        end
      | _ => inr x
      end
    end in
  match s1 with
  | inl y => inl y
  | inr y =>
    match y with
    | XT t | XVar t =>
      if is_var g t then
        match (if replace_itself then lookup sw (XVar t) else None) with
        | Some z =>
          if negb copy_q || is_xvar z then inl z
          else match z with
               | XT u => if is_var g u then inl (XVar u) else inr z
               | _ => inr z
               end
        | None => inl (XVar t)
        end
      else inr y
    | _ => inr y
    end
  end.

(** Position of the first element that satisfies a test: the search by name of
    random_variables.py:257-268. *)
Fixpoint find_index {A} (f : A -> bool) (l : list A) : option nat :=
  match l with
  | [] => None
  | a :: l' => if f a then Some 0 else option_map S (find_index f l')
  end.

(** [graph.as_graph_element(name)] and the search among random_variables(),
    random_variables.py:259-266. *)
Definition op_named (g : graph) (n : string) : option nat :=
  find_index (fun d => String.eqb n (oname d)) (ops g).
(** The search among random_variables(), random_variables.py:263-266. *)
Definition rv_named (g : graph) (n : string) : option nat :=
  find_index (fun d => String.eqb n (rname d)) (rvs g).

(** "If an instance of the same name exists, return it",
    random_variables.py:254-268; [new_name] is [scope + name]. *)
Definition find_copy (g : graph) (scope : string) (x : elem) : option elem :=
  match x with
  | XRV r => match nth_error (rvs g) r with
             | Some d => option_map XRV (rv_named g (scope ++ rname d))
             | None => None end
  | XT t => match nth_error (ops g) t with
            | Some d => option_map XT (op_named g (scope ++ oname d))
            | None => None end
  | XOp t => match nth_error (ops g) t with
             | Some d => option_map XOp (op_named g (scope ++ oname d))
             | None => None end
  | XVar _ => None
  end.

(** The dataflow graph as get_parents (random_variables.py:642-691) sees it. *)
Fixpoint dataflow_from (i : nat) (l : list op) : list Graph.op :=
  match l with
  | [] => []
  | d :: l' => Graph.mkop (oins d) [i] :: dataflow_from (S i) l'
  end.
(** The same for a whole graph (random_variables.py:642-691). *)
Definition dataflow (g : graph) : Graph.graph :=
  Graph.mkgraph (dataflow_from 0 (ops g))
    (fun r => match value_of g r with Some v => v | None => length (ops g) end) (fun v => v).

(** [get_parents(org_instance)], random_variables.py:273-276. *)
Definition parents (pick : nat -> nat) (g : graph) (x : elem) : list elem :=
  let q n := match Graph.get_parents (dataflow g) (seq 0 (length (rvs g))) pick
                     (Graph.enough (dataflow g)) n with
             | Some l => map XRV l
             | None => []
             end in
  match x with
  | XRV r => q (Graph.NRV r)
  | XT t => q (Graph.NT t)
  | _ => []
  end.

(** convert_to_tensor of an element, random_variables.py:386-391; an
    operation cannot be an input. *)
Definition as_tensor (g : graph) (x : elem) : option nat :=
  match x with
  | XT t | XVar t => Some t
  | XRV r => value_of g r
  | XOp _ => None
  end.

(** What a call returns or raises (no lines of its own); [Fuel] is no outcome
    of the code (random_variables.py:139-445: every branch of copy). *)
Inductive res (A : Type) : Type := Ok (a : A) | Exc | Fuel.
Arguments Ok {A} a.
Arguments Exc {A}.
Arguments Fuel {A}.

(** Change an element of a list: the append of new_op._add_input,
    random_variables.py:391. *)
Fixpoint update_nth {A} (i : nat) (f : A -> A) (l : list A) : list A :=
  match l, i with
  | [], _ => []
  | a :: l', 0 => f a :: l'
  | a :: l', S j => a :: update_nth j f l'
  end.

(** graph._add_op and new_op._add_input, random_variables.py:362-372,386-391. *)
Definition add_op (g : graph) (d : op) : graph := mkgraph (ops g ++ [d]) (rvs g).
(** new_op._add_input, random_variables.py:386-391. *)
Definition add_input (g : graph) (o t : nat) : graph :=
  mkgraph (update_nth o (fun d => mkop (oname d) (okind d) (oins d ++ [t])) (ops g)) (rvs g).
(** The registration of a new random variable, random_variables.py:301. *)
Definition add_rv (g : graph) (d : rvdef) : graph := mkgraph (ops g) (rvs g ++ [d]).

(** Names of operations are made unique by TensorFlow; the number appended is
    simplified to "_1" repeated (random_variables.py:362-372). *)
Fixpoint unique (fuel : nat) (g : graph) (n : string) : string :=
  match fuel with
  | 0 => n
  | S f => match op_named g n with Some _ => unique f g (n ++ "_1") | None => n end
  end.

Section Loops.
Variable c : graph -> elem -> graph * res elem.

(** A loop of recursive calls, random_variables.py:275-276,282-292. *)
Fixpoint copy_list (g : graph) (l : list elem) : graph * res (list elem) :=
  match l with
  | [] => (g, Ok [])
  | x :: l' =>
    match c g x with
    | (g1, Ok y) =>
      match copy_list g1 l' with
      | (g2, Ok ys) => (g2, Ok (y :: ys))
      | (g2, r) => (g2, r)
      end
    | (g1, Exc) => (g1, Exc)
    | (g1, Fuel) => (g1, Fuel)
    end
  end.

(** The loop over the inputs of an operation, random_variables.py:386-391. *)
Fixpoint copy_inputs (g : graph) (o : nat) (l : list nat) : graph * res unit :=
  match l with
  | [] => (g, Ok tt)
  | i :: l' =>
    match c g (XT i) with
    | (g1, Ok y) =>
      match as_tensor g1 y with
      | Some t => copy_inputs (add_input g1 o t) o l'
      | None => (g1, Exc)
      end
    | (g1, Exc) => (g1, Exc)
    | (g1, Fuel) => (g1, Fuel)
    end
  end.
End Loops.

(** The tensors a list of arguments stands for,
    edward/models/random_variable.py:76-138. *)
Fixpoint tensors_of (g : graph) (l : list elem) : option (list nat) :=
  match l with
  | [] => Some []
  | x :: l' => match as_tensor g x, tensors_of g l' with
               | Some t, Some ts => Some (t :: ts)
               | _, _ => None
               end
  end.
(** Build a random variable of class [cls] from its arguments: its sampling
    operation and the registration of edward/models/random_variable.py:76-138,
    called at random_variables.py:294-305. *)
Definition build_rv (g : graph) (cls : nat) (args : list elem) (name : string) : graph * res elem :=
  match tensors_of g args with
  | None => (g, Exc)
  | Some ts =>
    let v := length (ops g) in
    let n := unique (S v) g (name ++ "sample") in
    let g1 := add_op g (mkop n (KOp cls) ts) in
    (add_rv g1 (mkrv name cls args v), Ok (XRV (length (rvs g))))
  end.

(** The elements whose parents are not copied first: tf.Operation,
    random_variables.py:273-274. *)
Definition is_op (x : elem) : bool := match x with XOp _ => true | _ => false end.

(** [copy], random_variables.py:139-445.  [pick] is the order in which
    get_parents pops its set; [Fuel] means that the fuel ran out. *)
Fixpoint copy (fuel : nat) (pick : nat -> nat) (sw : swap) (scope : string)
    (replace_itself copy_q copy_parent_rvs : bool) (g : graph) (x : elem) : graph * res elem :=
  match fuel with
  | 0 => (g, Fuel)
  | S f =>
    match front g sw replace_itself copy_q x with
    | inl y => (g, Ok y)
    | inr y =>
      match find_copy g scope y with
      | Some z => (g, Ok z)
      | None =>
        match (if copy_parent_rvs && negb (is_op y)
               then copy_list (copy f pick sw scope true copy_q true) g (parents pick g y)
               else (g, Ok [])) with
        | (g1, Exc) => (g1, Exc)
        | (g1, Fuel) => (g1, Fuel)
        | (g1, Ok _) =>
          match y with
          | XRV r =>
            match nth_error (rvs g1) r with
            | None => (g1, Exc)
            | Some d =>
              match copy_list (copy f pick sw scope true copy_q false) g1 (rargs d) with
              | (g2, Ok args) => build_rv g2 (rclass d) args (scope ++ rname d)
              | (g2, Exc) => (g2, Exc)
              | (g2, Fuel) => (g2, Fuel)
              end
            end
          | XT t =>
            match nth_error (ops g1) t with
            | None => (g1, Exc)
            | Some d =>
              match okind d with
              | KPlace => (g1, Ok (XT t))
              | _ =>
                match copy f pick sw scope true copy_q false g1 (XOp t) with
                | (g2, Ok (XOp o)) => (g2, Ok (XT o))
                | (g2, Ok _) => (g2, Exc)
                | (g2, r) => (g2, r)
                end
              end
            end
          | XOp o =>
            match nth_error (ops g1) o with
            | None => (g1, Exc)
            | Some d =>
              match okind d with
              | KQueue => (g1, Ok (XOp o))
              | k =>
                let n := length (ops g1) in
                let g2 := add_op g1 (mkop (scope ++ oname d) k []) in
                match copy_inputs (copy f pick sw scope true copy_q false) g2 n (oins d) with
                | (g3, Ok _) => (g3, Ok (XOp n))
                | (g3, Exc) => (g3, Exc)
                | (g3, Fuel) => (g3, Fuel)
                end
              end
            end
          | XVar _ => (g1, Exc)
          end
        end
      end
    end
  end.

(** [scope += '/'] unless it ends in one, random_variables.py:212-213; the
    empty string has no last character. *)
Definition with_slash (scope : string) : option string :=
  match get (String.length scope - 1) scope with
  | Some c => Some (if Ascii.eqb c "/" then scope else scope ++ "/")
  | None => None
  end.

(** The call a user makes: [ed.copy(x, dict_swap, scope, replace_itself,
    copy_q, copy_parent_rvs)] (random_variables.py:139-140). *)
Definition ed_copy_at (fuel : nat) (pick : nat -> nat) (sw : swap) (scope : string)
    (replace_itself copy_q copy_parent_rvs : bool) (g : graph) (x : elem) : graph * res elem :=
  match with_slash scope with
  | Some s => copy fuel pick sw s replace_itself copy_q copy_parent_rvs g x
  | None => (g, Exc)
  end.
(** The same with [replace_itself] left at its default
    (random_variables.py:139-140). *)
Definition ed_copy (fuel : nat) (pick : nat -> nat) (sw : swap) (scope : string)
    (copy_q copy_parent_rvs : bool) (g : graph) (x : elem) : graph * res elem :=
  ed_copy_at fuel pick sw scope false copy_q copy_parent_rvs g x.
