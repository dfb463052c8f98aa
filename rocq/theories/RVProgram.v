(** * Programs that build a model: random variables in Python expressions

    Models the operators, conversions and session functions of
    edward/models/random_variable.py.

    Simplifications.  A program is a list of assignments of expressions built
    from numbers, earlier variables, seven binary and three unary operators,
    conditional expressions and calls of constructors of random variables; the
    other operators of tf.Tensor.OVERLOADABLE_OPERATORS are treated alike.
    Shapes are left out.  A distribution takes parameters of one floating point
    type and its samples have that type.  Random variables created with a given
    [value] or [sample_shape] are not modelled. *)
From Coq Require Import List Arith Bool ZArith QArith.
Import ListNotations.
Open Scope nat_scope.

(** Types of tensors (random_variable.py:306-311). *)
Inductive dt : Type := DBool | DInt | DF32 | DF64.
(** Python's bool, int and float (operands of random_variable.py:276-277). *)
Inductive num : Type := NB (b : bool) | NI (z : Z) | NQ (q : Q).
(** Operators of tf.Tensor.OVERLOADABLE_OPERATORS (random_variable.py:264-265);
    [Item i] is [x\[i\]]. *)
Inductive bop : Type := Add | Sub | Mul | Lt | Gt | Le | Ge.
(** Unary operators (random_variable.py:264-265). *)
Inductive uop : Type := Neg | Abs | Item (i : Z).

(** Expressions of a program, e.g. [Normal(x * 2.0, 1.0)]
    (random_variable.py:66-74, 276-277). *)
Inductive expr : Type :=
| EVar (i : nat)
| ENum (c : num)
| EBin (o : bop) (a b : expr)
| EUn (o : uop) (a : expr)
| ENew (cls : nat) (args : exprs)
| EIf (c a b : expr)
with exprs : Type := Enil | Econs (e : expr) (l : exprs).

(** Operations of the graph: [KDraw r cls] is the sample of random variable [r]
    (random_variable.py:127-129). *)
Inductive kind : Type := KDraw (r cls : nat) | KConst (c : num) | KBin (o : bop) | KUn (o : uop).
(** An operation with its inputs and the type of its output
    (random_variable.py:276-277). *)
Record node : Type := mknode { nkind : kind; nins : list nat; ndt : dt }.
(** The graph, and [value()] of each random variable in order of creation
    (random_variable.py:127-138, 218-220). *)
Record pgraph : Type := mkpgraph { nodes : list node; rvals : list nat }.
(** What a Python variable holds: a number, a tensor or a random variable
    (random_variable.py:276-277). *)
Inductive pyval : Type := VN (c : num) | VT (t : nat) | VRV (r : nat).
(** Results (random_variable.py:171-185, 306-310). *)
Inductive res (A : Type) : Type := Ret (a : A) | TypeError | ValueError | NameError.
Arguments Ret {A}. Arguments TypeError {A}. Arguments ValueError {A}. Arguments NameError {A}.
(** Exceptions pass through (random_variable.py:276-277). *)
Definition bind {A B} (x : res A) (f : A -> res B) : res B :=
  match x with Ret a => f a | TypeError => TypeError | ValueError => ValueError | NameError => NameError end.

(** ** Python's numbers (operands of random_variable.py:276-277) *)

(** A number as a rational (operands of random_variable.py:276-277). *)
Definition to_q (c : num) : Q := match c with NB b => inject_Z (Z.b2z b) | NI z => inject_Z z | NQ q => q end.
(** An int or a bool as an integer (operands of random_variable.py:276-277). *)
Definition to_z (c : num) : option Z := match c with NB b => Some (Z.b2z b) | NI z => Some z | NQ _ => None end.
(** Comparisons have results of type bool (operators of random_variable.py:264-265). *)
Definition is_cmp (o : bop) : bool := match o with Lt | Gt | Le | Ge => true | _ => false end.
(** Operators between two numbers (no random variable: not random_variable.py:276-277). *)
Definition num_bin (o : bop) (a b : num) : num :=
  match o with
  | Lt => NB (negb (Qle_bool (to_q b) (to_q a)))
  | Gt => NB (negb (Qle_bool (to_q a) (to_q b)))
  | Le => NB (Qle_bool (to_q a) (to_q b))
  | Ge => NB (Qle_bool (to_q b) (to_q a))
  | Add => match to_z a, to_z b with Some x, Some y => NI (x + y) | _, _ => NQ (to_q a + to_q b) end
  | Sub => match to_z a, to_z b with Some x, Some y => NI (x - y) | _, _ => NQ (to_q a - to_q b) end
  | Mul => match to_z a, to_z b with Some x, Some y => NI (x * y) | _, _ => NQ (to_q a * to_q b) end
  end.
(** Operators on a number; a number has no items (not random_variable.py:276-277). *)
Definition num_un (o : uop) (a : num) : option num :=
  match o with
  | Neg => Some (match to_z a with Some x => NI (- x) | None => NQ (- to_q a) end)
  | Abs => Some (match to_z a with
                 | Some x => NI (Z.abs x)
                 | None => NQ (if Qle_bool 0 (to_q a) then to_q a else - to_q a) end)
  | Item _ => None
  end.
(** [bool(c)] (compare random_variable.py:171-177). *)
Definition truth (c : num) : bool := negb (Qeq_bool (to_q c) 0).

(** ** Conversion to tensors *)

(** Equality of types ([dtype.is_compatible_with], random_variable.py:307). *)
Definition dt_eqb (a b : dt) : bool :=
  match a, b with DBool, DBool | DInt, DInt | DF32, DF32 | DF64, DF64 => true | _, _ => false end.
(** tf.convert_to_tensor(c, dtype=d) for a number (compare
    random_variable.py:305-311). *)
Definition fits (c : num) (d : dt) : bool :=
  match c, d with
  | NB _, DBool => true
  | NI _, (DInt | DF32 | DF64) => true
  | NQ _, (DF32 | DF64) => true
  | _, _ => false
  end.
(** The type tf.convert_to_tensor(c) chooses (compare random_variable.py:305-311). *)
Definition own_type (c : num) : dt := match c with NB _ => DBool | NI _ => DInt | NQ _ => DF32 end.
(** Floating point types (parameters of random_variable.py:113). *)
Definition is_float (d : dt) : bool := match d with DF32 | DF64 => true | _ => false end.

(** The type of a tensor (random_variable.py:307). *)
Definition dtype (g : pgraph) (t : nat) : dt := match nth_error (nodes g) t with Some n => ndt n | None => DF32 end.
(** [rv.value()], and a tensor itself (random_variable.py:218-220). *)
Definition tensor (g : pgraph) (v : pyval) : nat :=
  match v with VT t => t | VRV r => nth r (rvals g) 0 | VN _ => 0 end.
(** A new operation (TensorFlow; called through random_variable.py:277). *)
Definition add_node (g : pgraph) (n : node) : pgraph := mkpgraph (nodes g ++ [n]) (rvals g).

(** tf.convert_to_tensor: of a random variable by [_tensor_conversion_function]
    (random_variable.py:304-311, 322-323), of a tensor in the same way, of a
    number by a constant. *)
Definition convert (g : pgraph) (want : option dt) (v : pyval) : res (pgraph * nat) :=
  match v with
  | VN c =>
    let d := match want with Some d => d | None => own_type c end in
    if fits c d then Ret (add_node g (mknode (KConst c) [] d), length (nodes g)) else TypeError
  | _ =>
    match want with
    | Some d => if dt_eqb d (dtype g (tensor g v)) then Ret (g, tensor g v) else ValueError
    | None => Ret (g, tensor g v)
    end
  end.

(** ** Operators *)

(** The operator Python calls on the right operand if the left one is a number:
    the reflected comparison (random_variable.py:264-265). *)
Definition mirror (o : bop) : bop := match o with Lt => Gt | Gt => Lt | Le => Ge | Ge => Le | _ => o end.
(** Type of the result (TensorFlow; through random_variable.py:277). *)
Definition result_type (o : bop) (d : dt) : dt := if is_cmp o then DBool else d.

(** [tf.Tensor.__op__(t, v)], to which random_variable.py:276-277 defers; none of
    these operators takes tensors of type bool. *)
Definition tensor_op (g : pgraph) (o : bop) (t : nat) (v : pyval) : res (pgraph * pyval) :=
  bind (convert g (Some (dtype g t)) v) (fun r =>
    let (g1, u) := r in
    if dt_eqb (dtype g t) DBool then TypeError
    else Ret (add_node g1 (mknode (KBin o) [t; u] (result_type o (dtype g t))), VT (length (nodes g1)))).
(** [tf.Tensor.__rop__(t, v)] for a number [v] on the left, to which
    random_variable.py:276-277 defers. *)
Definition tensor_rop (g : pgraph) (o : bop) (t : nat) (v : pyval) : res (pgraph * pyval) :=
  if is_cmp o then tensor_op g (mirror o) t v
  else bind (convert g (Some (dtype g t)) v) (fun r =>
    let (g1, u) := r in
    if dt_eqb (dtype g t) DBool then TypeError
    else Ret (add_node g1 (mknode (KBin o) [u; t] (result_type o (dtype g t))), VT (length (nodes g1)))).

(** [a o b] (random_variable.py:262-284, [_run_op]). *)
Definition binary (g : pgraph) (o : bop) (a b : pyval) : res (pgraph * pyval) :=
  match a, b with
  | VN x, VN y => Ret (g, VN (num_bin o x y))
  | VN _, _ => tensor_rop g o (tensor g b) a
  | _, _ => tensor_op g o (tensor g a) b
  end.
(** [o a] (random_variable.py:262-284, [_run_op]). *)
Definition unary (g : pgraph) (o : uop) (a : pyval) : res (pgraph * pyval) :=
  match a with
  | VN x => match num_un o x with Some y => Ret (g, VN y) | None => TypeError end
  | _ =>
    let t := tensor g a in
    match o, dtype g t with
    | Neg, DBool | Abs, DBool => TypeError
    | _, d => Ret (add_node g (mknode (KUn o) [t] d), VT (length (nodes g)))
    end
  end.

(** ** Constructors *)

(** The parameters become tensors, each of its own type
    (random_variable.py:113). *)
Fixpoint convert_all (g : pgraph) (l : list pyval) : res (pgraph * list nat) :=
  match l with
  | [] => Ret (g, [])
  | v :: l' =>
    bind (convert g None v) (fun r => let (g1, t) := r in
    bind (convert_all g1 l') (fun r2 => let (g2, ts) := r2 in Ret (g2, t :: ts)))
  end.
(** The sample and the registration of a new random variable
    (random_variable.py:113, 127-138). *)
Definition construct (g : pgraph) (cls : nat) (args : list pyval) : res (pgraph * pyval) :=
  bind (convert_all g args) (fun r => let (g1, ts) := r in
    match ts with
    | [] => TypeError
    | t :: _ =>
      let d := dtype g1 t in
      if is_float d && forallb (fun u => dt_eqb d (dtype g1 u)) ts then
        Ret (mkpgraph (nodes g1 ++ [mknode (KDraw (length (rvals g1)) cls) ts d]) (rvals g1 ++ [length (nodes g1)]),
             VRV (length (rvals g1)))
      else ValueError
    end).

(** ** Programs *)

(** Evaluation of an expression by Python: it builds the graph.  The condition of
    a conditional expression must be a number: [__bool__] of a random variable or
    tensor raises (random_variable.py:171-185). *)
Fixpoint build (env : list pyval) (g : pgraph) (e : expr) {struct e} : res (pgraph * pyval) :=
  match e with
  | EVar i => match nth_error env i with Some v => Ret (g, v) | None => NameError end
  | ENum c => Ret (g, VN c)
  | EBin o a b =>
    bind (build env g a) (fun r => let (g1, va) := r in
    bind (build env g1 b) (fun r2 => let (g2, vb) := r2 in binary g2 o va vb))
  | EUn o a => bind (build env g a) (fun r => let (g1, va) := r in unary g1 o va)
  | ENew cls args => bind (build_args env g args) (fun r => let (g1, l) := r in construct g1 cls l)
  | EIf c a b =>
    bind (build env g c) (fun r => let (g1, v) := r in
      match v with
      | VN x => if truth x then build env g1 a else build env g1 b
      | _ => TypeError
      end)
  end
with build_args (env : list pyval) (g : pgraph) (l : exprs) {struct l} : res (pgraph * list pyval) :=
  match l with
  | Enil => Ret (g, [])
  | Econs e l' =>
    bind (build env g e) (fun r => let (g1, v) := r in
    bind (build_args env g1 l') (fun r2 => let (g2, vs) := r2 in Ret (g2, v :: vs)))
  end.

(** A program: each expression is assigned to the next variable (as in the
    examples random_variable.py:57-74). *)
Fixpoint build_program (env : list pyval) (g : pgraph) (p : list expr) : res (pgraph * list pyval) :=
  match p with
  | [] => Ret (g, env)
  | e :: p' => bind (build env g e) (fun r => let (g1, v) := r in build_program (env ++ [v]) g1 p')
  end.

(** A new graph: tf.Graph() (collections of random_variable.py:127-138 empty). *)
Definition empty : pgraph := mkpgraph [] [].

(** ** Sessions *)

Section Session.
Context {V N : Type}.
(** What operations compute: oracles (TensorFlow; random_variable.py:216, 277). *)
Variable const : num -> dt -> V.
Variable bin : bop -> V -> V -> V.
Variable un : uop -> V -> V.
Variable draw : nat -> N -> list V -> V.
Variable noise : nat -> N.

(** [feed_dict] after [_session_run_conversion_feed_function]
    (random_variable.py:296-298): a value for the tensor of a random variable. *)
Definition feed_map (g : pgraph) (feed : list (pyval * V)) : list (nat * V) :=
  map (fun f => (tensor g (fst f), snd f)) feed.
(** The value fed for a tensor (random_variable.py:296-298). *)
Definition fed_value {A} (l : list (nat * A)) (i : nat) : option A :=
  match find (fun f => Nat.eqb (fst f) i) l with Some f => Some (snd f) | None => None end.

(** The value of an operation from the values before it, unless it is fed
    (TensorFlow's session; called at random_variable.py:216). *)
Definition node_value (feed : list (nat * V)) (vals : list V) (n : node) : V :=
  match fed_value feed (length vals) with
  | Some v => v
  | None =>
    let arg i := nth i vals (const (NI 0) DF32) in
    match nkind n, nins n with
    | KDraw r cls, l => draw cls (noise r) (map arg l)
    | KConst c, _ => const c (ndt n)
    | KBin o, a :: b :: _ => bin o (arg a) (arg b)
    | KUn o, a :: _ => un o (arg a)
    | _, _ => const (NI 0) DF32
    end
  end.
(** One session run of the graph; operations are in order of creation
    (random_variable.py:216). *)
Definition run (feed : list (nat * V)) (l : list node) : list V :=
  fold_left (fun vals n => vals ++ [node_value feed vals n]) l [].

(** [sess.run(v, feed_dict)]: random variables are fetched by their values
    ([_session_run_conversion_fetch_function], random_variable.py:292-298); a
    number is no tensor and cannot be fetched. *)
Definition fetch (g : pgraph) (feed : list (pyval * V)) (v : pyval) : option V :=
  match v with
  | VN _ => None
  | _ => nth_error (run (feed_map g feed) (nodes g)) (tensor g v)
  end.
End Session.
