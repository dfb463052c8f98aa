(** * The symbolic simplifier of edward/inferences/conjugacy/simplify.py

    Expressions are Python tuples [(head, arg, ..., arg)].  A head is the
    string '#x', a number, a tf.Tensor, one of the strings '#Add', '#Sub', ...
    or a string '#CPow<p>' where <p> is a number printed with '%.4e'.

    Simplifications.  Python floats are modelled by rationals [Q]; the power
    printed with '%.4e' and read back is [round4] of the number.  A rule that
    raises (IndexError on a missing argument, ValueError on the truth value of
    an array) gives [Raises].  Tensors are numbers; what the rules ask
    TensorFlow about a tensor (is it the output of a Cast, what is its
    constant value) is the record [tinfo]. *)
From Coq Require Import List Arith ZArith QArith Bool.
Import ListNotations.
Open Scope nat_scope.

(** Keys of [_extractable_nodes], simplify.py:16-30. *)
Inductive sym : Type :=
| SAdd | SSub | SMul | SLog | SExp | SPow | SSquare | SRecip | SSqrt
| SIdentity | SOneMinus | SOneHot.

(** First components of the tuples built by simplify.py:33-48, 126-317. *)
Inductive head : Type :=
| HX
| HNum (q : Q)
| HTens (t : nat)
| HSym (s : sym)
| HCPow (q : Q).

(** The tuples of simplify.py:33-48. *)
Inductive expr : Type := Node (h : head) (args : list expr).

(** Equality of the strings, simplify.py:197, 222. *)
Definition sym_eqb (a b : sym) : bool :=
  match a, b with
  | SAdd, SAdd | SSub, SSub | SMul, SMul | SLog, SLog | SExp, SExp
  | SPow, SPow | SSquare, SSquare | SRecip, SRecip | SSqrt, SSqrt
  | SIdentity, SIdentity | SOneMinus, SOneMinus | SOneHot, SOneHot => true
  | _, _ => false
  end.

(** What is known statically about a tensor: is its operation a Cast
    (simplify.py:309) and what does tf.contrib.util.constant_value return
    (simplify.py:301): nothing, a scalar, or an array with several entries. *)
Inductive cval : Type := CUnknown | CScalar (q : Q) | CArray.
(** What simplify.py:301 and 309 ask about tensors. *)
Record tinfo : Type := mktinfo { is_cast : nat -> bool; const_val : nat -> cval }.

(** A TensorFlow expression below a tensor: number, operation type when it is
    a key of [_extractable_nodes], and inputs; the recursion of
    simplify.py:33-48 sees the graph as such a tree. *)
Inductive tgraph : Type := TG (t : nat) (ty : option sym) (inputs : list tgraph).

(** [symbolic_suff_stat], simplify.py:33-48. *)
Fixpoint symbolic_suff_stat (base : nat) (stop : list nat) (g : tgraph) : expr :=
  match g with
  | TG t ty ins =>
    if t =? base then Node HX []
    else if existsb (Nat.eqb t) stop then Node (HTens t) []
    else Node (match ty with Some s => HSym s | None => HTens t end)
              (map (symbolic_suff_stat base stop) ins)
  end.

(** Result of an unwrapped simplification function: None, an expression, or
    an exception (simplify.py:101-112). *)
Inductive res : Type := Nothing | Rewrites (e : expr) | Raises.

(** ** Printing a power with '%.4e' and reading it back

    simplify.py:143,159: the decimal number with five significant digits
    nearest to [q], ties to even.  Simplification: the binary representation
    error of the number read back (at most half a unit in the last place of a
    double) is ignored. *)
Fixpoint scale_up (fuel : nat) (n d : Z) (k : Z) : Z * Z * Z :=
  match fuel with
  | O => (n, d, k)
  | S f => if (n <? 10000 * d)%Z then scale_up f (n * 10)%Z d (k - 1)%Z else (n, d, k)
  end.
(** '%.4e', likewise: too large mantissas (simplify.py:143, 159). *)
Fixpoint scale_down (fuel : nat) (n d : Z) (k : Z) : Z * Z * Z :=
  match fuel with
  | O => (n, d, k)
  | S f => if (100000 * d <=? n)%Z then scale_down f n (d * 10)%Z (k + 1)%Z else (n, d, k)
  end.
(** Rounding half to even (simplify.py:143, 159). *)
Definition half_even (n d : Z) : Z :=
  let m := (n / d)%Z in
  let r := (n mod d)%Z in
  if (2 * r <? d)%Z then m
  else if (d <? 2 * r)%Z then (m + 1)%Z
  else if Z.even m then m else (m + 1)%Z.
(** Powers of ten (simplify.py:143, 159). *)
Definition ten_to (k : Z) : Q :=
  match k with
  | Z0 => 1%Q
  | Zpos p => inject_Z (10 ^ Zpos p)
  | Zneg p => (1 # (10 ^ p))%Q
  end.
(** float('%.4e' % q) (simplify.py:143, 159). *)
Definition round4 (q : Q) : Q :=
  let n := Z.abs (Qnum q) in
  let d := Zpos (Qden q) in
  if (n =? 0)%Z then 0%Q
  else
    let bound := Z.to_nat (Z.log2 n + Z.log2 d + 8)%Z in
    let '(n1, d1, k1) := scale_up bound n d 0%Z in
    let '(n2, d2, k2) := scale_down bound n1 d1 k1 in
    let m := half_even n2 d2 in
    Qred (inject_Z (Z.sgn (Qnum q) * m) * ten_to k2).

(** ** The simplification functions, in registration order *)

(** [identity_op_simplify], simplify.py:126-129. *)
Definition identity_op_simplify (e : expr) : res :=
  match e with
  | Node (HSym SIdentity) (a :: _) => Rewrites a
  | Node (HSym SIdentity) [] => Raises
  | _ => Nothing
  end.

(** [_power_ops], simplify.py:132-136. *)
Definition power_ops (h : head) : option Q :=
  match h with
  | HSym SRecip => Some (-1)%Q
  | HSym SSquare => Some 2%Q
  | HSym SSqrt => Some (1 # 2)%Q
  | _ => None
  end.

(** [power_op_simplify], simplify.py:139-143. *)
Definition power_op_simplify (e : expr) : res :=
  match e with
  | Node h args =>
    match power_ops h with
    | Some q => Rewrites (Node (HCPow (round4 q)) args)
    | None => Nothing
    end
  end.

(** [pow_simplify], simplify.py:146-159. *)
Definition pow_simplify (e : expr) : res :=
  match e with
  | Node (HCPow p) args =>
    match args with
    | [] => Raises
    | Node (HCPow q) sub :: _ =>
      match sub with
      | [] => Raises
      | a :: _ =>
        if Qeq_bool (q * p) 1 then Rewrites a
        else Rewrites (Node (HCPow (round4 (Qred (q * p)))) [a])
      end
    | _ => Nothing
    end
  | _ => Nothing
  end.

(** [log_pow_simplify], simplify.py:162-167. *)
Definition log_pow_simplify (e : expr) : res :=
  match e with
  | Node (HSym SLog) args =>
    match args with
    | [] => Raises
    | Node (HCPow q) sub :: _ =>
      match sub with
      | [] => Raises
      | a :: _ => Rewrites (Node (HSym SMul) [Node (HNum q) []; Node (HSym SLog) [a]])
      end
    | Node (HSym SPow) sub :: _ =>
      match sub with
      | a :: p :: _ => Rewrites (Node (HSym SMul) [p; Node (HSym SLog) [a]])
      | _ => Raises
      end
    | _ => Nothing
    end
  | _ => Nothing
  end.

(** [log_mul_simplify], simplify.py:170-173. *)
Definition log_mul_simplify (e : expr) : res :=
  match e with
  | Node (HSym SLog) args =>
    match args with
    | [] => Raises
    | Node (HSym SMul) ms :: _ =>
      Rewrites (Node (HSym SAdd) (map (fun i => Node (HSym SLog) [i]) ms))
    | _ => Nothing
    end
  | _ => Nothing
  end.

(** [pow_mul_simplify], simplify.py:176-181.  The generator of line 181 reads
    [expr[2]] only if there is a factor. *)
Definition pow_mul_simplify (e : expr) : res :=
  match e with
  | Node (HCPow q) args =>
    match args with
    | [] => Raises
    | Node (HSym SMul) ms :: _ =>
      Rewrites (Node (HSym SMul) (map (fun i => Node (HCPow q) [i]) ms))
    | _ => Nothing
    end
  | Node (HSym SPow) args =>
    match args with
    | [] => Raises
    | [Node (HSym SMul) []] => Rewrites (Node (HSym SMul) [])
    | [Node (HSym SMul) (_ :: _)] => Raises
    | Node (HSym SMul) ms :: p :: _ =>
      Rewrites (Node (HSym SMul) (map (fun i => Node (HSym SPow) [i; p]) ms))
    | _ => Nothing
    end
  | _ => Nothing
  end.

(** The loop of simplify.py:189-193: the first argument that is a sum, with
    the arguments before and after it. *)
Fixpoint split_add (before : list expr) (args : list expr)
  : option (list expr * list expr) :=
  match args with
  | [] => None
  | Node (HSym SAdd) js :: rest => Some (before ++ rest, js)
  | a :: rest => split_add (before ++ [a]) rest
  end.

(** [mul_add_simplify], simplify.py:184-193. *)
Definition mul_add_simplify (e : expr) : res :=
  match e with
  | Node (HSym SMul) args =>
    match split_add [] args with
    | Some (others, js) =>
      Rewrites (Node (HSym SAdd) (map (fun j => Node (HSym SMul) (others ++ [j])) js))
    | None => Nothing
    end
  | _ => Nothing
  end.

(** expr[0] == op (simplify.py:199, 224). *)
Definition is_sym (s : sym) (e : expr) : bool :=
  match e with Node (HSym s') _ => sym_eqb s s' | _ => false end.

(** expr[1:] (simplify.py:200, 225). *)
Definition args_of (e : expr) : list expr := match e with Node _ l => l end.

(** [commutative_simplify], simplify.py:196-208. *)
Definition commutative_simplify (op : sym) (e : expr) : res :=
  if is_sym op e then
    if existsb (is_sym op) (args_of e) then
      Rewrites (Node (HSym op)
        (flat_map (fun i => if is_sym op i then args_of i else [i]) (args_of e)))
    else Nothing
  else Nothing.

(** [add_add_simplify], simplify.py:211-213. *)
Definition add_add_simplify : expr -> res := commutative_simplify SAdd.
(** [mul_mul_simplify], simplify.py:216-218. *)
Definition mul_mul_simplify : expr -> res := commutative_simplify SMul.

(** The test [i[0] == v], simplify.py:229 and 255: only numbers are equal to a
    number. *)
Definition is_num (v : Q) (e : expr) : bool :=
  match e with Node (HNum q) _ => Qeq_bool q v | _ => false end.

(** [identity_simplify], simplify.py:221-237; [new_args[0]] raises when every
    argument was the identity element. *)
Definition identity_simplify (op : sym) (v : Q) (e : expr) : res :=
  if is_sym op e then
    match args_of e with
    | [a] => Rewrites a
    | args =>
      if existsb (is_num v) args then
        match filter (fun i => negb (is_num v i)) args with
        | [] => Raises
        | [a] => Rewrites a
        | new_args => Rewrites (Node (HSym op) new_args)
        end
      else Nothing
    end
  else Nothing.

(** [mul_one_simplify], simplify.py:240-242. *)
Definition mul_one_simplify : expr -> res := identity_simplify SMul 1%Q.
(** [add_zero_simplify], simplify.py:245-247. *)
Definition add_zero_simplify : expr -> res := identity_simplify SAdd 0%Q.

(** [mul_zero_simplify], simplify.py:250-256. *)
Definition mul_zero_simplify (e : expr) : res :=
  if is_sym SMul e then
    if existsb (is_num 0%Q) (args_of e) then Rewrites (Node (HNum 0%Q) []) else Nothing
  else Nothing.

(** The double loop of simplify.py:263-267. *)
Fixpoint square_terms (args : list expr) : list expr :=
  match args with
  | [] => []
  | a :: rest =>
    Node (HCPow 2%Q) [a] ::
    map (fun b => Node (HSym SMul) [Node (HNum 2%Q) []; a; b]) rest ++
    square_terms rest
  end.

(** [square_add_simplify], simplify.py:259-268. *)
Definition square_add_simplify (e : expr) : res :=
  match e with
  | Node (HCPow q) args =>
    if Qeq_bool q 2 then
      match args with
      | [] => Raises
      | Node (HSym SAdd) js :: _ => Rewrites (Node (HSym SAdd) (square_terms js))
      | _ => Nothing
      end
    else Nothing
  | _ => Nothing
  end.

(** [expr_contains(expr, '#x')], simplify.py:271-277. *)
Fixpoint contains_x (e : expr) : bool :=
  match e with
  | Node HX _ => true
  | Node _ args => existsb contains_x args
  end.

(** [add_const_simplify], simplify.py:280-293. *)
Definition add_const_simplify (e : expr) : res :=
  if is_sym SAdd e then
    if existsb (fun i => negb (contains_x i)) (args_of e) then
      Rewrites (Node (HSym SAdd) (filter contains_x (args_of e)))
    else Nothing
  else Nothing.

(** [one_m_simplify], simplify.py:296-303. *)
Definition one_m_simplify (ti : tinfo) (e : expr) : res :=
  match e with
  | Node (HSym SSub) args =>
    match args with
    | [] => Raises
    | Node (HTens t) _ :: rest =>
      match const_val ti t with
      | CScalar q =>
        if Qeq_bool q 1 then
          match rest with
          | b :: _ => Rewrites (Node (HSym SOneMinus) [b])
          | [] => Raises
          end
        else Nothing
      | CArray => Raises
      | CUnknown => Nothing
      end
    | _ => Nothing
    end
  | _ => Nothing
  end.

(** [cast_simplify], simplify.py:306-310. *)
Definition cast_simplify (ti : tinfo) (e : expr) : res :=
  match e with
  | Node (HTens t) args =>
    if is_cast ti t then
      match args with a :: _ => Rewrites a | [] => Raises end
    else Nothing
  | _ => Nothing
  end.

(** [onehot_simplify], simplify.py:313-317. *)
Definition onehot_simplify (e : expr) : res :=
  match e with
  | Node (HSym SOneHot) (a :: _ :: _) => Rewrites (Node (HSym SOneHot) [a])
  | _ => Nothing
  end.

(** [_simplify_fns] after registration, simplify.py:76,122. *)
Definition simplify_fns (ti : tinfo) : list (expr -> res) :=
  [ identity_op_simplify; power_op_simplify; pow_simplify; log_pow_simplify;
    log_mul_simplify; pow_mul_simplify; mul_add_simplify; add_add_simplify;
    mul_mul_simplify; mul_one_simplify; add_zero_simplify; mul_zero_simplify;
    square_add_simplify; add_const_simplify; one_m_simplify ti;
    cast_simplify ti; onehot_simplify ].

(** ** Drivers *)

(** A Python call returns a value or raises (simplify.py:79-120). *)
Inductive outcome (A : Type) : Type := Ret (a : A) | Exc.
Arguments Ret {A} _.
Arguments Exc {A}.

(** [wrapped], simplify.py:101-112. *)
Fixpoint wrapped (fn : expr -> res) (e : expr) : outcome (bool * expr) :=
  match fn e with
  | Raises => Exc
  | Rewrites e' => Ret (true, e')
  | Nothing =>
    match e with
    | Node h args =>
      match
        (fix go (l : list expr) : outcome (bool * list expr) :=
           match l with
           | [] => Ret (false, [])
           | a :: l' =>
             match wrapped fn a with
             | Exc => Exc
             | Ret (b, a') =>
               match go l' with
               | Exc => Exc
               | Ret (b', l'') => Ret (b || b', a' :: l'')
               end
             end
           end) args
      with
      | Exc => Exc
      | Ret (b, args') => Ret (b, Node h args')
      end
    end
  end.

(** [repeat_wrapped], simplify.py:114-120; [None] is "out of fuel". *)
Fixpoint repeat_wrapped (fuel : nat) (fn : expr -> res) (did : bool) (e : expr)
  : option (outcome (bool * expr)) :=
  match fuel with
  | O => None
  | S f =>
    match wrapped fn e with
    | Exc => Some Exc
    | Ret (true, e') => repeat_wrapped f fn true e'
    | Ret (false, e') => Some (Ret (did, e'))
    end
  end.

(** The [for] loop of simplify.py:82-84. *)
Fixpoint sweep (fuel : nat) (fns : list (expr -> res)) (did : bool) (e : expr)
  : option (outcome (bool * expr)) :=
  match fns with
  | [] => Some (Ret (did, e))
  | fn :: fns' =>
    match repeat_wrapped fuel fn false e with
    | None => None
    | Some Exc => Some Exc
    | Some (Ret (d, e')) => sweep fuel fns' (did || d) e'
    end
  end.

(** [full_simplify], simplify.py:79-87. *)
Fixpoint full_simplify_with (fuel : nat) (fns : list (expr -> res)) (e : expr)
  : option (outcome expr) :=
  match fuel with
  | O => None
  | S f =>
    match sweep fuel fns false e with
    | None => None
    | Some Exc => Some Exc
    | Some (Ret (true, e')) => full_simplify_with f fns e'
    | Some (Ret (false, e')) => Some (Ret e')
    end
  end.

(** full_simplify with the registered functions, simplify.py:76-87. *)
Definition full_simplify (ti : tinfo) (fuel : nat) (e : expr) : option (outcome expr) :=
  full_simplify_with fuel (simplify_fns ti) e.

(** ** Separation of multipliers, conjugacy.py:205-224 *)

(** A component of a Python tuple: a head or a nested tuple (conjugacy.py:205-217). *)
Inductive item : Type := IHead (h : head) | IExpr (e : expr).

(** A tuple as the list of its components (conjugacy.py:217). *)
Definition items_of (e : expr) : list item :=
  match e with Node h args => IHead h :: map IExpr args end.

(** [extract_s_stat_multipliers], conjugacy.py:205-217. *)
Fixpoint extract_s_stat_multipliers (e : expr) : list expr * list item :=
  match e with
  | Node (HSym SMul) args =>
    (fix go (l : list expr) : list expr * list item :=
       match l with
       | [] => ([], [])
       | i :: l' =>
         let (ms', ss') := go l' in
         if contains_x i then
           let (ms, ss) := extract_s_stat_multipliers i in (ms ++ ms', ss ++ ss')
         else (i :: ms', ss')
       end) args
  | _ => ([], items_of e)
  end.

(** ** Rebuilding tensors from multipliers *)

(** What [reconstruct_expr] returns: a Python number, an existing tensor, or
    the output of a newly created TensorFlow operation (simplify.py:61-73). *)
Inductive built : Type :=
| BNum (q : Q)
| BTens (t : nat)
| BOp (s : sym) (args : list built)
| BPow (b : built) (q : Q).

(** The call of the function found in [_extractable_nodes], simplify.py:9-30,70-72.  tf.add_n and
    [_mul_n] take one list, so that calling them with the tensors as separate
    arguments raises whatever the number of arguments; the other functions
    raise on a wrong number of arguments. *)
Definition tf_apply (s : sym) (args : list built) : outcome built :=
  match s, args with
  | SAdd, _ | SMul, _ => Exc
  | SSub, [_; _] | SPow, [_; _] => Ret (BOp s args)
  | SLog, [_] | SExp, [_] | SSquare, [_] | SRecip, [_] | SSqrt, [_]
  | SOneMinus, [_] | SOneHot, [_] => Ret (BOp s args)
  | SIdentity, [a] => Ret a
  | _, _ => Exc
  end.

(** [reconstruct_expr], simplify.py:61-73. *)
Fixpoint reconstruct_expr (e : expr) : outcome built :=
  match e with
  | Node h args =>
    match h with
    | HNum q => Ret (BNum q)
    | HTens t => Ret (BTens t)
    | HX => Exc
    | _ =>
      match (fix go (l : list expr) : outcome (list built) :=
               match l with
               | [] => Ret []
               | a :: l' =>
                 match reconstruct_expr a with
                 | Exc => Exc
                 | Ret b => match go l' with Exc => Exc | Ret bs => Ret (b :: bs) end
                 end
               end) args with
      | Exc => Exc
      | Ret bs =>
        match h, bs with
        | HCPow q, b :: _ => Ret (BPow b q)
        | HSym s, _ => tf_apply s bs
        | _, _ => Exc
        end
      end
    end
  end.

(** [reconstruct_multiplier], conjugacy.py:220-224. *)
Definition reconstruct_multiplier (ms : list expr) : outcome built :=
  fold_left (fun acc m =>
    match acc with
    | Exc => Exc
    | Ret r => match reconstruct_expr m with
               | Exc => Exc
               | Ret b => Ret (BOp SMul [r; b])
               end
    end) ms (Ret (BNum 1)).
