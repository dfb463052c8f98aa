(** * Vocabulary for C71: an interpreter that draws as it goes

    No graph: random variables are drawn when they are created, operators compute
    at once. *)
From Coq Require Import List Arith Bool ZArith QArith.
From Verif Require Import RVProgram.
Import ListNotations.
Open Scope nat_scope.

(** A number of Python, or a value with a type. *)
Inductive sval (V : Type) : Type := SN (c : num) | SV (v : V) (d : dt).
Arguments SN {V}. Arguments SV {V}.

Section Interpreter.
Context {V N : Type}.
Variable const : num -> dt -> V.
Variable bin : bop -> V -> V -> V.
Variable un : uop -> V -> V.
Variable draw : nat -> N -> list V -> V.
(** Noise of the random variables, by order of creation. *)
Variable noise : nat -> N.
(** Values given to random variables, by order of creation. *)
Variable given : nat -> option V.

(** A number at the type of the other operand. *)
Definition number_at (c : num) (d : dt) (f : V -> res (sval V)) : res (sval V) :=
  if fits c d then f (const c d) else TypeError.
(** An operator on two values of type [d]. *)
Definition apply_bin (o : bop) (d : dt) (x y : V) : res (sval V) :=
  if dt_eqb d DBool then TypeError else Ret (SV (bin o x y) (if is_cmp o then DBool else d)).
(** [a o b]. *)
Definition s_binary (o : bop) (a b : sval V) : res (sval V) :=
  match a, b with
  | SN x, SN y => Ret (SN (num_bin o x y))
  | SV x d, SV y d' => if dt_eqb d d' then apply_bin o d x y else ValueError
  | SV x d, SN c => number_at c d (fun y => apply_bin o d x y)
  | SN c, SV y d => number_at c d (fun x => apply_bin o d x y)
  end.
(** [o a]. *)
Definition s_unary (o : uop) (a : sval V) : res (sval V) :=
  match a, o with
  | SN x, _ => match num_un o x with Some y => Ret (SN y) | None => TypeError end
  | SV x d, Item i => Ret (SV (un o x) d)
  | SV x d, _ => if dt_eqb d DBool then TypeError else Ret (SV (un o x) d)
  end.
(** Parameters: numbers have their own types. *)
Definition parameter (s : sval V) : V * dt :=
  match s with SN c => (const c (own_type c), own_type c) | SV v d => (v, d) end.
(** A new random variable, the [k]-th, from values of one floating point type. *)
Definition s_new (k cls : nat) (l : list (sval V)) : res (sval V) :=
  match map parameter l with
  | [] => TypeError
  | (v, d) :: ps =>
    if is_float d && forallb (fun p => dt_eqb d (snd p)) ps then
      Ret (SV (match given k with Some x => x | None => draw cls (noise k) (v :: map fst ps) end) d)
    else ValueError
  end.

(** An expression, with [k] random variables drawn before it: its value and how
    many are drawn after it. *)
Fixpoint interpret (env : list (sval V)) (k : nat) (e : expr) {struct e} : res (nat * sval V) :=
  match e with
  | EVar i => match nth_error env i with Some s => Ret (k, s) | None => NameError end
  | ENum c => Ret (k, SN c)
  | EBin o a b =>
    bind (interpret env k a) (fun r => let (k1, sa) := r in
    bind (interpret env k1 b) (fun r2 => let (k2, sb) := r2 in
    bind (s_binary o sa sb) (fun s => Ret (k2, s))))
  | EUn o a =>
    bind (interpret env k a) (fun r => let (k1, sa) := r in bind (s_unary o sa) (fun s => Ret (k1, s)))
  | ENew cls args =>
    bind (interpret_args env k args) (fun r => let (k1, l) := r in
    bind (s_new k1 cls l) (fun s => Ret (S k1, s)))
  | EIf c a b =>
    bind (interpret env k c) (fun r => let (k1, s) := r in
      match s with
      | SN x => if truth x then interpret env k1 a else interpret env k1 b
      | SV _ _ => TypeError
      end)
  end
with interpret_args (env : list (sval V)) (k : nat) (l : exprs) {struct l} : res (nat * list (sval V)) :=
  match l with
  | Enil => Ret (k, [])
  | Econs e l' =>
    bind (interpret env k e) (fun r => let (k1, s) := r in
    bind (interpret_args env k1 l') (fun r2 => let (k2, ss) := r2 in Ret (k2, s :: ss)))
  end.

(** A program: the values of its variables and the number of random variables. *)
Fixpoint interpret_program (env : list (sval V)) (k : nat) (p : list expr) : res (nat * list (sval V)) :=
  match p with
  | [] => Ret (k, env)
  | e :: p' => bind (interpret env k e) (fun r => let (k1, s) := r in interpret_program (env ++ [s]) k1 p')
  end.
End Interpreter.

(** A comparison and its mirror image agree: [x > y] is [y < x]. *)
Definition mirrored {V} (bin : bop -> V -> V -> V) : Prop :=
  forall x y, bin Gt x y = bin Lt y x /\ bin Ge x y = bin Le y x.

(** What the feed gives to the random variable [r]. *)
Definition given_to {V} (feed : list (nat * V)) (r : nat) : option V :=
  match find (fun f => Nat.eqb (fst f) r) feed with Some f => Some (snd f) | None => None end.

(** A variable of Python shows [s]: the number it holds, or its type and what the
    session fetches for it. *)
Definition shows {V N} const bin un draw (noise : nat -> N) (g : pgraph) (feed : list (nat * V)) (v : pyval)
    (s : sval V) : Prop :=
  match v, s with
  | VN c, SN c' => c = c'
  | VN _, SV _ _ | _, SN _ => False
  | _, SV x d => dtype g (tensor g v) = d /\
      fetch const bin un draw noise g (map (fun f => (VRV (fst f), snd f)) feed) v = Some x
  end.

(** Building the graph and interpreting the program agree: both end with [k]
    random variables and the same values, or with the same exception. *)
Definition agree {V N} const bin un draw (noise : nat -> N) (feed : list (nat * V))
    (b : res (pgraph * list pyval)) (i : res (nat * list (sval V))) : Prop :=
  match b, i with
  | Ret (g, env), Ret (k, out) => k = length (rvals g) /\
      ((forall f, In f feed -> fst f < k) -> Forall2 (shows const bin un draw noise g feed) env out)
  | TypeError, TypeError | ValueError, ValueError | NameError, NameError => True
  | _, _ => False
  end.

(** ** Numbers of Python, and types, in their own words *)

(** What a number amounts to: True is 1 and False is 0. *)
Definition amount (c : num) : Q := match c with NB true => 1 | NB false => 0 | NI z => inject_Z z | NQ q => q end.
(** Classes of numbers. *)
Definition is_bool_num (c : num) : Prop := exists b, c = NB b.
Definition is_int_num (c : num) : Prop := exists z, c = NI z.
Definition is_float_num (c : num) : Prop := exists q, c = NQ q.
(** The class of an arithmetic result: a float if an operand is one, or an int. *)
Definition class_of_result (operands : list num) (c : num) : Prop :=
  (Exists is_float_num operands -> is_float_num c) /\ (~ Exists is_float_num operands -> is_int_num c).
(** [c] is the truth value of [P]. *)
Definition tells (P : Prop) (c : num) : Prop := exists b, c = NB b /\ (b = true <-> P).
(** [a o b] is [c]. *)
Definition computes (o : bop) (a b c : num) : Prop :=
  match o with
  | Add => (amount c == amount a + amount b)%Q /\ class_of_result [a; b] c
  | Sub => (amount c == amount a - amount b)%Q /\ class_of_result [a; b] c
  | Mul => (amount c == amount a * amount b)%Q /\ class_of_result [a; b] c
  | Lt => tells (amount a < amount b)%Q c
  | Gt => tells (amount b < amount a)%Q c
  | Le => tells (amount a <= amount b)%Q c
  | Ge => tells (amount b <= amount a)%Q c
  end.
(** A number turns into a tensor of type [d]: a bool only of bool, a float only of
    floating point, an int of any type of numbers. *)
Definition turns_into (c : num) (d : dt) : Prop :=
  (is_bool_num c /\ d = DBool) \/ (is_int_num c /\ d <> DBool) \/ (is_float_num c /\ (d = DF32 \/ d = DF64)).
(** The type at which a value is passed as a parameter. *)
Inductive passed_at (g : pgraph) : pyval -> dt -> Prop :=
| passed_bool : forall b, passed_at g (VN (NB b)) DBool
| passed_int : forall z, passed_at g (VN (NI z)) DInt
| passed_float : forall q, passed_at g (VN (NQ q)) DF32
| passed_tensor : forall t, passed_at g (VT t) (dtype g t)
| passed_rv : forall r, passed_at g (VRV r) (dtype g (nth r (rvals g) 0)).
(** The graph is sound: values of random variables are operations of the graph. *)
Definition holds (g : pgraph) (v : pyval) : Prop :=
  match v with VN _ => True | VT t => t < length (nodes g) | VRV r => nth r (rvals g) 0 < length (nodes g) end.
(** The expressions [EVar i] for [i] in a list. *)
Fixpoint vars (l : list nat) : exprs := match l with [] => Enil | i :: l' => Econs (EVar i) (vars l') end.
