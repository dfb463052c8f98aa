(** * Meaning of symbolic expressions; vocabulary for C30, C31, C35. *)
From Coq Require Import List Arith ZArith QArith Qreals Reals Bool.
From Verif Require Import Simplify.
Import ListNotations.

(** [s] occurs in [e]. *)
Inductive subexpr (s : expr) : expr -> Prop :=
| sub_refl : subexpr s s
| sub_arg : forall h args a, In a args -> subexpr s a -> subexpr s (Node h args).

Local Open Scope R_scope.

(** ** Values

    What tensors that the simplifier does not look into compute from the
    values of their inputs, and tf.one_hot, seen one entry at a time. *)
Record env : Type := mkenv { opq : nat -> list R -> R; oh : list R -> R }.

(** A Cast keeps the number (TensorFlow: true of int-to-float casts), a tensor
    whose constant value is 1 is 1, and the depth, on and off values of one_hot
    are the default ones ("Makes some assumptions", simplify.py:28). *)
Definition env_ok (ti : tinfo) (en : env) : Prop :=
  (forall t v r, is_cast ti t = true -> opq en t (v :: r) = v) /\
  (forall t q vs, const_val ti t = CScalar q -> Qeq q 1 -> opq en t vs = 1) /\
  (forall v r, oh en (v :: r) = oh en [v]).

Definition rsum (l : list R) : R := fold_right Rplus 0 l.
Definition rprod (l : list R) : R := fold_right Rmult 1 l.

(** Is a rational an integer? *)
Definition is_int (q : Q) : bool := Pos.eqb (Qden (Qred q)) 1.

(** Elementwise power with a constant exponent. *)
Definition cpow (q : Q) (a : R) : R :=
  if is_int q then powerRZ a (Qnum (Qred q)) else Rpower a (Q2R q).

(** The operations; [hd 0] for an argument that is missing. *)
Definition op_val (en : env) (x : R) (h : head) (l : list R) : R :=
  match h with
  | HX => x
  | HNum q => Q2R q
  | HTens t => opq en t l
  | HCPow q => cpow q (hd 0 l)
  | HSym s =>
    match s with
    | SAdd => rsum l
    | SSub => hd 0 l - hd 0 (tl l)
    | SMul => rprod l
    | SLog => ln (hd 0 l)
    | SExp => exp (hd 0 l)
    | SPow => Rpower (hd 0 l) (hd 0 (tl l))
    | SSquare => hd 0 l * hd 0 l
    | SRecip => / hd 0 l
    | SSqrt => sqrt (hd 0 l)
    | SIdentity => hd 0 l
    | SOneMinus => 1 - hd 0 l
    | SOneHot => oh en l
    end
  end.

(** Value of an expression when '#x' is [x]. *)
Fixpoint den (en : env) (x : R) (e : expr) : R :=
  match e with Node h args => op_val en x h (map (den en x) args) end.

(** Value of the tensor at the root of a TensorFlow expression when the base
    tensor has value [x] and the stop tensors their own value. *)
Fixpoint tval (en : env) (base : nat) (stop : list nat) (x : R) (g : tgraph) : R :=
  match g with
  | TG t ty ins =>
    if Nat.eqb t base then x
    else if existsb (Nat.eqb t) stop then opq en t []
    else op_val en x (match ty with Some s => HSym s | None => HTens t end)
           (map (tval en base stop x) ins)
  end.

(** ** The domain on which the algebra of powers and logarithms is valid *)

Definition all {A} (P : A -> Prop) (l : list A) : Prop := fold_right and True (map P l).

(** Positive through and through: every factor, base and summand is. *)
Fixpoint spos (ti : tinfo) (en : env) (x : R) (e : expr) : Prop :=
  match e with
  | Node h args =>
    match h with
    | HSym SMul => all (spos ti en x) args
    | HSym SAdd => args <> [] /\ all (spos ti en x) args
    | HSym SLog => False
    | HSym SPow | HSym SSquare | HSym SRecip | HSym SSqrt | HSym SIdentity
    | HCPow _ =>
      match args with a :: _ => spos ti en x a | [] => False end
    | HTens t =>
      match args with
      | a :: _ => if is_cast ti t then spos ti en x a else 0 < den en x e
      | [] => 0 < den en x e
      end
    | _ => 0 < den en x e
    end
  end.

(** Logarithms, roots and non-integer powers are taken of such expressions,
    reciprocals of non-zero ones; arguments are present. *)
Fixpoint dom (ti : tinfo) (en : env) (x : R) (e : expr) : Prop :=
  match e with
  | Node h args =>
    all (dom ti en x) args /\
    match h, args with
    | HSym SLog, a :: _ => spos ti en x a
    | HSym SSqrt, a :: _ => spos ti en x a
    | HSym SPow, a :: _ :: _ => spos ti en x a
    | HSym SRecip, a :: _ => den en x a <> 0
    | HCPow q, a :: _ =>
      (is_int q = true \/ spos ti en x a) /\ (Qlt q 0 -> den en x a <> 0)
    | HSym SLog, [] | HSym SSquare, [] | HSym SSqrt, [] | HSym SPow, _ | HSym SRecip, [] | HCPow _, [] => False
    | _, _ => True
    end
  end.

(** ** Expressions for which the simplifier is right

    A bound on how far powers of two multiply along a path: '%.4e' is exact
    for 2^-7 ... 2^7 and their negatives. *)
Definition dyadic (k : nat) (q : Q) : Prop :=
  exists z : Z, (Z.abs_nat z <= k)%nat /\ (Qeq q (Qpower 2 z) \/ Qeq q (- Qpower 2 z)).

Fixpoint powers_within (n : nat) (e : expr) : Prop :=
  match e with
  | Node h args =>
    match h with
    | HCPow q => exists k, (k <= n)%nat /\ dyadic k q /\ all (powers_within (n - k)) args
    | HSym SSquare | HSym SSqrt => (1 <= n)%nat /\ all (powers_within (n - 1)) args
    | _ => all (powers_within n) args
    end
  end.

(** No sum and no logarithm anywhere; exponents do not contain '#x'. *)
Fixpoint monomial (e : expr) : Prop :=
  match e with
  | Node h args =>
    all monomial args /\
    match h with
    | HSym SAdd | HSym SLog => False
    | HSym SPow => Forall (fun a => contains_x a = false) (tl args)
    | _ => True
    end
  end.

(** Sums and products-with-constants of logarithms of monomials, squares of
    sums of monomials, and monomials. *)
Inductive linear_form (ti : tinfo) : expr -> Prop :=
| lf_mono : forall e, monomial e -> linear_form ti e
| lf_add : forall args, Forall (linear_form ti) args -> linear_form ti (Node (HSym SAdd) args)
| lf_mul : forall l1 m l2, linear_form ti m ->
    Forall (fun a => monomial a /\ contains_x a = false) (l1 ++ l2) ->
    linear_form ti (Node (HSym SMul) (l1 ++ m :: l2))
| lf_log : forall m, monomial m -> linear_form ti (Node (HSym SLog) [m])
| lf_square : forall ms, Forall monomial ms ->
    linear_form ti (Node (HSym SSquare) [Node (HSym SAdd) ms])
| lf_cpow2 : forall q ms, Qeq q 2 -> Forall monomial ms ->
    linear_form ti (Node (HCPow q) [Node (HSym SAdd) ms])
| lf_identity : forall m, linear_form ti m -> linear_form ti (Node (HSym SIdentity) [m])
| lf_cast : forall t m, is_cast ti t = true -> linear_form ti m ->
    linear_form ti (Node (HTens t) [m]).

(** Equal up to a constant, for all admissible values of '#x'. *)
Definition same_up_to_constant (en : env) (X : R -> Prop) (e e' : expr) : Prop :=
  exists c, forall x, X x -> den en x e = den en x e' + c.

(** Value of a rebuilt tensor; [own t] is the value tensor [t] has in the
    original graph. *)
Fixpoint bval (en : env) (own : nat -> R) (b : built) : R :=
  match b with
  | BNum q => Q2R q
  | BTens t => own t
  | BOp s args => op_val en 0 (HSym s) (map (bval en own) args)
  | BPow b q => cpow q (bval en own b)
  end.

(** Every tensor occurring in [e] has the value its occurrence denotes. *)
Definition own_values (en : env) (own : nat -> R) (x : R) (e : expr) : Prop :=
  forall t args, subexpr (Node (HTens t) args) e -> own t = den en x (Node (HTens t) args).

(** The statistics that occur in the table conjugacy.py:30-58. *)
Definition X : expr := Node HX [].
Definition table_statistics : list expr :=
  [X; Node (HSym SLog) [X]; Node (HSym SLog) [Node (HSym SOneMinus) [X]];
   Node (HSym SOneHot) [X]; Node (HCPow (-1)) [X]; Node (HCPow 2) [X]].
