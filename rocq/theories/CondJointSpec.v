(** * Vocabulary for C70. *)
From Coq Require Import Ascii String List Bool Arith.
From Verif Require Import CondJoint.
Import ListNotations.
Local Open Scope string_scope.

Definition digit (c : ascii) : Prop := 48 <= nat_of_ascii c <= 57.

(** Names such as those TensorFlow makes up, "Normal", "Normal_1" or
    "layer_2/w_10": they do not begin with a digit, and an underscore is only
    used to append a number. *)
Definition numbered (n : string) : Prop :=
  (exists c r, n = String c r /\ ~ digit c) /\
  (forall a b, n = a ++ "_" ++ b -> exists d r, b = String d r /\ digit d) /\
  (forall a b, n <> a ++ ":" ++ b).

(** The random variables of a program: a name ends in a slash and belongs to one
    of them. *)
Definition named_apart (l : list crv) : Prop :=
  forall b b', In b l -> In b' l -> cname b = cname b' -> b = b'.
Definition numbered_rvs (l : list crv) : Prop :=
  forall b, In b l -> exists n, cname b = n ++ "/" /\ numbered n.

(** The graph after calls of get_log_joint for these sets, from an empty one. *)
Definition after (hist : list (list crv)) : tensors :=
  fold_left (fun g l => fst (get_log_joint g l)) hist [].

(** [s] occurs in [n]. *)
Definition occurs (s n : string) : Prop := exists a b, n = a ++ s ++ b.
