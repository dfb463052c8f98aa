(** * Vocabulary for C69. *)
From Coq Require Import String List Arith.
From Verif Require Import Transform TransformSpec Default.
Import ListNotations.

(** Entries that stand for one variable are equal. *)
Definition identified (l : list zvar) : Prop := forall a b, In a l -> In b l -> z_rv a = z_rv b -> a = b.

(** The variables an approximation is made of. *)
Definition made_of (q : approx) : list nat :=
  match q with QNormal a b _ => [a; b] | QPoint a _ _ => [a] | QTriL a b _ _ => [a; b] | QEmpirical a _ _ _ => [a] end.

(** One entry for each variable of the list; approximations made of new variables of
    their own, which they share with no other. *)
Definition one_each (n : nat) (l : list zvar) (d : list (zvar * approx)) : Prop :=
  NoDup (map fst d) /\ (forall z, In z (map fst d) <-> In z l) /\
  (forall z q v, In (z, q) d -> In v (made_of q) -> n <= v) /\
  NoDup (flat_map (fun zq => made_of (snd zq)) d).

(** The list form is for variables without sample shape, of dtype float32. *)
Definition plain (z : zvar) : Prop := z_sample z = [] /\ z_dtype z = float32.

Definition has_support (z : zvar) (s : string) : Prop := support (z_rv z) = Some s.
(** Not the result of a transformation. *)
Definition untransformed (z : zvar) : Prop := exists i s, z_rv z = Base i s.
Definition supported (z : zvar) : Prop := exists s, has_support z s /\ continuous s.
(** A support that has as many coordinates as unconstrained space: any but the simplex. *)
Definition same_coordinates (z : zvar) : Prop :=
  support (z_rv z) = None \/ exists s, has_support z s /\ continuous s /\ s <> "simplex"%string.

(** What the checks of every algorithm ask of a pair: equal shapes and dtypes. *)
Definition agree (zu : zvar * given) : Prop := z_shape (fst zu) = u_shape (snd zu) /\ z_dtype (fst zu) = u_dtype (snd zu).
