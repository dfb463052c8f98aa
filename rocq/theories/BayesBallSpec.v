(** * Specification of conditional independence: d-separation. *)
From Coq Require Import List Arith Relations.
Import ListNotations.

Section Spec.
(** [parent p n]: [p] is a parent of [n]. *)
Variable parent : nat -> nat -> Prop.
(** Conditioning set and deterministic (PointMass) nodes. *)
Variable C : nat -> Prop.
Variable det : nat -> Prop.

(** A step of a trail: towards a parent or towards a child. *)
Inductive dir : Type := Up | Down.

Definition adjacent (n : nat) (d : dir) (m : nat) : Prop :=
  match d with
  | Up => parent m n
  | Down => parent n m
  end.

(** [c] is [n] or a descendant of [n]. *)
Definition descendant (n c : nat) : Prop := clos_refl_trans nat parent n c.

(** When a trail arriving at [n] by a step [i] may leave it by a step [o]:
    a chain or a fork is open unless [n] is conditioned on, a fork moreover
    only at a node that is not deterministic, a collider is open iff it or
    one of its descendants is conditioned on. *)
Definition open (n : nat) (i o : dir) : Prop :=
  match i, o with
  | Up, Up => ~ C n
  | Up, Down => ~ C n /\ ~ det n
  | Down, Down => ~ C n
  | Down, Up => exists c, descendant n c /\ C c
  end.

(** A trail is its list of steps and nodes.  The last node must not be
    conditioned on, nor be a deterministic node reached from a child. *)
Fixpoint active (n : nat) (i : dir) (steps : list (dir * nat)) : Prop :=
  match steps with
  | [] => ~ C n /\ (i = Up -> ~ det n)
  | (o, m) :: steps' => open n i o /\ adjacent n o m /\ active m o steps'
  end.

Fixpoint last_node (n : nat) (steps : list (dir * nat)) : nat :=
  match steps with
  | [] => n
  | (_, m) :: steps' => last_node m steps'
  end.

(** Some node of [B] is connected to some node of [A] by an active trail;
    the first node is treated as entered from below. *)
Definition d_connected (A B : list nat) : Prop :=
  exists b steps, In b B /\ active b Up steps /\ In (last_node b steps) A.
End Spec.
