(** * The conditional given everything else, vocabulary for C79.

    Values of the tensors in one run, and log densities of random variables, on the
    graphs of Graph.v. *)
From Coq Require Import Reals String List Arith.
From Verif Require Import Graph GraphSpec CondJoint CondJointSpec.

Import ListNotations.
Local Open Scope list_scope.
Local Open Scope R_scope.

(** No operation is upstream of itself. *)
Definition no_cycles (g : graph) (h : nat -> nat) : Prop := forall a b, edge g a b -> (h a < h b)%nat.

(** The values of the tensors when the random variables of [coll] have given values
    (they are fed): every other tensor is computed from the inputs of its operation. *)
Definition computed {V} (sem : nat -> list V -> V) (g : graph) (coll : list nat) (env : nat -> V) : Prop :=
  forall t, (forall r, In r coll -> value g r <> t) -> env t = sem t (map env (op_inputs g t)).
(** Two runs in which the other random variables have the same values. *)
Definition same_but {V} (g : graph) (coll : list nat) (z : nat) (env env' : nat -> V) : Prop :=
  forall r, In r coll -> r <> z -> env (value g r) = env' (value g r).

(** The log density of a random variable: of its value and of its parameters. *)
Definition log_density {V} (score : nat -> V -> list V -> R) (params : nat -> list nat) (g : graph) (env : nat -> V) (r : nat) : R :=
  score r (env (value g r)) (map env (params r)).
(** The value of a random variable is computed from its parameters: the case unless it
    was constructed with the argument [value]. *)
Definition sampled_from_parameters (g : graph) (coll : list nat) (params : nat -> list nat) : Prop :=
  forall b p, In b coll -> In p (params b) -> up g (clear g coll (NRV b)) (value g b) p.

(** The value of the tensor that get_log_joint returns. *)
Fixpoint joint_value (lp : crv -> R) (t : ten) : R :=
  match t with
  | LogProb b => lp b
  | AddN l => fold_right Rplus 0 (map (joint_value lp) l)
  end.
Definition add (l : list R) : R := fold_right Rplus 0 l.

(** The results of earlier calls of complete_conditional, by their names. *)
Definition is_result (c : crv) : Prop := occurs "complete_conditional" (cname c) /\ occurs "cond_dist" (cname c).
(** The random variables of a program: each under its own name. *)
Definition named (coll : list nat) (rv : nat -> crv) (who : crv -> nat) : Prop :=
  forall r, In r coll -> who (rv r) = r.
(** The model: the random variables that are not such results. *)
Definition model_of (coll : list nat) (rv : nat -> crv) (model : list nat) : Prop :=
  NoDup model /\ forall r, In r model <-> In r coll /\ ~ is_result (rv r).
