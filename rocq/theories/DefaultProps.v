(** * C69: approximations created for a list of latent variables. *)
From Coq Require Import String List Arith NArith.
From Verif Require Import Transform TransformSpec Default DefaultSpec DefaultProofs.
From Coq Require Import Reals.
Import ListNotations.
Local Open Scope nat_scope.

(** The full claim: given a list of continuous random variables, every
    algorithm creates for each of them an approximation of its own, of the
    shape of the variable, and MAP and Laplace keep it on the support.  Refuted below for variables with
    sample_shape, variables on the simplex (MAP, Laplace), scalars (Laplace) and
    results of [transform] (MAP); the [_partial] theorems hold of the others. *)

(** KLqp and KLpq accept a list exactly if all its variables are continuous, without
    sample_shape and of dtype float32. *)
Theorem C69_klqp_outcome : forall n l, identified l ->
  (klqp_list n l = DAttributeError <-> exists z, In z l /\ ~ supported z) /\
  (klqp_list n l = DTypeError <-> (forall z, In z l -> supported z) /\ exists z, In z l /\ ~ plain z) /\
  ((exists d, klqp_list n l = DRet d) <-> forall z, In z l -> supported z /\ plain z).
Proof. exact klqp_outcome. Qed.
Print Assumptions C69_klqp_outcome.

(** Each variable then has a Normal of its shape, with a location and a scale of its own. *)
Theorem C69_klqp_partial : forall n l d, identified l -> klqp_list n l = DRet d ->
  one_each n l d /\ forall z q, In (z, q) d -> exists a b, q = QNormal a b (z_shape z).
Proof. exact klqp_entries. Qed.
Print Assumptions C69_klqp_partial.

(** The scale is positive for every value of its variable; every positive scale is
    that of exactly one value. *)
Theorem C69_scale : (forall x, (0 < normal_scale x)%R) /\ (forall y, (0 < y)%R -> exists x, normal_scale x = y) /\
  forall x x', normal_scale x = normal_scale x' -> x = x'.
Proof. exact normal_scales. Qed.
Print Assumptions C69_scale.

(** MAP: each variable has a point mass of its shape, which lies in the support for
    every value of its free parameters; every point of the support is that of
    exactly one value. *)
Theorem C69_map_partial : forall n l d, identified l -> (forall z, In z l -> untransformed z) -> map_list n l = DRet d ->
  one_each n l d /\
  forall z q, In (z, q) d -> exists p b, q = QPoint p b (z_shape z) /\
    forall s, has_support z s ->
      (forall u, in_support s (point_value b u)) /\ (forall v, in_support s v -> exists u, point_value b u = v) /\
      (forall u u', point_value b u = point_value b u' -> u = u').
Proof. exact map_points. Qed.
Print Assumptions C69_map_partial.

(** MAP accepts a list exactly if no variable is on a simplex or on a support without
    transformation, and all are without sample_shape and float32. *)
Theorem C69_map_returns : forall n l, identified l -> (forall z, In z l -> untransformed z) ->
  ((exists d, map_list n l = DRet d) <-> forall z, In z l -> same_coordinates z /\ plain z).
Proof. exact map_returns. Qed.
Print Assumptions C69_map_returns.

(** A variable on another support, a discrete one say, makes MAP raise ValueError. *)
Theorem C69_map_discrete : forall n l, (forall z, In z l -> untransformed z) ->
  (exists z s, In z l /\ has_support z s /\ ~ continuous s) -> map_list n l = DValueError.
Proof. exact map_value_error. Qed.
Print Assumptions C69_map_discrete.

(** Laplace: each variable has a MultivariateNormalTriL of its shape whose
    location stays in the support. *)
Theorem C69_laplace_partial : forall n l d, identified l -> (forall z, In z l -> untransformed z) -> laplace_list n l = DRet d ->
  one_each n l d /\
  forall z q, In (z, q) d -> exists a c b, q = QTriL a c b (z_shape z) /\
    forall s, has_support z s -> forall u, in_support s (point_value b u).
Proof. exact laplace_entries. Qed.
Print Assumptions C69_laplace_partial.

(** Laplace accepts what MAP does except scalars. *)
Theorem C69_laplace_returns : forall n l, identified l -> (forall z, In z l -> untransformed z) ->
  ((exists d, laplace_list n l = DRet d) <-> forall z, In z l -> same_coordinates z /\ plain z /\ batch_event z <> []).
Proof. exact laplace_returns. Qed.
Print Assumptions C69_laplace_returns.

(** Monte Carlo: each variable has an Empirical of ten thousand samples of its own shape
    and dtype; only a sample_shape is refused. *)
Theorem C69_monte_carlo_partial : forall n l, identified l ->
  (monte_carlo_list n l = DTypeError /\ exists z, In z l /\ z_sample z <> []) \/
  (exists d, monte_carlo_list n l = DRet d /\ (forall z, In z l -> z_sample z = []) /\ one_each n l d /\
     forall z q, In (z, q) d -> exists p, q = QEmpirical p 10000%N (z_shape z) (z_dtype z)).
Proof. exact monte_carlo_entries. Qed.
Print Assumptions C69_monte_carlo_partial.

(** Dictionaries are accepted, as they are, exactly if each value has the class
    the algorithm is documented to take and agrees with its key. *)
Theorem C69_dict : forall d,
  (map_dict d = DRet d <-> Forall (fun zu => u_family (snd zu) = FPointMass /\ agree zu) d) /\
  (laplace_dict d = DRet d <-> Forall (fun zu => In (u_family (snd zu)) [FMvnDiag; FMvnTriL; FNormal] /\ agree zu) d) /\
  (monte_carlo_dict d = DRet d <-> Forall (fun zu => u_family (snd zu) = FEmpirical /\ u_sample (snd zu) = [] /\ agree zu) d).
Proof. exact dict_returns. Qed.
Print Assumptions C69_dict.

(** Otherwise they raise TypeError, or ValueError from Monte Carlo. *)
Theorem C69_dict_raises : forall d,
  (map_dict d = DTypeError \/ map_dict d = DRet d) /\
  (laplace_dict d = DTypeError \/ laplace_dict d = DRet d) /\
  (monte_carlo_dict d = DTypeError \/ monte_carlo_dict d = DValueError \/ monte_carlo_dict d = DRet d).
Proof. exact dict_raises. Qed.
Print Assumptions C69_dict_raises.

(** A continuous variable with a sample_shape is refused by all four, with an
    error about a dictionary the user never passed. *)
Theorem C69_sample_shape_refuted : exists z, supported z /\ untransformed z /\ z_dtype z = float32 /\ forall n,
  klqp_list n [z] = DTypeError /\ map_list n [z] = DTypeError /\ laplace_list n [z] = DTypeError /\ monte_carlo_list n [z] = DTypeError.
Proof. exact sample_refuted. Qed.
Print Assumptions C69_sample_shape_refuted.

(** Every variable on a simplex is refused by MAP, whose documentation passes one. *)
Theorem C69_map_simplex_refuted : forall n z, untransformed z -> has_support z "simplex" -> batch_event z <> [] ->
  map_list n [z] = DTypeError.
Proof. exact map_simplex. Qed.
Print Assumptions C69_map_simplex_refuted.

Theorem C69_laplace_simplex_refuted : forall n z, untransformed z -> has_support z "simplex" -> laplace_list n [z] = DValueError.
Proof. exact laplace_simplex. Qed.
Print Assumptions C69_laplace_simplex_refuted.

(** Every scalar is refused by Laplace. *)
Theorem C69_laplace_scalar_refuted : forall n z, untransformed z -> same_coordinates z -> batch_event z = [] ->
  laplace_list n [z] = DIndexError.
Proof. exact laplace_scalar. Qed.
Print Assumptions C69_laplace_scalar_refuted.

(** The point mass for an unconstrained variable that [transform] returned can take
    positive values only. *)
Theorem C69_map_transformed_refuted : exists z d p b, has_support z "real" /\ plain z /\ (forall n, map_list n [z] = DRet (d n)) /\
  (forall n, d n = [(z, QPoint (p n) b (z_shape z))]) /\ forall u, Forall (fun a => (0 < a)%R) (point_value b u).
Proof. exact own_bijector_refuted. Qed.
Print Assumptions C69_map_transformed_refuted.

(** ** Examples *)

(** A probability, a rate of shape (3,) with a batch, and a location, one of them twice. *)
Example C69_demo :
  let p := mkz (Transform.Base 0 (Some "01"%string)) [] [] [] float32 in
  let r := mkz (Transform.Base 1 (Some "nonnegative"%string)) [] [2] [3] float32 in
  let x := mkz (Transform.Base 2 (Some "multivariate_real"%string)) [] [] [4] float32 in
  identified [p; r; x; p] /\ (forall z, In z [p; r; x; p] -> untransformed z) /\
  klqp_list 7 [p; r; x; p] = DRet [(p, QNormal 13 14 []); (r, QNormal 9 10 [2; 3]); (x, QNormal 11 12 [4])] /\
  map_list 7 [p; r; x] =
    DRet [(p, QPoint 7 (Some (Invert Sigmoid)) []); (r, QPoint 8 (Some (Invert Softplus)) [2; 3]); (x, QPoint 9 None [4])] /\
  laplace_list 0 [r; x] = DRet [(r, QTriL 0 1 (Some (Invert Softplus)) [2; 3]); (x, QTriL 2 3 None [4])] /\
  monte_carlo_list 0 [p; x] = DRet [(p, QEmpirical 0 10000%N [] float32); (x, QEmpirical 1 10000%N [4] float32)].
Proof.
  cbn. split.
  { intros a b Ha Hb. cbn in Ha, Hb. intuition subst; reflexivity || discriminate. }
  split.
  { intros z Hz. cbn in Hz. intuition subst; eexists; eexists; reflexivity. }
  repeat split.
Qed.

Example C69_demo_errors :
  let b := mkz (Transform.Base 0 (Some "binary"%string)) [] [] [] 1 in
  let s := mkz (Transform.Base 1 (Some "simplex"%string)) [] [] [3] float32 in
  let x := mkz (Transform.Base 2 (Some "real"%string)) [] [] [] float32 in
  klqp_list 0 [x; b] = DAttributeError /\ map_list 0 [x; b] = DValueError /\ map_list 0 [x; s] = DTypeError /\
  laplace_list 0 [s] = DValueError /\ laplace_list 0 [x] = DIndexError.
Proof. repeat split. Qed.

Example C69_demo_dict :
  let x := mkz (Transform.Base 2 (Some "real"%string)) [] [] [3] float32 in
  map_dict [(x, mkgiven FPointMass [] [3] float32)] = DRet [(x, mkgiven FPointMass [] [3] float32)] /\
  map_dict [(x, mkgiven FNormal [] [3] float32)] = DTypeError /\
  laplace_dict [(x, mkgiven FNormal [] [3] float32)] = DRet [(x, mkgiven FNormal [] [3] float32)] /\
  monte_carlo_dict [(x, mkgiven FEmpirical [2] [2; 3] float32)] = DValueError.
Proof. repeat split. Qed.
