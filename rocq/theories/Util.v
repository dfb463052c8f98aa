(** * Numerical utilities.

    Models edward/util/tensorflow.py:10-188 over the reals.  A vector is a list, a
    matrix the list of its rows. *)
From Coq Require Import Reals List Arith Bool.
From Verif Require Import Ext Transform GAN.
Import ListNotations.
Local Open Scope R_scope.

(** tf.verify_tensor_all_finite (lines 33-34, 124): raises (None) on Inf and NaN. *)
Fixpoint all_finite (l : list ext) : option (list R) :=
  match l with
  | [] => Some []
  | Fin r :: l' => match all_finite l' with Some v => Some (r :: v) | None => None end
  | _ :: _ => None
  end.
(** The same for a matrix (lines 33-34, 124). *)
Fixpoint all_finite_rows (m : list (list ext)) : option (list (list R)) :=
  match m with
  | [] => Some []
  | r :: m' => match all_finite r, all_finite_rows m' with Some v, Some w => Some (v :: w) | _, _ => None end
  end.

(** ** to_simplex (lines 104-150) *)

(** tf.cumprod along a vector (lines 138, 148). *)
Fixpoint cumprod_from (c : R) (l : list R) : list R :=
  match l with [] => [] | x :: l' => c * x :: cumprod_from (c * x) l' end.
(** tf.cumprod (lines 138, 148). *)
Definition cumprod (l : list R) : list R := cumprod_from 1 l.

(** Lines 134-139 (a vector), and each row of lines 143-149. *)
Definition to_simplex_row (x : list R) : list R :=
  let K_minus_one := length x in
  let eq := map (fun i => - ln (INR (K_minus_one - i))) (seq 0 K_minus_one) in
  let z := map (fun p => sigmoid (fst p + snd p)) (combine eq x) in
  let pil := z ++ [1] in
  let piu := 1 :: map (fun v => 1 - v) z in
  map (fun p => fst p * snd p) (combine (cumprod piu) pil).

(** 1-D input (lines 122-139). *)
Definition to_simplex (x : list ext) : option (list R) :=
  match all_finite x with Some v => Some (to_simplex_row v) | None => None end.
(** 2-D input (lines 122-126, 141-149). *)
Definition to_simplex_rows (x : list (list ext)) : option (list (list R)) :=
  match all_finite_rows x with Some m => Some (map to_simplex_row m) | None => None end.

(** ** dot (lines 10-45) *)

(** One entry of tf.matmul (lines 41, 45, 99). *)
Definition inner (a b : list R) : R := sumR (map (fun p => fst p * snd p) (combine a b)).
(** A column of the matrix (line 41). *)
Definition column (m : list (list R)) (j : nat) : list R := map (fun r => nth j r 0) m.

(** vec x mat (lines 38-41) for a matrix with [width] columns; None: tf.matmul raises. *)
Definition dot_vec_mat (vec : list R) (mat : list (list R)) (width : nat) : option (list R) :=
  if Nat.eqb (length vec) (length mat) then Some (map (fun j => inner vec (column mat j)) (seq 0 width)) else None.
(** mat x vec (lines 42-45). *)
Definition dot_mat_vec (mat : list (list R)) (width : nat) (vec : list R) : option (list R) :=
  if Nat.eqb width (length vec) then Some (map (fun r => inner r vec) mat) else None.

(** ** rbf (lines 48-101) *)

(** A lengthscale: a scalar, or one number for each feature (lines 65-66, 78). *)
Inductive lengthscale : Type := Scalar (l : R) | PerFeature (l : list R).

(** tf.assert_positive of a number (lines 80-81). *)
Definition positive (x : R) : bool := if Rlt_dec 0 x then true else false.
(** tf.assert_positive (lines 80-81). *)
Definition lengthscale_positive (l : lengthscale) : bool :=
  match l with Scalar x => positive x | PerFeature v => forallb positive v end.

(** X / lengthscale (lines 86, 92). *)
Definition scale_row (l : lengthscale) (x : list R) : list R :=
  match l with
  | Scalar c => map (fun a => a / c) x
  | PerFeature v => map (fun p => fst p / snd p) (combine x v)
  end.

(** tf.reduce_sum(tf.square(x), 1) (lines 87, 94). *)
Definition square_norm (x : list R) : R := sumR (map (fun a => a * a) x).

(** Lines 79-101; [X2] None is the default.  None: an assertion fails. *)
Definition rbf (X : list (list R)) (X2 : option (list (list R))) (l : lengthscale) (variance : R) : option (list (list R)) :=
  if andb (lengthscale_positive l) (positive variance) then
    let X := map (scale_row l) X in
    let X2 := match X2 with None => X | Some Y => map (scale_row l) Y end in
    Some (map (fun x => map (fun y => variance * exp (- (square_norm x + square_norm y - 2 * inner x y) / 2)) X2) X)
  else None.

(** ** get_control_variate_coef (lines 153-188) *)

(** f and h of the same length n (lines 178-188). *)
Definition control_variate_coef (f h : list R) : R :=
  let f_mu := reduce_mean f in
  let h_mu := reduce_mean h in
  let n := INR (length f) in
  let cov_fh := sumR (map (fun p => (fst p - f_mu) * (snd p - h_mu)) (combine f h)) / (n - 1) in
  let var_h := sumR (map (fun b => (b - h_mu) * (b - h_mu)) h) / (n - 1) in
  cov_fh / var_h.
