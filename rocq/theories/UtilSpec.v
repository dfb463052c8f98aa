(** * Vocabulary for C49-C51 and C60. *)
From Coq Require Import Reals List Arith.
From Verif Require Import Transform GAN Util.
Import ListNotations.
Local Open Scope R_scope.

(** The open simplex with K entries. *)
Definition on_simplex (K : nat) (p : list R) : Prop := length p = K /\ Forall (fun a => 0 < a) p /\ sumR p = 1.

(** The documented kernel. *)
Definition feature_scale (l : lengthscale) (d : nat) : R := match l with Scalar c => c | PerFeature v => nth d v 0 end.
Definition kernel (l : lengthscale) (variance : R) (x y : list R) : R :=
  variance * exp (- (1 / 2) * sumR (map (fun d => ((nth d x 0 - nth d y 0) / feature_scale l d) ^ 2) (seq 0 (length x)))).

(** The lengthscale has one entry for each feature. *)
Definition fits (l : lengthscale) (D : nat) : Prop := match l with Scalar _ => True | PerFeature v => length v = D end.

Definition entry (m : list (list R)) (i j : nat) : R := nth j (nth i m []) 0.

(** Quadratic form of a matrix with the weights c. *)
Definition quadratic (m : list (list R)) (c : nat -> R) (n : nat) : R :=
  sumR (map (fun i => sumR (map (fun j => c i * c j * entry m i j) (seq 0 n))) (seq 0 n)).

(** Sample variance. *)
Definition sample_variance (v : list R) : R :=
  sumR (map (fun x => (x - reduce_mean v) * (x - reduce_mean v)) v) / (INR (length v) - 1).
