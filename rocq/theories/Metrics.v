(** * Evaluation metrics.

    Models edward/util/metrics.py:10-46 and edward/criticisms/evaluate.py:237-476 over
    the reals (tf.cast to float32 is the identity).  A vector is a list, a tensor of
    rank two or more the list of the matrices along its leading dimensions. *)
From Coq Require Import Reals List Arith Bool.
From Verif Require Import Ext Transform GAN Mode.
Import ListNotations.
Local Open Scope R_scope.

(** tf.equal of two entries (evaluate.py:248). *)
Definition eqb_R (a b : R) : bool := if Req_EM_T a b then true else false.

(** binary_accuracy, sparse_categorical_accuracy and multinomial_accuracy
    (evaluate.py:237-248, 267-279, 335-349) on the flattened tensors. *)
Definition accuracy (y_true y_pred : list R) : R :=
  reduce_mean (map (fun p => if eqb_R (fst p) (snd p) then 1 else 0) (combine y_true y_pred)).

(** categorical_accuracy (evaluate.py:251-264): rows of y_true, classes y_pred. *)
Definition categorical_accuracy (y_true : list (list R)) (y_pred : list R) : R :=
  accuracy (map (fun row => INR (argmax row)) y_true) y_pred.

(** binary_crossentropy (evaluate.py:285-298). *)
Definition binary_crossentropy (y_true y_pred : list R) : R :=
  reduce_mean (map (fun p => cross_entropy (fst p) (snd p)) (combine y_true y_pred)).

(** tf.nn.softmax_cross_entropy_with_logits on one row (evaluate.py:315). *)
Definition softmax_cross_entropy (labels logits : list R) : R :=
  - sumR (map (fun p => fst p * (snd p - ln (sumR (map exp logits)))) (combine labels logits)).
(** categorical_crossentropy (evaluate.py:301-315). *)
Definition categorical_crossentropy (y_true y_pred : list (list R)) : R :=
  reduce_mean (map (fun p => softmax_cross_entropy (fst p) (snd p)) (combine y_true y_pred)).

(** tf.nn.sparse_softmax_cross_entropy_with_logits on one row (evaluate.py:331). *)
Definition sparse_softmax_cross_entropy (label : nat) (logits : list R) : R :=
  ln (sumR (map exp logits)) - nth label logits 0.
(** sparse_categorical_crossentropy (evaluate.py:318-332). *)
Definition sparse_categorical_crossentropy (y_true : list nat) (y_pred : list (list R)) : R :=
  reduce_mean (map (fun p => sparse_softmax_cross_entropy (fst p) (snd p)) (combine y_true y_pred)).

(** kl_divergence (evaluate.py:352-368) on the flattened tensors; y_pred may be zero. *)
Definition kl_summand (t p : R) : ext :=
  if eqb_R t 0 then Fin 0 else emul (Fin t) (esub (elog (Fin t)) (elog (Fin p))).
(** evaluate.py:363-368. *)
Definition kl_divergence (y_true y_pred : list R) : ext :=
  esum (map (fun p => kl_summand (fst p) (snd p)) (combine y_true y_pred)).

(** hinge and squared_hinge (evaluate.py:371-396). *)
Definition hinge (y_true y_pred : list R) : R :=
  reduce_mean (map (fun p => Rmax (1 - fst p * snd p) 0) (combine y_true y_pred)).
(** evaluate.py:385-396. *)
Definition squared_hinge (y_true y_pred : list R) : R :=
  reduce_mean (map (fun p => Rmax (1 - fst p * snd p) 0 * Rmax (1 - fst p * snd p) 0) (combine y_true y_pred)).

(** ** Regression metrics *)

(** The elementwise functions of mean_squared_error, mean_absolute_error,
    mean_absolute_percentage_error (its factor 100 included) and
    mean_squared_logarithmic_error (evaluate.py:402-451). *)
Definition clip_below (x : R) : R := Rmax x (/ 100000000).
(** evaluate.py:402-411. *)
Definition squared_error (t p : R) : R := (p - t) * (p - t).
(** evaluate.py:414-423. *)
Definition absolute_error (t p : R) : R := Rabs (p - t).
(** evaluate.py:426-437. *)
Definition percentage_error (t p : R) : R := 100 * Rabs ((t - p) / clip_below (Rabs t)).
(** evaluate.py:440-451. *)
Definition logarithmic_error (t p : R) : R :=
  (ln (clip_below p + 1) - ln (clip_below t + 1)) * (ln (clip_below p + 1) - ln (clip_below t + 1)).

(** A tensor: rank one, or more (metrics.py:30). *)
Inductive tensor : Type := Rank1 (v : list R) | Batches (b : list (list (list R))).

(** The keyword average (metrics.py:34-46). *)
Inductive average : Type := AvgNone | Macro | Micro | UnknownAverage.
(** metrics.py:35-37. *)
Inductive metric_error : Type := NameError.
(** What a metric returns (metrics.py:38-46). *)
Inductive metric_value : Type := ClassWise (v : list (list R)) | Scalar (r : R) | MetricError (e : metric_error).

(** tf.expand_dims(y, 0) when both have rank below two (metrics.py:30-32). *)
Definition expand (t : tensor) : list (list (list R)) := match t with Rank1 v => [[v]] | Batches b => b end.

(** The column j of a matrix (metrics.py:13-15: the mean along the second-to-last dimension). *)
Definition columns (width : nat) (m : list (list R)) : list (list R) := map (fun j => map (fun r => nth j r 0) m) (seq 0 width).
(** The last dimension of a matrix (evaluate.py:411). *)
Definition width_of (m : list (list R)) : nat := length (nth 0 m []).

(** tf.reduce_mean(g(y_true, y_pred), axis=-2) for each leading index (evaluate.py:411, 423, 437, 451). *)
Definition pointwise2 (g : R -> R -> R) (a b : list (list R)) : list (list R) :=
  map (fun p => map (fun q => g (fst q) (snd q)) (combine (fst p) (snd p))) (combine a b).
(** evaluate.py:411, 423, 437, 451. *)
Definition metric_axis (g : R -> R -> R) (y_true y_pred : list (list (list R))) : list (list R) :=
  map (fun p => let m := pointwise2 g (fst p) (snd p) in map reduce_mean (columns (width_of m) m)) (combine y_true y_pred).

(** tf.reshape(y, [1, -1]) (metrics.py:43-44). *)
Definition flatten (b : list (list (list R))) : list (list (list R)) := [[concat (concat b)]].

(** with_binary_averaging (metrics.py:25-46); the message of the ValueError at
    line 37 reads an undefined name. *)
Definition with_binary_averaging (g : R -> R -> R) (avg : average) (y_true y_pred : tensor) : metric_value :=
  let y_true := expand y_true in
  let y_pred := expand y_pred in
  match avg with
  | UnknownAverage => MetricError NameError
  | AvgNone => ClassWise (metric_axis g y_true y_pred)
  | Macro => Scalar (reduce_mean (concat (metric_axis g y_true y_pred)))
  | Micro => Scalar (reduce_mean (concat (metric_axis g (flatten y_true) (flatten y_pred))))
  end.

(** poisson (evaluate.py:454-463). *)
Definition poisson (y_true y_pred : list R) : R :=
  sumR (map (fun p => snd p - fst p * ln (snd p + / 100000000)) (combine y_true y_pred)).

(** tf.nn.l2_normalize with its epsilon 1e-12, on one row (evaluate.py:474-475). *)
Definition l2_normalize (v : list R) : list R :=
  let s := Rmax (sumR (map (fun x => x * x) v)) (/ 1000000000000) in map (fun x => x / sqrt s) v.
(** cosine_proximity (evaluate.py:466-476) of rows. *)
Definition cosine_proximity (y_true y_pred : list (list R)) : R :=
  sumR (map (fun p => sumR (map (fun q => fst q * snd q) (combine (l2_normalize (fst p)) (l2_normalize (snd p))))) (combine y_true y_pred)).
