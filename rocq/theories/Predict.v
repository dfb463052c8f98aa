(** * The predictions evaluate scores.

    Models edward/criticisms/evaluate.py:131-162 and 191-216 over the reals, for
    vectors of outputs ([list R] per session run), at least one run. *)
From Coq Require Import Reals List Arith Bool.
From Verif Require Import Ext Transform GAN Mode Metrics Evaluate.
Import ListNotations.
Local Open Scope R_scope.

(** np.sum(runs, axis=0) / n_samples (line 139), tf.add_n(runs) / n_samples (lines 158-159). *)
Definition mean_of_runs (width : nat) (runs : list (list R)) : list R :=
  map (fun j => sumR (map (fun r => nth j r 0) runs) / INR (length runs)) (seq 0 width).

(** tf.round on [0, 1]: halves go to the even neighbour (evaluate.py:143). *)
Definition round_unit (x : R) : R := if Rle_dec x (1 / 2) then 0 else 1.

(** Bernoulli and Binomial (lines 140-143); [u] is tf.random_uniform. *)
Definition predict_binary (u : list R) (probs : list R) : list R :=
  map (fun p => round_unit (if eqb_R (1 / 2) (fst p) then snd p else fst p)) (combine probs u).

(** Categorical, OneHotCategorical, Multinomial of one trial (line 153), per row. *)
Definition predict_categorical (probs : list (list R)) : list R := map (fun row => INR (argmax row)) probs.

(** Multinomial of more trials, one vector of probabilities (lines 145-151, 154): the
    prediction and the array probs afterwards. *)
Definition predict_multinomial (choice : nat -> list nat -> nat -> list nat) (fuel : nat) (probs : list R) (total_count : nat) : mode_result :=
  multinomial_mode choice fuel probs total_count.

(** The functions on vectors (lines 179-216). *)
Definition score (f : metric_fn) (avg : average) (y_true y_pred : list R) : option metric_value :=
  match f with
  | FBinaryAccuracy | FSparseCategoricalAccuracy | FMultinomialAccuracy => Some (Scalar (accuracy y_true y_pred))
  | FBinaryCrossentropy => Some (Scalar (binary_crossentropy y_true y_pred))
  | FHinge => Some (Scalar (hinge y_true y_pred))
  | FSquaredHinge => Some (Scalar (squared_hinge y_true y_pred))
  | FMeanSquaredError => Some (with_binary_averaging squared_error avg (Rank1 y_true) (Rank1 y_pred))
  | FMeanAbsoluteError => Some (with_binary_averaging absolute_error avg (Rank1 y_true) (Rank1 y_pred))
  | FMeanAbsolutePercentageError => Some (with_binary_averaging percentage_error avg (Rank1 y_true) (Rank1 y_pred))
  | FMeanSquaredLogarithmicError => Some (with_binary_averaging logarithmic_error avg (Rank1 y_true) (Rank1 y_pred))
  | FPoisson => Some (Scalar (poisson y_true y_pred))
  | FCosineProximity => Some (Scalar (cosine_proximity [y_true] [y_pred]))
  | _ => None
  end.

(** kl_divergence as evaluate calls it (lines 193-196): the counts over total_count
    against the array probs. *)
Definition score_kl (total_count : nat) (y_true probs : list R) : ext :=
  kl_divergence (map (fun y => y / INR total_count) y_true) probs.
