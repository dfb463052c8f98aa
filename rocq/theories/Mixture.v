(** * ParamMixture.

    Models edward/models/param_mixture.py:36-259.  Multiplication, one_hot and the
    reductions act on each element of sample, batch and event separately, so most
    definitions are about the list of the components' values at one element. *)
From Coq Require Import Reals List Arith Bool.
From Verif Require Import Ext Transform RandomVar.
Import ListNotations.
Local Open Scope R_scope.

(** tf.one_hot(cat, num_components) (param_mixture.py:185, 234). *)
Definition one_hot (cat num_components : nat) : list R := map (fun k => if Nat.eqb k cat then 1 else 0) (seq 0 num_components).

(** tf.reduce_sum(values * selecter, axis of the components) (lines 194, 240). *)
Definition select (values : list ext) (cat : nat) : ext :=
  esum (map (fun p => emul (fst p) (Fin (snd p))) (combine values (one_hot cat (length values)))).

(** _sample_n at one element (lines 216-241): the draw, from the draws of cat and of
    every component. *)
Definition mixture_sample (comp_sample : list ext) (cat_sample : nat) : ext := select comp_sample cat_sample.

(** ** Ranks and axes *)

(** The axis -1 - batch_event_rank that log_prob and marginal_log_prob reduce
    (lines 194, 213-214), counted from the front; the log densities of the
    components have shape sample + [num_components] + batch, so their rank is
    s + 1 + b.  None: TensorFlow raises. *)
Definition reduced_axis (s b e : nat) : option nat :=
  let rank := (s + 1 + b)%nat in
  if Nat.leb (1 + (b + e)) rank then Some (rank - (1 + (b + e)))%nat else None.

(** Where the components are (param_mixture.py:184). *)
Definition component_axis (s : nat) : nat := s.

(** Sum of a matrix over axis 0 or 1 (param_mixture.py:194). *)
Fixpoint columns_sum (m : list (list ext)) (width : nat) : list ext :=
  match m with
  | [] => repeat (Fin 0) width
  | r :: m' => map (fun p => eadd (fst p) (snd p)) (combine r (columns_sum m' width))
  end.
(** tf.reduce_sum over an axis (param_mixture.py:194). *)
Definition reduce_sum_axis (axis width : nat) (m : list (list ext)) : list ext :=
  if Nat.eqb axis 0 then columns_sum m width else map esum m.

(** _log_prob (lines 173-194) of n points, batch_shape = (), with event rank [e]:
    from the n by num_components log densities and the value of cat for each point. *)
Definition mixture_log_prob (e width : nat) (log_probs : list (list ext)) (cats : list nat) : option (list ext) :=
  match reduced_axis 1 0 e with
  | Some axis =>
      Some (reduce_sum_axis axis width
        (map (fun rc => map (fun p => emul (fst p) (Fin (snd p))) (combine (fst rc) (one_hot (snd rc) width))) (combine log_probs cats)))
  | None => None
  end.

(** marginal_log_prob at one element with scalar events (lines 202-214):
    reduce_logsumexp of log densities plus log weights. *)
Definition marginal_log_prob (log_probs weights : list R) : R :=
  ln (sumR (map (fun p => exp (fst p + ln (snd p))) (combine log_probs weights))).

(** _mean and _variance (lines 113-141) at one element of the event; None when the
    weights have a batch. *)
Definition mixture_mean (means weights : list R) : R := sumR (map (fun p => fst p * snd p) (combine means weights)).
(** param_mixture.py:118, 130-134. *)
Definition mixture_variance (means variances weights : list R) : R :=
  let comp_mean_sq := map (fun p => fst p * fst p + snd p) (combine means variances) in
  mixture_mean comp_mean_sq weights - mixture_mean means weights * mixture_mean means weights.

(** ** The shape that _sample_n returns during construction (lines 220-241): cat and
    components already have the sample_shape; a leading dimension is added if
    n = 1; then the components' axis is summed out.  RandomVariable's sample asks for
    [n] + batch_shape + event_shape, n the product of sample_shape. *)
Definition product_of (l : list nat) : nat := fold_right Nat.mul 1%nat l.
(** Summing out an axis (param_mixture.py:240). *)
Definition remove_at (i : nat) (l : list nat) : list nat := firstn i l ++ skipn (S i) l.
(** param_mixture.py:220-241. *)
Definition constructed_shape (sample_shape : list nat) (num_components : nat) (batch event : list nat) : list nat :=
  let n := product_of sample_shape in
  let comp_sample := ((if Nat.eqb n 1 then [1%nat] else []) ++ sample_shape ++ num_components :: batch ++ event)%list in
  remove_at (length comp_sample - 1 - (length event + length batch)) comp_sample.
