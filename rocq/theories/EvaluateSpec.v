(** * Vocabulary for C54: the documentation at edward/criticisms/evaluate.py:31-75. *)
From Coq Require Import String List ZArith.
From Verif Require Import Checks Evaluate.
Import ListNotations.
Local Open Scope string_scope.

(** The documented names and what they mean (lines 35-49). *)
Inductive meaning : Type := MFn (f : metric_fn) | MAvg (f : metric_fn) | MLogLik.
Definition documented : list (string * meaning) :=
  [("binary_accuracy", MFn FBinaryAccuracy); ("categorical_accuracy", MFn FCategoricalAccuracy);
   ("sparse_categorical_accuracy", MFn FSparseCategoricalAccuracy);
   ("log_loss", MFn FBinaryCrossentropy); ("binary_crossentropy", MFn FBinaryCrossentropy);
   ("categorical_crossentropy", MFn FCategoricalCrossentropy); ("sparse_categorical_crossentropy", MFn FSparseCategoricalCrossentropy);
   ("hinge", MFn FHinge); ("squared_hinge", MFn FSquaredHinge);
   ("mse", MAvg FMeanSquaredError); ("MSE", MAvg FMeanSquaredError); ("mean_squared_error", MAvg FMeanSquaredError);
   ("mae", MAvg FMeanAbsoluteError); ("MAE", MAvg FMeanAbsoluteError); ("mean_absolute_error", MAvg FMeanAbsoluteError);
   ("mape", MAvg FMeanAbsolutePercentageError); ("MAPE", MAvg FMeanAbsolutePercentageError); ("mean_absolute_percentage_error", MAvg FMeanAbsolutePercentageError);
   ("msle", MAvg FMeanSquaredLogarithmicError); ("MSLE", MAvg FMeanSquaredLogarithmicError); ("mean_squared_logarithmic_error", MAvg FMeanSquaredLogarithmicError);
   ("poisson", MFn FPoisson); ("cosine", MFn FCosineProximity); ("cosine_proximity", MFn FCosineProximity);
   ("log_lik", MLogLik); ("log_likelihood", MLogLik)].

(** Names the code accepts beyond those, whatever the data. *)
Definition undocumented : list string := ["accuracy"; "crossentropy"; "multinomial_accuracy"; "kl_divergence"].

(** [asks e v]: the element e of a list of metrics asks for the evaluation v, by the
    documentation: a name, a name with no params, a name with {'average': a}. *)
Inductive asks : element -> evaluation -> Prop :=
| asks_fn s f : In (s, MFn f) documented -> asks (EPlain (EStr s)) (EvMetric f)
| asks_avg s f : In (s, MAvg f) documented -> asks (EPlain (EStr s)) (EvAveraged f AMacro)
| asks_log s : In (s, MLogLik) documented -> asks (EPlain (EStr s)) EvLogLik
| asks_fn0 s f : In (s, MFn f) documented -> asks (ETuple (EStr s) (PDict [])) (EvMetric f)
| asks_avg0 s f : In (s, MAvg f) documented -> asks (ETuple (EStr s) (PDict [])) (EvAveraged f AMacro)
| asks_log0 s : In (s, MLogLik) documented -> asks (ETuple (EStr s) (PDict [])) EvLogLik
| asks_none s f : In (s, MAvg f) documented -> asks (ETuple (EStr s) (PDict [("average", VNone)])) (EvAveraged f ANone)
| asks_macro s f : In (s, MAvg f) documented -> asks (ETuple (EStr s) (PDict [("average", VStr "macro")])) (EvAveraged f AMacro)
| asks_micro s f : In (s, MAvg f) documented -> asks (ETuple (EStr s) (PDict [("average", VStr "micro")])) (EvAveraged f AMicro).

(** The documented forms of the argument: a list, a string, a tuple. *)
Inductive asks_all : metrics_arg -> list evaluation -> Prop :=
| all_list l vs : Forall2 asks l vs -> asks_all (MList l) vs
| all_str s v : asks (EPlain (EStr s)) v -> asks_all (MStr s) [v]
| all_tuple e v : asks e v -> asks_all (MTuple e) [v].

(** One value alone, several as a list. *)
Definition packed (vs : list evaluation) : result := match vs with [v] => Single v | _ => Many vs end.

(** The keys of the data and the realization of the output. *)
Section Data.
Context {V : Type}.
(** k is the only key that is not a placeholder. *)
Definition only_output (d : list (obj V * obj V)) (k v : obj V) : Prop :=
  exists before after, d = (before ++ (k, v) :: after)%list /\ is_placeholder k = false /\
    (forall kv, In kv (before ++ after)%list -> is_placeholder (fst kv) = true).
Definition is_rv (k : obj V) : Prop := exists i s t, k = ORV i s t.
(** A number or list of Python, which has no shape. *)
Definition is_python (v : obj V) : Prop := exists a b, v = OPy a b.
(** The output is k, bound to v: the argument, or the only key that can be. *)
Definition chosen (d : list (obj V * obj V)) (output_key : option (obj V)) (k v : obj V) : Prop :=
  match output_key with None => only_output d k v | Some k' => k' = k /\ is_rv k /\ data_get d k = Some v end.
End Data.

(** An element that gets a value names a metric of the two lists, or is a function. *)
Definition recognised (e : element) : Prop :=
  exists p, (e = EPlain p \/ exists kw, e = ETuple p (PDict kw) \/ e = ETuple p PNotDict) /\
    ((exists s, p = EStr s /\ (In s (map fst documented) \/ In s undocumented)) \/ exists f, p = ECall f).

(** The values returned, if any. *)
Definition values_of (r : result) : option (list evaluation) := match r with Single e => Some [e] | Many l => Some l | _ => None end.
