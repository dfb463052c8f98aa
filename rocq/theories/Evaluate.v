(** * evaluate: which arguments it accepts and what it computes.

    Models edward/criticisms/evaluate.py:20-231.  Values (the metrics' arithmetic and
    the predictions) are in Metrics.v and Predict.v; here an evaluation says which
    function is applied to (y_true, y_pred), with which averaging. *)
From Coq Require Import String List Arith ZArith Bool.
From Verif Require Import Checks.
Import ListNotations.
Local Open Scope string_scope.

(** The functions of evaluate.py:237-476. *)
Inductive metric_fn : Type :=
| FBinaryAccuracy | FCategoricalAccuracy | FSparseCategoricalAccuracy
| FBinaryCrossentropy | FCategoricalCrossentropy | FSparseCategoricalCrossentropy
| FMultinomialAccuracy | FKlDivergence | FHinge | FSquaredHinge
| FMeanSquaredError | FMeanAbsoluteError | FMeanAbsolutePercentageError | FMeanSquaredLogarithmicError
| FPoisson | FCosineProximity.

(** A value given for a keyword: None, a string, anything else (evaluate.py:168, 180-226: **params). *)
Inductive pyvalue : Type := VNone | VStr (s : string) | VOther (id : nat).

(** The params of a tuple: a dict with string keys, or something else (evaluate.py:168). *)
Inductive params : Type := PDict (d : list (string * pyvalue)) | PNotDict.

(** An element of the list: a string, a callable, a tuple (its length other than two:
    [ETupleOther]), or anything else (evaluate.py:167-170, 223-226). *)
Inductive plain : Type := EStr (s : string) | ECall (id : nat) | EOtherElt.
(** evaluate.py:167-170. *)
Inductive element : Type := EPlain (p : plain) | ETuple (p : plain) (params : params) | ETupleOther.

(** The argument metrics (evaluate.py:101-106). *)
Inductive metrics_arg : Type := MStr (s : string) | MCall (id : nat) | MList (l : list element) | MTuple (e : element) | MOther.

(** Exceptions of evaluate.py:100-231. *)
Inductive exn : Type := TypeError | KeyError | ValueError | NameError | AttributeError | UnboundLocalError | NotImplementedError.

(** What is computed: a metric with the argument average as the function receives it,
    the log-likelihood, or a user's function with its keywords (evaluate.py:179-224). *)
Inductive averaging : Type := AMacro | AMicro | ANone.
(** evaluate.py:165, 179-224: an entry of evaluations. *)
Inductive evaluation : Type :=
| EvMetric (f : metric_fn)
| EvAveraged (f : metric_fn) (a : averaging)
| EvLogLik
| EvCall (id : nat) (kw : list (string * pyvalue)).

(** What evaluate returns or raises (evaluate.py:228-231). *)
Inductive result : Type := Single (e : evaluation) | Many (l : list evaluation) | Raise (e : exn) | Unmodelled.

(** The chain of comparisons at lines 179-217, after 'accuracy' and 'crossentropy' have
    been resolved (lines 171-177). *)
Definition resolve (small_support : bool) (s : string) : string :=
  if String.eqb s "accuracy" || String.eqb s "crossentropy"
  then if small_support then "binary_" ++ s else "sparse_categorical_" ++ s
  else s.

(** The branch taken at evaluate.py:179-226. *)
Inductive dispatch : Type := DFn (f : metric_fn) | DAveraged (f : metric_fn) | DLogLik | DUnknown.
(** evaluate.py:179-226. *)
Definition dispatch_name (s : string) : dispatch :=
  if String.eqb s "binary_accuracy" then DFn FBinaryAccuracy
  else if String.eqb s "categorical_accuracy" then DFn FCategoricalAccuracy
  else if String.eqb s "sparse_categorical_accuracy" then DFn FSparseCategoricalAccuracy
  else if String.eqb s "log_loss" || String.eqb s "binary_crossentropy" then DFn FBinaryCrossentropy
  else if String.eqb s "categorical_crossentropy" then DFn FCategoricalCrossentropy
  else if String.eqb s "sparse_categorical_crossentropy" then DFn FSparseCategoricalCrossentropy
  else if String.eqb s "multinomial_accuracy" then DFn FMultinomialAccuracy
  else if String.eqb s "kl_divergence" then DFn FKlDivergence
  else if String.eqb s "hinge" then DFn FHinge
  else if String.eqb s "squared_hinge" then DFn FSquaredHinge
  else if String.eqb s "mse" || String.eqb s "MSE" || String.eqb s "mean_squared_error" then DAveraged FMeanSquaredError
  else if String.eqb s "mae" || String.eqb s "MAE" || String.eqb s "mean_absolute_error" then DAveraged FMeanAbsoluteError
  else if String.eqb s "mape" || String.eqb s "MAPE" || String.eqb s "mean_absolute_percentage_error" then DAveraged FMeanAbsolutePercentageError
  else if String.eqb s "msle" || String.eqb s "MSLE" || String.eqb s "mean_squared_logarithmic_error" then DAveraged FMeanSquaredLogarithmicError
  else if String.eqb s "poisson" then DFn FPoisson
  else if String.eqb s "cosine" || String.eqb s "cosine_proximity" then DFn FCosineProximity
  else if String.eqb s "log_lik" || String.eqb s "log_likelihood" then DLogLik
  else DUnknown.

(** evaluate.py:193-196: the only metric that reads probs. *)
Definition is_kl (f : metric_fn) : bool := match f with FKlDivergence => true | _ => false end.

(** kwargs.get('average', 'macro') and its test (metrics.py:34-46); the ValueError's
    message reads the undefined name average_options. *)
Fixpoint get_average (kw : list (string * pyvalue)) : pyvalue :=
  match kw with [] => VStr "macro" | (k, v) :: kw' => if String.eqb k "average" then v else get_average kw' end.
(** metrics.py:35-46. *)
Definition averaging_of (v : pyvalue) : averaging + exn :=
  match v with
  | VNone => inl ANone
  | VStr s => if String.eqb s "macro" then inl AMacro else if String.eqb s "micro" then inl AMicro else inr NameError
  | VOther _ => inr NameError
  end.

(** What the output variable is: a RandomVariable of one of the five discrete classes of
    lines 132-133, another RandomVariable, a tf.Tensor. *)
Inductive output : Type := OutDiscrete | OutOther | OutTensor.

(** One pass of the loop (lines 166-226). *)
Definition evaluate_plain (out : output) (small_support : bool) (p : plain) (ps : params) : evaluation + exn :=
  match p with
  | EStr s =>
      match dispatch_name (resolve small_support s) with
      | DUnknown => inr NotImplementedError
      | DLogLik => match out with OutTensor => inr AttributeError | _ => inl EvLogLik end
      | DFn f =>
          if is_kl f && match out with OutDiscrete => false | _ => true end then inr UnboundLocalError
          else match ps with PDict [] => inl (EvMetric f) | _ => inr TypeError end
      | DAveraged f =>
          match ps with
          | PNotDict => inr TypeError
          | PDict kw => match averaging_of (get_average kw) with inl a => inl (EvAveraged f a) | inr e => inr e end
          end
      end
  | ECall id => match ps with PDict kw => inl (EvCall id kw) | PNotDict => inr TypeError end
  | EOtherElt => inr NotImplementedError
  end.
(** evaluate.py:166-226: unpacking of a tuple, then the metric. *)
Definition evaluate_one (out : output) (small_support : bool) (e : element) : evaluation + exn :=
  match e with
  | EPlain p => evaluate_plain out small_support p (PDict [])
  | ETuple p ps => evaluate_plain out small_support p ps
  | ETupleOther => inr ValueError
  end.
(** evaluate.py:165-226. *)
Fixpoint evaluate_loop (out : output) (small_support : bool) (l : list element) : list evaluation + exn :=
  match l with
  | [] => inl []
  | e :: l' =>
      match evaluate_one out small_support e with
      | inr x => inr x
      | inl v => match evaluate_loop out small_support l' with inl vs => inl (v :: vs) | inr x => inr x end
      end
  end.

(** The metrics as a list (lines 101-106). *)
Definition metrics_list (m : metrics_arg) : option (list element) :=
  match m with
  | MStr s => Some [EPlain (EStr s)]
  | MCall id => Some [EPlain (ECall id)]
  | MList l => Some l
  | MTuple _ | MOther => None
  end.

(** metrics != ['log_lik'] and metrics != ['log_likelihood'] (line 131). *)
Definition supervised (l : list element) : bool :=
  match l with
  | [EPlain (EStr s)] => negb (String.eqb s "log_lik" || String.eqb s "log_likelihood")
  | _ => true
  end.

Section Evaluate.
Context {V : Type}.
Variable pl : nat -> tshape * nat.
(** Which random variables belong to the five discrete classes. *)
Variable discrete : nat -> bool.
(** sess.run(tf.reduce_max(y_true)) <= 1 for the value bound to the output. *)
Variable small_support : obj V -> bool.

(** evaluate.py:114-115. *)
Definition is_placeholder (k : obj V) : bool := match k with OPlace _ => true | _ => false end.

(** Dictionary keys are compared by identity (evaluate.py:129: data[output_key]). *)
Definition same_key (a b : obj V) : bool :=
  match a, b with
  | ORV i _ _, ORV j _ _ | OTensor i _ _, OTensor j _ _ | OPlace i, OPlace j => Nat.eqb i j
  | _, _ => false
  end.
(** data[output_key] (evaluate.py:129). *)
Fixpoint data_get (d : list (obj V * obj V)) (k : obj V) : option (obj V) :=
  match d with [] => None | (k', v) :: d' => if same_key k' k then Some v else data_get d' k end.

(** The argument output_key: None, or an object (evaluate.py:112-121). *)
Definition choose_output (d : list (obj V * obj V)) (output_key : option (obj V)) : obj V + exn :=
  match output_key with
  | None => match filter (fun kv => negb (is_placeholder (fst kv))) d with [kv] => inl (fst kv) | _ => inr KeyError end
  | Some (ORV i s t) => inl (ORV i s t)
  | Some _ => inr TypeError
  end.

(** evaluate.py:132-135. *)
Definition output_class (k : obj V) : output :=
  match k with ORV i _ _ => if discrete i then OutDiscrete else OutOther | _ => OutTensor end.

(** Whether y_true has an attribute shape (line 160): Python numbers, strings and lists
    have not. *)
Definition has_shape (v : obj V) : bool := match v with OPy _ _ => false | _ => true end.

(** evaluate (lines 100-231).  [n_samples]: [None] if not an int.  With fewer than one
    sample the outcome depends on NumPy's and TensorFlow's treatment of empty sums: not
    modelled. *)
Definition evaluate (metrics : metrics_arg) (data : arg V) (n_samples : option Z) (output_key : option (obj V)) : result :=
  match metrics_list metrics with
  | None => Raise TypeError
  | Some l =>
  match check_data pl data, data with
  | Checks.Raise _, _ => Raise TypeError
  | Ret _, ANotDict => Raise TypeError
  | Ret _, ADict d =>
  match n_samples with
  | None => Raise TypeError
  | Some n =>
  match choose_output d output_key with
  | inr e => Raise e
  | inl k =>
  match data_get d k with
  | None => Raise KeyError
  | Some y_true =>
  if Z.ltb n 1 then Unmodelled
  else if supervised l && negb (has_shape y_true) then Raise AttributeError
  else match evaluate_loop (output_class k) (small_support y_true) l with
       | inr e => Raise e
       | inl [e] => Single e
       | inl es => Many es
       end
  end end end end end.
End Evaluate.
