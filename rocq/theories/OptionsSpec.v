(** * Vocabulary for C75: the documented options. *)
From Coq Require Import String List QArith Bool.
From Verif Require Import Options.
Import ListNotations.
Open Scope string_scope.
Open Scope list_scope.

(** Options of every algorithm, in order, with their defaults. *)
Definition common : kw :=
  [("n_iter", PNum 1000); ("n_print", PNone); ("scale", PNone); ("auto_transform", PBool true); ("logdir", PNone);
   ("log_timestamp", PBool true); ("log_vars", PNone); ("debug", PBool false)].
(** Options of algorithms that optimize a loss. *)
Definition optimizing : kw :=
  [("optimizer", PNone); ("var_list", PNone); ("use_prettytensor", PBool false); ("global_step", PNone)] ++ common.
(** Options of algorithms with a discriminator. *)
Definition adversarial : kw :=
  [("optimizer", PNone); ("optimizer_d", PNone); ("global_step", PNone); ("global_step_d", PNone); ("var_list", PNone)] ++ common.

(** The options of each algorithm. *)
Definition options (c : cls) : kw :=
  match c with
  | KLqp | ReparameterizationKLKLqp | ScoreKLKLqp => [("n_samples", PNum 1); ("kl_scaling", PNone)] ++ optimizing
  | ReparameterizationKLqp | ReparameterizationEntropyKLqp | ScoreKLqp | ScoreEntropyKLqp | ScoreRBKLqp | KLpq =>
      [("n_samples", PNum 1)] ++ optimizing
  | MAP | Laplace => optimizing
  | WakeSleep => [("n_samples", PNum 1); ("phase_q", PStr "sleep")] ++ optimizing
  | GANInference | BiGANInference => adversarial
  | WGANInference => [("penalty", PNum 10); ("clip", PNone)] ++ adversarial
  | ImplicitKLqp => [("ratio_loss", PStr "log")] ++ adversarial
  | MetropolisHastings | ReplicaExchangeMC => common
  | Gibbs => [("scan_order", PStr "random")] ++ common
  | HMC => [("step_size", PNum (1 # 4)); ("n_steps", PNum 2)] ++ common
  | SGHMC => [("step_size", PNum (1 # 4)); ("friction", PNum (1 # 10))] ++ common
  | SGLD => [("step_size", PNum (1 # 4))] ++ common
  end.
(** Those of run come first. *)
Definition run_options (c : cls) : kw := [("variables", PNone); ("use_coordinator", PBool true)] ++ options c.

(** Options an algorithm chooses by itself: samplers run until the Empirical
    variables are full, and those without gradients do not transform. *)
Definition chosen (rows : Q) (c : cls) : kw :=
  match c with
  | MetropolisHastings | ReplicaExchangeMC | Gibbs => [("auto_transform", PBool false); ("n_iter", PNum rows)]
  | HMC | SGHMC | SGLD => [("n_iter", PNum rows)]
  | _ => []
  end.
(** The value of [k] in a dictionary. *)
Definition value (d : kw) (k : string) (v : py) : Prop := In (k, v) d.
(** The algorithms that insist on a positive number of samples. *)
Definition samples_positive (c : cls) : bool :=
  match c with
  | KLqp | ReparameterizationKLqp | ReparameterizationKLKLqp | ReparameterizationEntropyKLqp | ScoreKLqp | ScoreKLKLqp
  | ScoreEntropyKLqp | ScoreRBKLqp | KLpq => true
  | _ => false
  end.
(** A number of samples. *)
Definition positive (v : py) : Prop := match v with PNum q => (0 < q)%Q | PBool b => b = true | _ => False end.

(** [args] and [kwargs] fit the options [sig]: not too many, none unknown, none
    given twice. *)
Definition fits (sig : kw) (args : list py) (kwargs : kw) : Prop :=
  (length args <= length sig)%nat /\
  forall k v, value kwargs k v -> exists i d, nth_error sig i = Some (k, d) /\ (length args <= i)%nat.
(** [vals] gives every option, in order, the value given for it by position or by
    name, and its default if none is given. *)
Definition as_given (sig : kw) (args : list py) (kwargs : kw) (vals : kw) : Prop :=
  map fst vals = map fst sig /\
  forall i k d v, nth_error sig i = Some (k, d) -> nth_error vals i = Some (k, v) ->
    nth_error args i = Some v \/
    (nth_error args i = None /\ (value kwargs k v \/ ((forall w, ~ value kwargs k w) /\ v = d))).
(** [used]: [kwargs] with the options the algorithm chooses. *)
Definition overridden (kwargs chosen used : kw) : Prop :=
  forall k v, value used k v <-> value chosen k v \/ (value kwargs k v /\ forall w, ~ value chosen k w).
