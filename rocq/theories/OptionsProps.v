(** * C75: options reach the algorithm that documents them *)
From Coq Require Import String List QArith Bool Lia.
From Verif Require Import Options OptionsSpec OptionsProofs.
Import ListNotations.
Open Scope string_scope.
Open Scope list_scope.

(** A number of iterations given to a sampler is accepted, and another one used. *)
Theorem C75_given_refuted : exists rows c kwargs vals v w,
  NoDup (map fst kwargs) /\ initialize rows c [] kwargs = Ret vals /\
  value kwargs "n_iter" v /\ value vals "n_iter" w /\ v <> w.
Proof. exact given_refuted. Qed.
Print Assumptions C75_given_refuted.

(** Otherwise: [initialize] accepts exactly what fits the documented options of the
    class, all through the classes above it, and every option gets the value given
    for it by position or by name, or its default.  [used] are the keywords with the
    options an algorithm chooses by itself in place of those given for them, which
    is what the above refutes. *)
Theorem C75_initialize_partial : forall rows c args kwargs used vals,
  NoDup (map fst kwargs) -> overridden kwargs (chosen rows c) used ->
  initialize rows c args kwargs = Ret vals <->
  fits (options c) args used /\ as_given (options c) args used vals /\
  (samples_positive c = true -> exists v, value vals "n_samples" v /\ positive v).
Proof. exact initialize_exact. Qed.
Print Assumptions C75_initialize_partial.

(** [run] takes the two options of its own first. *)
Theorem C75_run_partial : forall rows c args kwargs used vals,
  NoDup (map fst kwargs) -> overridden kwargs (chosen rows c) used ->
  run rows c args kwargs = Ret vals <->
  fits (run_options c) args used /\ as_given (run_options c) args used vals /\
  (samples_positive c = true -> exists v, value vals "n_samples" v /\ positive v).
Proof. exact run_exact. Qed.
Print Assumptions C75_run_partial.

(** There always are such keywords. *)
Theorem C75_used_exist : forall rows c kwargs, NoDup (map fst kwargs) ->
  exists used, NoDup (map fst used) /\ overridden kwargs (chosen rows c) used.
Proof. exact used_exist. Qed.
Print Assumptions C75_used_exist.

(** A ValueError is about the number of samples; everything else that does not fit
    is a TypeError. *)
Theorem C75_value_error : forall rows c args kwargs, initialize rows c args kwargs = RaiseValueError ->
  samples_positive c = true /\ exists v, (nth_error args 0 = Some v \/ value kwargs "n_samples" v) /\ ~ positive v.
Proof. exact value_error. Qed.
Print Assumptions C75_value_error.

(** A sampler takes by position the options of its own only: one more is taken for
    n_iter, which it chooses by itself. *)
Theorem C75_positional : forall rows c args kwargs, NoDup (map fst kwargs) -> value (chosen rows c) "n_iter" (PNum rows) ->
  (length (options c) - length common < length args)%nat -> initialize rows c args kwargs = RaiseTypeError.
Proof. exact sampler_positional. Qed.
Print Assumptions C75_positional.

(** Cases. *)
Example C75_klqp : initialize 500 KLqp [PNum 5] [("optimizer", PStr "adam"); ("n_iter", PNum 7)] =
  Ret [("n_samples", PNum 5); ("kl_scaling", PNone); ("optimizer", PStr "adam"); ("var_list", PNone); ("use_prettytensor", PBool false);
       ("global_step", PNone); ("n_iter", PNum 7); ("n_print", PNone); ("scale", PNone); ("auto_transform", PBool true); ("logdir", PNone);
       ("log_timestamp", PBool true); ("log_vars", PNone); ("debug", PBool false)].
Proof. reflexivity. Qed.
Example C75_errors : initialize 500 KLqp [PNum 0] [] = RaiseValueError /\ initialize 500 KLqp [PNum 1] [("n_samples", PNum 1)] = RaiseTypeError /\
  initialize 500 GANInference [] [("use_prettytensor", PBool true)] = RaiseTypeError /\ initialize 500 HMC [PNum 1; PNum 2; PNum 3] [] = RaiseTypeError.
Proof. repeat split. Qed.
Example C75_hmc : value (chosen 500 HMC) "n_iter" (PNum 500) /\ NoDup (map fst [("n_steps", PNum 3)]) /\
  run 500 HMC [] [("n_steps", PNum 3)] <> RaiseTypeError.
Proof. split; [unfold value; simpl; auto|]. split; [repeat constructor; simpl; tauto|discriminate]. Qed.
