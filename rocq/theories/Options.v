(** * How the arguments of initialize and run reach the classes that use them.

    Every initialize takes some options of its own and hands the rest on through
    [*args, **kwargs] to the initialize of a class above. *)
From Coq Require Import String List QArith Bool.
Import ListNotations.
Open Scope string_scope.
Open Scope list_scope.

(** The values given for options: None, booleans, numbers, strings and other
    objects (dicts, tensors, optimizers), which are not looked into; those of the
    defaults at inference.py:157-159, klqp.py:86, hmc.py:45. *)
Inductive py : Type := PNone | PBool (b : bool) | PNum (q : Q) | PStr (s : string) | PObj (n : nat).

(** A dictionary of keyword arguments. *)
Notation kw := (list (string * py)).
(** The entry of a dictionary, as Python's calls look it up (monte_carlo.py:98). *)
Fixpoint kw_get (d : kw) (k : string) : option py :=
  match d with [] => None | (a, v) :: d' => if String.eqb a k then Some v else kw_get d' k end.
(** kwargs[k] = v (monte_carlo.py:96, metropolis_hastings.py:61). *)
Fixpoint kw_set (d : kw) (k : string) (v : py) : kw :=
  match d with [] => [(k, v)] | (a, w) :: d' => if String.eqb a k then (a, v) :: d' else (a, w) :: kw_set d' k v end.
(** Without the entry for [k]: what is left for **kwargs (hmc.py:45, gibbs.py:54). *)
Definition kw_del (d : kw) (k : string) : kw := filter (fun e => negb (String.eqb (fst e) k)) d.

(** Python's binding of arguments to the parameters [ps], with defaults, of a
    function that also takes [*args, **kwargs]: values of the parameters, and
    what is left over; None is the TypeError for a parameter given twice.  (The
    binding is Python's, at calls such as inference.py:128 and klqp.py:113.) *)
Fixpoint bind (ps : kw) (args : list py) (kwargs : kw) : option (kw * list py * kw) :=
  match ps with
  | [] => Some ([], args, kwargs)
  | (n, d) :: ps' =>
      match args with
      | a :: args' =>
          match kw_get kwargs n with
          | Some _ => None
          | None => match bind ps' args' kwargs with Some (b, l, k) => Some ((n, a) :: b, l, k) | None => None end
          end
      | [] =>
          let v := match kw_get kwargs n with Some v => v | None => d end in
          match bind ps' [] (kw_del kwargs n) with Some (b, l, k) => Some ((n, v) :: b, l, k) | None => None end
      end
  end.

(** One initialize: its own parameters; whether it insists on [n_samples > 0]; and
    the entry it puts into [kwargs] before it calls the next one (klqp.py:86-113,
    metropolis_hastings.py:60-62). *)
Record level : Type := mklevel { l_params : kw; l_positive : bool; l_force : option (string * py) }.

(** What a call raises (klqp.py:108), or the values of all options. *)
Inductive called : Type := Ret (b : kw) | RaiseTypeError | RaiseValueError.

(** [if n_samples <= 0: raise ValueError] (klqp.py:107-109 and the like); None and
    strings cannot be compared with 0, a tensor has no truth value: TypeError. *)
Definition check_positive (b : kw) : option called :=
  match kw_get b "n_samples" with
  | Some (PNum q) => if Qle_bool q 0 then Some RaiseValueError else None
  | Some (PBool t) => if t then None else Some RaiseValueError
  | _ => Some RaiseTypeError
  end.

(** kwargs[k] = v, if any (gibbs.py:68). *)
Definition force (d : kw) (f : option (string * py)) : kw := match f with Some (k, v) => kw_set d k v | None => d end.

(** A call of the first level's initialize.  The last one, that of Inference, takes
    no further arguments (klqp.py:113, variational_inference.py:51,
    inference.py:157-159). *)
Fixpoint call (ls : list level) (args : list py) (kwargs : kw) : called :=
  match ls with
  | [] => match args, kwargs with [], [] => Ret [] | _, _ => RaiseTypeError end
  | l :: ls' =>
      match bind (l_params l) args kwargs with
      | None => RaiseTypeError
      | Some (b, args', kwargs') =>
          match (if l_positive l then check_positive b else None) with
          | Some e => e
          | None => match call ls' args' (force kwargs' (l_force l)) with Ret b' => Ret (b ++ b') | e => e end
          end
      end
  end.

Section Classes.
(** The smallest number of rows of the Empirical variables (monte_carlo.py:96-97);
    there is at least one, with a known number of rows. *)
Variable rows : Q.

(** Inference.initialize (inference.py:157-159). *)
Definition inference_level : level :=
  mklevel [("n_iter", PNum 1000); ("n_print", PNone); ("scale", PNone); ("auto_transform", PBool true); ("logdir", PNone);
           ("log_timestamp", PBool true); ("log_vars", PNone); ("debug", PBool false)] false None.
(** VariationalInference.initialize (variational_inference.py:29-30, 51). *)
Definition variational_level : level :=
  mklevel [("optimizer", PNone); ("var_list", PNone); ("use_prettytensor", PBool false); ("global_step", PNone)] false None.
(** KLqp, ReparameterizationKLKLqp and ScoreKLKLqp (klqp.py:86-113, 273-300, 477-503). *)
Definition klqp_level : level := mklevel [("n_samples", PNum 1); ("kl_scaling", PNone)] true None.
(** KLpq, and the other classes of klqp.py (klpq.py:85-98; klqp.py:210-223, 350-364,
    414-427, 553-566, 623-636). *)
Definition samples_level : level := mklevel [("n_samples", PNum 1)] true None.
(** WakeSleep (wake_sleep.py:61-77). *)
Definition wake_sleep_level : level := mklevel [("n_samples", PNum 1); ("phase_q", PStr "sleep")] false None.
(** Laplace hands everything on (laplace.py:107-115); MAP has no initialize. *)
Definition laplace_level : level := mklevel [] false None.
(** GANInference (gan_inference.py:65-67, 96), which calls the initialize of
    Inference; BiGANInference has none. *)
Definition gan_level : level :=
  mklevel [("optimizer", PNone); ("optimizer_d", PNone); ("global_step", PNone); ("global_step_d", PNone); ("var_list", PNone)] false None.
(** WGANInference (wgan_inference.py:44-58). *)
Definition wgan_level : level := mklevel [("penalty", PNum 10); ("clip", PNone)] false None.
(** ImplicitKLqp (implicit_klqp.py:86-106).  Which values it takes for ratio_loss is
    part of C59. *)
Definition implicit_level : level := mklevel [("ratio_loss", PStr "log")] false None.
(** MonteCarlo (monte_carlo.py:95-98). *)
Definition monte_carlo_level : level := mklevel [] false (Some ("n_iter", PNum rows)).
(** MetropolisHastings and ReplicaExchangeMC (metropolis_hastings.py:60-62,
    replica_exchange_mc.py:74-76). *)
Definition mh_level : level := mklevel [] false (Some ("auto_transform", PBool false)).
(** Gibbs (gibbs.py:54-69). *)
Definition gibbs_level : level := mklevel [("scan_order", PStr "random")] false (Some ("auto_transform", PBool false)).
(** HMC (hmc.py:45-59). *)
Definition hmc_level : level := mklevel [("step_size", PNum (1 # 4)); ("n_steps", PNum 2)] false None.
(** SGHMC (sghmc.py:43-56); 1 # 10 stands for the literal 0.1. *)
Definition sghmc_level : level := mklevel [("step_size", PNum (1 # 4)); ("friction", PNum (1 # 10))] false None.
(** SGLD (sgld.py:43-50). *)
Definition sgld_level : level := mklevel [("step_size", PNum (1 # 4))] false None.
(** Inference.run (inference.py:97, 128). *)
Definition run_level : level := mklevel [("variables", PNone); ("use_coordinator", PBool true)] false None.

(** The classes (the class statements of edward/inferences: klqp.py:19, klpq.py:18,
    map.py:18, laplace.py:20, wake_sleep.py:13, gan_inference.py:12,
    bigan_inference.py:12, wgan_inference.py:12, implicit_klqp.py:13,
    metropolis_hastings.py:14, gibbs.py:16, hmc.py:14, sghmc.py:13, sgld.py:13,
    replica_exchange_mc.py:28; klqp.py:166, 229, 306, 370, 433, 509, 572). *)
Inductive cls : Type :=
| KLqp | ReparameterizationKLqp | ReparameterizationKLKLqp | ReparameterizationEntropyKLqp | ScoreKLqp | ScoreKLKLqp
| ScoreEntropyKLqp | ScoreRBKLqp | KLpq | MAP | Laplace | WakeSleep | GANInference | BiGANInference | WGANInference | ImplicitKLqp
| MetropolisHastings | ReplicaExchangeMC | Gibbs | HMC | SGHMC | SGLD.

(** The methods initialize runs through, by the class statements and the calls of
    super: klqp.py:113, variational_inference.py:51, gan_inference.py:96 (which
    skips VariationalInference), wgan_inference.py:58, implicit_klqp.py:106,
    monte_carlo.py:98 and the like. *)
Definition levels (c : cls) : list level :=
  match c with
  | KLqp | ReparameterizationKLKLqp | ScoreKLKLqp => [klqp_level; variational_level; inference_level]
  | ReparameterizationKLqp | ReparameterizationEntropyKLqp | ScoreKLqp | ScoreEntropyKLqp | ScoreRBKLqp | KLpq =>
      [samples_level; variational_level; inference_level]
  | MAP => [variational_level; inference_level]
  | Laplace => [laplace_level; variational_level; inference_level]
  | WakeSleep => [wake_sleep_level; variational_level; inference_level]
  | GANInference | BiGANInference => [gan_level; inference_level]
  | WGANInference => [wgan_level; gan_level; inference_level]
  | ImplicitKLqp => [implicit_level; gan_level; inference_level]
  | MetropolisHastings | ReplicaExchangeMC => [mh_level; monte_carlo_level; inference_level]
  | Gibbs => [gibbs_level; monte_carlo_level; inference_level]
  | HMC => [hmc_level; monte_carlo_level; inference_level]
  | SGHMC => [sghmc_level; monte_carlo_level; inference_level]
  | SGLD => [sgld_level; monte_carlo_level; inference_level]
  end.

(** c(...).initialize( *args, **kwargs ): the values with which the options are used
    (inference.py:157-159 and the methods above). *)
Definition initialize (c : cls) (args : list py) (kwargs : kw) : called := call (levels c) args kwargs.
(** c(...).run( *args, **kwargs ) (inference.py:97-128). *)
Definition run (c : cls) (args : list py) (kwargs : kw) : called := call (run_level :: levels c) args kwargs.
End Classes.
