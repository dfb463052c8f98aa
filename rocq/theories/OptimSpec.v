(** * Vocabulary for C42. *)
From Coq Require Import Reals Ascii String List Arith Bool.
From Verif Require Import Optim.
Import ListNotations.
Local Open Scope string_scope.

(** The names of TensorFlow optimizers that are accepted. *)
Definition documented : list (string * (opt_class * option R)) :=
  [("gradientdescent", (GradientDescent, None)); ("adadelta", (Adadelta, None)); ("adagrad", (Adagrad, None));
   ("momentum", (Momentum, Some 0.9%R)); ("adam", (Adam, None)); ("ftrl", (Ftrl, None)); ("rmsprop", (RMSProp, None))].

(** The schedule: 0.1 decaying by 0.9 every 100 steps if there is a global step,
    and 0.01 otherwise. *)
Definition schedule (g : step_arg) (r : rate) : Prop :=
  match g with
  | StepVar v => forall value, rate_at r value = (0.1 * 0.9 ^ (value v / 100))%R
  | _ => forall value, rate_at r value = 0.01%R
  end.
