(** * Choice of the optimizer.

    Models edward/inferences/variational_inference.py:83-122 and the same code in
    gan_inference.py:219-255 ([_build_optimizer]).  Slot variables and the ops
    that the optimizers build are TensorFlow's. *)
From Coq Require Import Reals Ascii String List Arith Bool.
Import ListNotations.
Local Open Scope string_scope.

(** The argument optimizer: None, a str, an instance of tf.train.Optimizer, or
    anything else (as unicode in Python 2) (variational_inference.py:95-117). *)
Inductive opt_arg : Type := OptNone | OptStr (s : string) | OptObj (o : nat) | OptOther.

(** The argument global_step: None, a tf.Variable, or anything else (variational_inference.py:83-93). *)
Inductive step_arg : Type := StepNone | StepVar (v : nat) | StepOther.

(** The constructors called (variational_inference.py:97-115). *)
Inductive opt_class : Type := GradientDescent | Adadelta | Adagrad | Momentum | Adam | Ftrl | RMSProp.

(** learning_rate: a number, or exponential_decay of a variable (lines 87-93). *)
Inductive rate : Type := Constant (r : R) | Decay (start : R) (step : nat) (every : nat) (factor : R).

(** What is used: the caller's instance, or a new one; Momentum also gets 0.9
    (variational_inference.py:95-117). *)
Inductive built : Type := Given (o : nat) | New (c : opt_class) (r : rate) (momentum : option R).

(** variational_inference.py:113-117. *)
Inductive opt_error : Type := ValueError | TypeError.

(** tf.train.exponential_decay(..., staircase=True) at a value of the step
    (variational_inference.py:89-90). *)
Definition rate_at (r : rate) (value : nat -> nat) : R :=
  match r with
  | Constant c => c
  | Decay start step every factor => (start * factor ^ (value step / every))%R
  end.

(** _build_optimizer (gan_inference.py:219-255, variational_inference.py:83-122);
    [fresh] is the variable that line 85 creates, with value 0.  Returns what is
    passed to apply_gradients. *)
Definition build_optimizer (fresh : nat) (optimizer : opt_arg) (global_step : step_arg) : (built * step_arg) + opt_error :=
  let global_step := match optimizer, global_step with OptNone, StepNone => StepVar fresh | _, g => g end in
  let learning_rate := match global_step with StepVar v => Decay 0.1 v 100 0.9 | _ => Constant 0.01 end in
  match optimizer with
  | OptNone => inl (New Adam learning_rate None, global_step)
  | OptStr s =>
      if String.eqb s "gradientdescent" then inl (New GradientDescent learning_rate None, global_step)
      else if String.eqb s "adadelta" then inl (New Adadelta learning_rate None, global_step)
      else if String.eqb s "adagrad" then inl (New Adagrad learning_rate None, global_step)
      else if String.eqb s "momentum" then inl (New Momentum learning_rate (Some 0.9%R), global_step)
      else if String.eqb s "adam" then inl (New Adam learning_rate None, global_step)
      else if String.eqb s "ftrl" then inl (New Ftrl learning_rate None, global_step)
      else if String.eqb s "rmsprop" then inl (New RMSProp learning_rate None, global_step)
      else inr ValueError
  | OptObj o => inl (Given o, global_step)
  | OptOther => inr TypeError
  end.

(** The op self.train: apply_gradients increments global_step if it is a variable
    (variational_inference.py:125-127).  [value] gives the integer variables. *)
Definition train (global_step : step_arg) (value : nat -> nat) : nat -> nat :=
  match global_step with
  | StepVar v => fun w => if Nat.eqb w v then S (value w) else value w
  | _ => value
  end.

(** The learning rates used in [n] updates; the rate of an update is read before
    the increment (variational_inference.py:125-127, 146). *)
Fixpoint rates (r : rate) (global_step : step_arg) (value : nat -> nat) (n : nat) : list R :=
  match n with
  | O => []
  | S n' => rate_at r value :: rates r global_step (train global_step value) n'
  end.
