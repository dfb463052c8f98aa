(** * C85: learning rates and step sizes. *)
From Coq Require Import Reals String List.
From Verif Require Import Transform Optim SGLD.
From Verif Require Import Steps StepsSpec StepsProofs.
Import ListNotations.
Local Open Scope R_scope.

(** A convex loss with its minimum at distance 1000: whatever n_iter, the default
    optimizer ends at least 270 from it. *)
Theorem C85_reach_refuted : exists (f df : R -> R) best x0,
  (forall x, derivable_pt_lim f x (df x)) /\ (forall x, x <> best -> f best < f x) /\
  (forall x y t, 0 <= t <= 1 -> f (t * x + (1 - t) * y) <= t * f x + (1 - t) * f y) /\
  forall fresh c r m gs value n, build_optimizer fresh OptNone StepNone = inl (New c r m, gs) ->
  270 <= Rabs (theta (adam_run 0 (rates r gs value n) (fun _ => df) (mkadam x0 0 0)) - best).
Proof. exact short. Qed.
Print Assumptions C85_reach_refuted.

(** No entry of a variable moves by more than 730 in a run with the default optimizer,
    whatever the gradients and the number of updates. *)
Theorem C85_travel : forall fresh g c r m gs value grad x0 n, g <> StepOther ->
  build_optimizer fresh OptNone g = inl (New c r m, gs) ->
  c = Adam /\ Rabs (theta (adam_run 0 (rates r gs value n) grad (mkadam x0 0 0)) - x0) <= 730.
Proof. exact default_travel. Qed.
Print Assumptions C85_travel.

(** The first step has about the size of the learning rate, whatever the gradient. *)
Theorem C85_first_step : forall lr g x0,
  theta (adam_step lr 0 g (mkadam x0 0 0)) = x0 - lr * (sqrt 0.001 * g / (sqrt 0.001 * Rabs g + / 10 ^ 8)).
Proof. exact first_step. Qed.
Print Assumptions C85_first_step.

(** None of the schedules that Edward chooses satisfies the conditions of Robbins and
    Monro: decaying rates add up to 100 at most, constant ones do not decay. *)
Theorem C85_no_schedule : forall fresh o g c r m gs value, build_optimizer fresh o g = inl (New c r m, gs) ->
  ~ robbins_monro (rate_of r gs value).
Proof. exact no_schedule. Qed.
Print Assumptions C85_no_schedule.

Theorem C85_decay_sum : forall v value n, sumR (rates (Decay 0.1 v 100 0.9) (StepVar v) value n) <= 100.
Proof. intros. rewrite sumR_rates. exact (decay_le v value n). Qed.
Print Assumptions C85_decay_sum.

(** With a global_step, gradient descent stops short too: on a parabola that is flat
    enough at least half of the way remains, and never more than 100 times the largest
    gradient is covered. *)
Theorem C85_descend_short : forall fresh v r m gs value a best x0 n, 0 <= a <= / 200 ->
  build_optimizer fresh (OptStr "gradientdescent"%string) (StepVar v) = inl (New GradientDescent r m, gs) ->
  Rabs (x0 - best) / 2 <= Rabs (descend 0 (rates r gs value n) (fun _ y => a * (y - best)) x0 - best).
Proof. exact descend_half. Qed.
Print Assumptions C85_descend_short.

Theorem C85_descend_travel : forall fresh v r m gs value grad G x0 n, 0 <= G -> (forall j y, Rabs (grad j y) <= G) ->
  build_optimizer fresh (OptStr "gradientdescent"%string) (StepVar v) = inl (New GradientDescent r m, gs) ->
  Rabs (descend 0 (rates r gs value n) grad x0 - x0) <= 100 * G.
Proof. exact descend_travel. Qed.
Print Assumptions C85_descend_travel.

(** The step sizes of SGLD satisfy both conditions. *)
Theorem C85_sgld : forall step_size, 0 < step_size -> robbins_monro (learning_rate step_size).
Proof. intros step_size H. exact (conj (sgld_far step_size H) (sgld_settles step_size H)). Qed.
Print Assumptions C85_sgld.

(** The default, and gradient descent with a caller's variable 7. *)
Example C85_default_met : build_optimizer 0 OptNone StepNone = inl (New Adam (Decay 0.1 0 100 0.9) None, StepVar 0) /\
  build_optimizer 0 (OptStr "gradientdescent"%string) (StepVar 7) = inl (New GradientDescent (Decay 0.1 7 100 0.9) None, StepVar 7) /\
  rates (Decay 0.1 0 100 0.9) (StepVar 0) (fun _ => 99%nat) 2 = [0.1 * 0.9 ^ 0; 0.1 * 0.9 ^ 1].
Proof. repeat split; reflexivity. Qed.
