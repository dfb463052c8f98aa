(** * Vocabulary for C95: where the runs of a sampler that is reset start. *)
From Coq Require Import List Arith Bool Reals.
From Verif Require Import Ext MonteCarlo MonteCarloSpec.
Import ListNotations.

Section Spec.
Context {V X U : Type}.

(** [restarts k x z runs x' z']: if the first run starts in [z], the run after
    [runs] starts in [z'], the first sample of the last run that made a move, with
    the further state [x'] that run ended with. *)
Inductive restarts (k : kernel V X U) (x : X) (z : list V) : list (nat * (nat -> U * bool)) -> X -> list V -> Prop :=
| restarts_none : restarts k x z [] x z
| restarts_idle : forall runs us x1 z1, restarts k x z runs x1 z1 -> restarts k x z (runs ++ [(0, us)]) x1 z1
| restarts_run : forall runs n us x1 z1 x2 z2 acc2 x3 z3 acc3, restarts k x z runs x1 z1 ->
    chain k x1 z1 us 0 x2 z2 acc2 -> chain k x1 z1 us n x3 z3 acc3 ->
    restarts k x z (runs ++ [(S n, us)]) x3 z2.
End Spec.
