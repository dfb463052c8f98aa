(** * Vocabulary for C90. *)
From Coq Require Import Reals List.
From Verif Require Import Feed Transform VI VISpec VIIntegralSpec.
Import ListNotations.
Local Open Scope R_scope.

(** How far exp is above its tangent at 0: positive everywhere else. *)
Definition above_tangent (d : R) : R := exp d - 1 - d.

(** A nonnegative function of the kind [good] is zero where its integral is. *)
Definition faithful {A : Type} (D : A -> Prop) (I : (A -> R) -> R -> Prop) (good : (A -> R) -> Prop) : Prop :=
  forall f, good f -> (forall x, D x -> 0 <= f x) -> I f 0 -> forall x, D x -> f x = 0.

Section Terms.
Context {V : Type}.
Variable log_prob : params -> nat -> list (nat * V) -> V -> list R.
Variable q_log_prob : params -> nat -> (nat -> V) -> V -> list R.
Variable latent : list (nat * nat).
(** The log density of a latent variable at its value in [d], under its
    approximation and under the model, given the others. *)
Definition log_q_of (th : params) (d : sample V) (zq : nat * nat) : R := sumR (q_log_prob th (snd zq) (s_q d) (s_q d (snd zq))).
Definition log_prior_of (th : params) (d : sample V) (zq : nat * nat) : R := sumR (log_prob th (fst zq) (bindings latent d) (s_q d (snd zq))).
End Terms.
