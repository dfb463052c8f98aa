(** * Vocabulary for C29. *)
From Coq Require Import Ascii String List Arith Bool.
From Verif Require Import ResetOps.
Import ListNotations.

Section Spec.
Context {V : Type}.

(** Variable [v] has the value it is initialised to. *)
Definition initial_value (g : graph V) (values : nat -> V) (v : nat) : Prop :=
  exists x, nth_error (g_vars g) v = Some x /\ values v = v_init x.

(** A graph that has been extended. *)
Definition extends (g g' : graph V) : Prop := exists vs, g_vars g' = g_vars g ++ vs.

(** No name starts with "optimizer". *)
Definition plain (names : list string) : Prop := forall n, In n names -> prefix "optimizer" n = false.

(** The names that a step gives outside the optimizers' scopes. *)
Definition step_names (s : step V) : list string :=
  match s with
  | Declare vs => map fst vs
  | Initialize t a => t :: match a with
     | Sampler n further => n :: map fst further
     | Variational gs _ => match gs with Some s => [s] | None => [] end
     | Adversarial gs slots => gs ++ map fst slots
     end
  end.
End Spec.
