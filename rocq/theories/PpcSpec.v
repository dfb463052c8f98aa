(** * Vocabulary for C55: the dictionaries a discrepancy is given. *)
From Coq Require Import List.
From Verif Require Import Checks EvaluateSpec.

Section PpcSpec.
Context {V world : Type}.
Variable value : obj V -> world -> V.

(** Replicated data: the random variables' own draws, the data of everything else. *)
Definition replication (d : list (obj V * obj V)) (w : world) (xs : list (obj V * V)) : Prop :=
  Forall2 (fun kv x => fst x = fst kv /\ (is_rv (fst kv) -> snd x = value (fst kv) w) /\ (~ is_rv (fst kv) -> snd x = value (snd kv) w)) d xs.

(** What the keys are bound to: observed data, draws of the posterior. *)
Definition bound_values (d : list (obj V * obj V)) (w : world) (xs : list (obj V * V)) : Prop :=
  Forall2 (fun kv x => x = (fst kv, value (snd kv) w)) d xs.
End PpcSpec.
