(** * Vocabulary for C26. *)
From Coquelicot Require Import Coquelicot.
From Coq Require Import Reals List Arith Bool.
From Verif Require Import Ext Feed MonteCarlo Transform MHSpec HMC HMCSpec SGLD.
Import ListNotations.
Local Open Scope R_scope.

(** Zeros of the shape of [z]. *)
Definition zeros (z : list tensor) : list tensor := map (map (fun _ => 0)) z.

(** Draws without noise. *)
Definition noiseless (z : list tensor) (us : nat -> sg_draws * bool) : Prop :=
  forall i, g_normal (fst (us i)) = zeros z.

(** tf.gradients gives zero wherever the function does not change. *)
Definition zero_of_constants (gradients : (list tensor -> option ext) -> list tensor -> list tensor) : Prop :=
  forall f c z, (forall z', same_shape z z' -> f z' = Some c) -> gradients f z = zeros z.

(** [n] times the softplus, in every entry. *)
Fixpoint softplus_iter (n : nat) (z : list tensor) : list tensor :=
  match n with O => z | S n' => map (map softplus) (softplus_iter n' z) end.

(** Entry by entry greater. *)
Definition all_greater (a b : list tensor) : Prop := Forall2 (Forall2 (fun x y => x > y)) a b.

(** c a, added in every entry to [z]. *)
Definition plus_multiple (z : list tensor) (c : R) (a : list tensor) : list tensor := translate z (map (map (Rmult c)) a).

(** The log joint density at [z], every variable's term multiplied by its scale. *)
Definition scaled_log_density (log_prob : nat -> list (nat * tensor) -> tensor -> R) (scale : nat -> R) (keys : list nat)
    (data : list (nat * tensor)) (z : list tensor) : R :=
  let env := combine keys z ++ data in
  sumR (map (fun kv => scale (fst kv) * log_prob (fst kv) env (snd kv)) (combine keys z)) +
  sumR (map (fun kv => scale (fst kv) * log_prob (fst kv) env (snd kv)) data).
