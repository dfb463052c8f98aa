(** * Vocabulary for C36-C41. *)
From Coquelicot Require Import Coquelicot.
From Coq Require Import Reals List Arith Bool Permutation.
From Verif Require Import Graph GraphSpec Feed Transform VI.
Import ListNotations.
Local Open Scope R_scope.

(** The average. *)
Definition average (l : list R) : R := sumR l / INR (length l).

(** The number a dictionary gives for [k], 1 if none. *)
Definition factor (d : list (nat * R)) (k : nat) : R :=
  match find (fun kc => Nat.eqb (fst kc) k) d with Some kc => snd kc | None => 1 end.

(** A function of values that only looks them up by key. *)
Definition by_lookup {V A} (f : nat -> list (nat * V) -> V -> A) : Prop :=
  forall k a b v, (forall j, Feed.dict_get a j = Feed.dict_get b j) -> f k a v = f k b v.

Section Spec.
Context {V : Type}.
Notation dict := (list (nat * V)).
Variable log_prob : params -> nat -> dict -> V -> list R.
Variable q_log_prob : params -> nat -> (nat -> V) -> V -> list R.
Variable latent : list (nat * nat).
Variable scale : list (nat * R).
Variable reg : params -> list R.

(** Distinct keys. *)
Definition posed (d : sample V) : Prop :=
  NoDup (map fst latent) /\ NoDup (map fst (s_data d)) /\ forall k, In k (map fst latent) -> In k (map fst (s_data d)) -> False.

(** The value of every latent variable, and of every variable. *)
Definition latent_values (d : sample V) : dict := map (fun zq => (fst zq, s_q d (snd zq))) latent.
Definition bindings (d : sample V) : dict := s_data d ++ latent_values d.

(** Log densities summed over some variables, each multiplied by its scale; the
    densities are conditional on the values [env] of all. *)
Definition scaled_sum (th : params) (env l : dict) : R :=
  sumR (map (fun kv => factor scale (fst kv) * sumR (log_prob th (fst kv) env (snd kv))) l).

(** log p(x, z), log p(x | z) and log q(z), scaled. *)
Definition log_joint (th : params) (d : sample V) : R :=
  scaled_sum th (bindings d) (latent_values d) + scaled_sum th (bindings d) (s_data d).
Definition log_lik (th : params) (d : sample V) : R := scaled_sum th (bindings d) (s_data d).
Definition log_q (th : params) (d : sample V) : R :=
  sumR (map (fun zq => factor scale (fst zq) * sumR (q_log_prob th (snd zq) (s_q d) (s_q d (snd zq)))) latent).

(** The regularisation penalty. *)
Definition penalty (th : params) : R := sumR (reg th).
End Spec.

(** The expected value of [f] over [n] independent draws from [space], [w] being
    the probability of each. *)
Fixpoint expected {A} (space : list A) (w : A -> R) (n : nat) (f : list A -> R) : R :=
  match n with
  | O => f []
  | S n' => sumR (map (fun a => w a * expected space w n' (fun l => f (a :: l))) space)
  end.

(** The expected value of [f] over one draw. *)
Definition mean_of {A} (space : list A) (w : A -> R) (f : A -> R) : R := sumR (map (fun a => w a * f a) space).

(** Draws that do not depend on the parameters. *)
Definition fixed_draws {A} (l : list A) : list (params -> A) := map (fun a _ => a) l.

(** The derivative with respect to variable [v]. *)
Definition partial (f : params -> R) (th : params) (v : nat) : R := Derive (fun x => f (set_param th v x)) (th v).
Definition differentiable (f : params -> R) (th : params) (v : nat) : Prop := ex_derive (fun x => f (set_param th v x)) (th v).

(** [f] does not change with variable [v]. *)
Definition independent (f : params -> R) (th : params) (v : nat) : Prop := forall x, f (set_param th v x) = f th.

(** For all values of variable [v] close to its current one. *)
Definition nearby (P : params -> Prop) (th : params) (v : nat) : Prop := locally (th v) (fun x => P (set_param th v x)).

(** Some approximation of the list is computed from variable [v]. *)
Definition reaches (g : graph) (tensor_of_var : nat -> nat) (qs : list nat) (v : nat) : Prop :=
  exists q, In q qs /\ down g anything (tensor_of_var v) (value g q).

(** The pairs give every variable of the list once (as often as the list has
    it), with [q_grad] if it reaches an approximation and [p_grad] if not. *)
Definition paired (reach : nat -> Prop) (q_grad p_grad : nat -> R) (var_list : list nat) (pairs : list (R * nat)) : Prop :=
  Permutation (map snd pairs) var_list /\
  forall gr v, In (gr, v) pairs -> (reach v -> gr = q_grad v) /\ (~ reach v -> gr = p_grad v).

(** The probability of a draw: a base weight times exp(log q) without scales. *)
Definition draw_density {V} (q_log_prob : params -> nat -> (nat -> V) -> V -> list R) (latent : list (nat * nat))
  (base : sample V -> R) (th : params) (d : sample V) : R := base d * exp (log_q q_log_prob latent [] th d).
