(** * Vocabulary for C37, C38 (draws that depend on the variables), C67 and C68. *)
From Coquelicot Require Import Coquelicot.
From Coq Require Import Reals List Arith Bool.
From Verif Require Import Graph GraphSpec Feed Transform VI VISpec.
Import ListNotations.
Local Open Scope R_scope.

(** The log density of no approximation changes by way of the draws of other
    approximations that it is conditional on. *)
Definition conditions_held {V} (q_log_prob : params -> nat -> (nat -> V) -> V -> list R) (latent : list (nat * nat))
  (ds : list (params -> sample V)) (th : params) (v : nat) : Prop :=
  forall d q x u, In d ds -> In q (map snd latent) ->
    q_log_prob (set_param th v x) q (s_q (d (set_param th v x))) u = q_log_prob (set_param th v x) q (s_q (d th)) u.

(** What approximations are conditional on in the sleep phase: draws from the
    prior for the latent variables, the data for the observed ones. *)
Definition fantasy {V} (latent : list (nat * nat)) (d : sample V) (k : nat) : V :=
  match find (fun zq => Nat.eqb (snd zq) k) latent with
  | Some zq => s_prior d (fst zq)
  | None => match Feed.dict_get (s_data d) k with Some u => u | None => s_q d k end
  end.

(** log q at draws from the prior, each term multiplied by the scale [c]. *)
Definition fantasy_log_q {V} (q_log_prob : params -> nat -> (nat -> V) -> V -> list R) (latent : list (nat * nat)) (c : R)
  (th : params) (d : sample V) : R :=
  sumR (map (fun zq => c * sumR (q_log_prob th (snd zq) (fantasy latent d) (s_prior d (fst zq)))) latent).

(** As [conditions_held], for the sleep phase. *)
Definition fantasies_held {V} (q_log_prob : params -> nat -> (nat -> V) -> V -> list R) (latent : list (nat * nat))
  (ds : list (params -> sample V)) (th : params) (v : nat) : Prop :=
  forall d q x u, In d ds -> In q (map snd latent) ->
    q_log_prob (set_param th v x) q (fantasy latent (d (set_param th v x))) u =
    q_log_prob (set_param th v x) q (fantasy latent (d th)) u.
