(** * Vocabulary for C66 on any space: the approximations are integrated out in turn. *)
From Coquelicot Require Import Coquelicot.
From Coq Require Import Reals List Arith Bool.
From Verif Require Import Graph Feed Transform VI VISpec RBSpec.
Import ListNotations.
Local Open Scope R_scope.

(** The approximations of [order] have values in their spaces [D]; the rest is as in
    [e0]. *)
Definition on_space {V} (D : nat -> V -> Prop) (order : list nat) (e0 e : nat -> V) : Prop :=
  (forall q, In q order -> D q (e q)) /\ (forall k, ~ In k order -> e k = e0 k).

(** [a] is the iterated integral of [f] over the values of the approximations of
    [order], the first one outermost. *)
Fixpoint iterated {V} (D : nat -> V -> Prop) (I : nat -> (V -> R) -> R -> Prop) (order : list nat) (f : (nat -> V) -> R) (e : nat -> V) (a : R) : Prop :=
  match order with
  | [] => f e = a
  | q :: order' => exists h, (forall u, D q u -> iterated D I order' f (update e q u) (h u)) /\ I q h a
  end.

(** The terms of the log joint density and of log q at [th], and the constant 1. *)
Inductive rb_term {V} (log_prob : params -> nat -> list (nat * V) -> V -> list R) (q_log_prob : params -> nat -> (nat -> V) -> V -> list R)
  (latent : list (nat * nat)) (scale : list (nat * R)) (obs : list (nat * V)) (prior : nat -> V) (th : params) : ((nat -> V) -> R) -> Prop :=
| term_one : rb_term log_prob q_log_prob latent scale obs prior th (fun _ => 1)
| term_model : forall k, In k (map fst latent ++ map fst obs) ->
    rb_term log_prob q_log_prob latent scale obs prior th (fun e =>
      let env := bindings latent (mksample e obs prior) in
      match Feed.dict_get env k with Some u => factor scale k * sumR (log_prob th k env u) | None => 0 end)
| term_approx : forall q, In q (map snd latent) -> rb_term log_prob q_log_prob latent scale obs prior th (fun e => sumR (q_log_prob th q e (e q))).
