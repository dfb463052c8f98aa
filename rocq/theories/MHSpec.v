(** * Vocabulary for C22 and C24. *)
From Coquelicot Require Import Coquelicot.
From Coq Require Import Reals List Arith Bool.
From Verif Require Import Ext Feed MonteCarlo MH.
Import ListNotations.
Local Open Scope R_scope.

(** The density a log density stands for. *)
Definition density (l : ext) : R := match l with Fin r => exp r | PInf => 0 | NInf => 0 | NaN => 0 end.
(** A log density is finite or minus infinity. *)
Definition is_log_density (l : ext) : Prop := l = NInf \/ exists r, l = Fin r.

Definition product (l : list R) : R := fold_right Rmult 1 l.
Definition sum (l : list R) : R := fold_right Rplus 0 l.

Section Spec.
Context {V : Type} (veq : forall a b : V, {a = b} + {a <> b}).
Notation dict := (list (nat * V)).
Variable log_prob proposal_log_prob : nat -> dict -> V -> ext.
Variable latent proposals : list nat.
Variable data : dict.

(** What dictionaries of Python objects satisfy; every proposal is for a latent
    variable, and no latent variable is observed. *)
Definition well_posed : Prop :=
  NoDup latent /\ NoDup proposals /\ incl proposals latent /\ NoDup (map fst data) /\
  (forall k, In k latent -> ~ In k (map fst data)).
(** log_prob is finite or minus infinity. *)
Definition log_densities : Prop :=
  (forall k d v, is_log_density (log_prob k d v)) /\ (forall k d v, is_log_density (proposal_log_prob k d v)).

(** The observed values together with the state [z] of the latent variables. *)
Definition env (z : list V) : dict := data ++ combine latent z.

(** The joint density p(x, z): priors times likelihoods. *)
Definition joint (z : list V) : R :=
  product (map (fun kv => density (log_prob (fst kv) (env z) (snd kv))) (combine latent z)) *
  product (map (fun kv => density (log_prob (fst kv) (env z) (snd kv))) data).

(** [z'] can be proposed from [z]: they agree on variables without proposal. *)
Definition reachable (z z' : list V) : Prop :=
  length z' = length z /\
  forall i k v, nth_error latent i = Some k -> nth_error z i = Some v -> ~ In k proposals -> nth_error z' i = Some v.

(** The state proposed from [z] with the draws [d]. *)
Definition proposal_state (z : list V) (d : mh_draws) : list V :=
  map (fun kv => if in_dec Nat.eq_dec (fst kv) proposals then d_propose d (fst kv) (env z) else snd kv) (combine latent z).

(** The proposal density g(z' | z): the product of the proposals' densities, all
    conditioned on [z]; variables without proposal keep their value. *)
Definition propose_density (z z' : list V) : R :=
  product (map (fun kvv => match kvv with (k, (v, v')) =>
      if in_dec Nat.eq_dec k proposals then density (proposal_log_prob k (env z) v')
      else if veq v v' then 1 else 0 end)
    (combine latent (combine z z'))).

(** The values of the proposals are those of [z']. *)
Definition proposing (z' : list V) (u : R) (d : mh_draws) : Prop :=
  d_data d = data /\ d_u d = u /\
  forall k v e, In (k, v) (combine latent z') -> In k proposals -> d_propose d k e = v.

(** Where one step leads from [z] with proposal [z'] and uniform [u]. *)
Definition steps_to (z z' : list V) (u : R) (r : list V) : Prop :=
  forall d, proposing z' u d -> exists a, mh_sample log_prob proposal_log_prob latent proposals (fun r => r) z d = Some (r, a).

(** [q] is the probability, over u uniform in [0,1], that the step from [z] with
    proposal [z'] leads to [r]. *)
Definition step_probability (z z' r : list V) (q : R) : Prop :=
  exists f : R -> R, is_RInt f 0 1 q /\
    forall u, 0 < u < 1 -> (f u = 1 /\ steps_to z z' u r) \/ (f u = 0 /\ exists r', r' <> r /\ steps_to z z' u r').

(** The probability of going from [z] to [r] in one step when the proposed states
    are those in [space]. *)
Definition transition (space : list (list V)) (z r : list V) (q : R) : Prop :=
  exists f, (forall w, In w space -> propose_density z w <> 0 -> step_probability z w r (f w)) /\
    q = sum (map (fun w => propose_density z w * f w) space).
End Spec.
