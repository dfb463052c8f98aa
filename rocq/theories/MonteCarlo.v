(** * The bookkeeping of Monte Carlo algorithms.

    Models edward/inferences/monte_carlo.py:93-109 ([initialize]) and 111-150
    ([update]), and what build_update of the algorithms has in common: the old
    state is gathered from row max(t - 1, 0) of every approximation, and the
    new state is scattered into row t (metropolis_hastings.py:78-80 and 148-152,
    hmc.py:81-85 and 120-126, sgld.py:61-62 and 79-83, sghmc.py:65-66 and 87-91,
    replica_exchange_mc.py:144-146 and 117-129).

    Within one session run all reads of a table precede its write: the value
    written depends on what was read.  The one unordered read is that of
    [n_accept] by [n_accept_over_t] (monte_carlo.py:99), see [update]. *)
From Coq Require Import List Arith Bool Reals.
From Verif Require Import Ext.
Import ListNotations.

Section MonteCarlo.
(** [V] samples of a variable, [X] further state of an algorithm, [U] random
    draws (and fed values) of one session run. *)
Context {V X U : Type}.

(** tf.gather(params, i); [None] is InvalidArgumentError (metropolis_hastings.py:78-79). *)
Definition gather (rows : list V) (i : nat) : option V := nth_error rows i.

(** tf.scatter_update(variable, i, v); [None] is InvalidArgumentError (metropolis_hastings.py:151). *)
Definition scatter_update (rows : list V) (i : nat) (v : V) : option (list V) :=
  if i <? length rows then Some (firstn i rows ++ v :: skipn (S i) rows) else None.

(** The dictionary comprehension over latent_vars (e.g.
    metropolis_hastings.py:78-79). *)
Fixpoint gather_all (tables : list (list V)) (i : nat) : option (list V) :=
  match tables with
  | [] => Some []
  | rows :: ts => match gather rows i, gather_all ts i with Some v, Some vs => Some (v :: vs) | _, _ => None end
  end.

(** The loop over latent_vars (e.g. metropolis_hastings.py:149-152); the sample
    has one entry for each variable, a missing one is a KeyError. *)
Fixpoint scatter_all (tables : list (list V)) (i : nat) (vs : list V) : option (list (list V)) :=
  match tables, vs with
  | [], [] => Some []
  | rows :: ts, v :: vs' =>
      match scatter_update rows i v, scatter_all ts i vs' with Some r, Some rs => Some (r :: rs) | _, _ => None end
  | _, _ => None
  end.

(** How an algorithm moves: from t, its further state, the old state and the
    draws to the new ones and whether the proposal was accepted; [None] if it
    raises (metropolis_hastings.py:64-156 and the other build_update). *)
Definition kernel : Type := nat -> X -> list V -> U -> option (X * list V * bool).

(** The variables: params of each Empirical, further state, t, n_accept
    (monte_carlo.py:94-98, inference.py:211). *)
Record mstate : Type := mkm { m_tables : list (list V); m_extra : X; m_t : nat; m_accept : nat }.

(** The session run of self.train (build_update) (monte_carlo.py:102, 138). *)
Definition train (k : kernel) (s : mstate) (u : U) : option mstate :=
  match gather_all (m_tables s) (m_t s - 1) with
  | None => None
  | Some old =>
      match k (m_t s) (m_extra s) old u with
      | None => None
      | Some (x, new, accept) =>
          match scatter_all (m_tables s) (m_t s) new with
          | None => None
          | Some tables => Some (mkm tables x (m_t s) (m_accept s + if accept then 1 else 0))
          end
      end
  end.

(** self.n_accept / self.t (monte_carlo.py:99), a floating-point division. *)
Definition n_accept_over_t (n t : nat) : ext := ediv (Fin (INR n)) (Fin (INR t)).

(** update (monte_carlo.py:111-150).  In [sess.run([train, n_accept_over_t])]
    nothing orders the read of n_accept and its increment: [late] tells whether
    it is read after.  t is incremented in a run of its own.  Returns the
    iteration and the acceptance rate; [None] if it raises. *)
Definition update (k : kernel) (s : mstate) (u : U) (late : bool) : option (mstate * nat * ext) :=
  match train k s u with
  | None => None
  | Some s' =>
      let rate := n_accept_over_t (if late then m_accept s' else m_accept s) (m_t s) in
      let t := S (m_t s') in
      Some (mkm (m_tables s') (m_extra s') t (m_accept s'), t, rate)
  end.

(** [n] updates with the draws and orders [us i], [us (i+1)], ...; with what
    each returned (inference.py:145-147). *)
Fixpoint updates (k : kernel) (s : mstate) (us : nat -> U * bool) (i n : nat) : option (mstate * list (nat * ext)) :=
  match n with
  | O => Some (s, [])
  | S n' =>
      match update k s (fst (us i)) (snd (us i)) with
      | None => None
      | Some (s', t, rate) =>
          match updates k s' us (S i) n' with Some (s'', infos) => Some (s'', (t, rate) :: infos) | None => None end
      end
  end.

(** n_iter (monte_carlo.py:94-95): the least size; np.amin raises for no
    variable. *)
Definition n_iter (tables : list (list V)) : option nat :=
  match tables with
  | [] => None
  | rows :: ts => Some (fold_left (fun m r => Nat.min m (length r)) ts (length rows))
  end.

(** initialize and the initialisation of all variables
    (inference.py:125-138, 211, monte_carlo.py:98). *)
Definition initial (tables : list (list V)) (x : X) : mstate := mkm tables x 0 0.

(** run (inference.py:125-147). *)
Definition run (k : kernel) (tables : list (list V)) (x : X) (us : nat -> U * bool)
  : option (mstate * list (nat * ext)) :=
  match n_iter tables with None => None | Some n => updates k (initial tables x) us 0 n end.
End MonteCarlo.
Arguments kernel : clear implicits.
Arguments mstate : clear implicits.
