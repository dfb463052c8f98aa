(** * Samplers that are reset and run again.

    Models sess.run(inference.reset) for Monte Carlo algorithms
    (edward/inferences/inference.py:283-285, monte_carlo.py:104) between updates. *)
From Coq Require Import List Arith Bool Reals.
From Verif Require Import Ext MonteCarlo.
Import ListNotations.

Section Reset.
Context {V X U : Type}.

(** sess.run(self.reset): t (inference.py:285) and n_accept (monte_carlo.py:104)
    get their initial value, 0; params of the approximations and further state
    (sghmc.py:54-55, replica_exchange_mc.py:66-70) are not among the variables
    that are initialized. *)
Definition reset (s : mstate V X) : mstate V X := mkm (m_tables s) (m_extra s) 0 0.

(** Runs of updates with these numbers and draws, the inference being reset
    after each; [None] if an update raises (inference.py:35-37, 145-147). *)
Fixpoint history (k : kernel V X U) (s : mstate V X) (runs : list (nat * (nat -> U * bool))) : option (mstate V X) :=
  match runs with
  | [] => Some s
  | (n, us) :: rs =>
      match updates k s us 0 n with None => None | Some (s', _) => history k (reset s') rs end
  end.
End Reset.
