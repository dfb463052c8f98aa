(** * Proposals and latent variables that do not match.

    Metropolis-Hastings looks the keys of proposal_vars up in dictionaries made
    of latent_vars (MH.v); Gibbs looks the keys of latent_vars up in
    proposal_vars.  A missing key is a KeyError. *)
From Coq Require Import List Arith Bool.
From Verif Require Import Ext Feed MonteCarlo Gibbs.
Import ListNotations.

Section Gibbs.
Context {V : Type}.
Notation dict := (list (nat * V)).

(** The first of the lookups proposal_vars[z] that raises KeyError, if any does
    (gibbs.py:114, 117, 149). *)
Fixpoint first_missing (proposals keys : list nat) : option nat :=
  match keys with
  | [] => None
  | z :: zs => if in_dec Nat.eq_dec z proposals then first_missing proposals zs else Some z
  end.

(** build_update, called by initialize (gibbs.py:136-153, monte_carlo.py:102):
    the key it raises. *)
Definition gibbs_build (latent proposals : list nat) : option nat := first_missing proposals latent.

(** The scan with its lookups (gibbs.py:112-119): self.feed_dict at the end, or
    when a lookup raised.  The lookups for a block are all made before its draws
    (gibbs.py:117). *)
Fixpoint scan_keys (proposals : list nat) (fd : dict) (blocks : list (list nat * (nat -> dict -> V))) : dict * option nat :=
  match blocks with
  | [] => (fd, None)
  | bd :: bs => match first_missing proposals (fst bd) with
                | Some z => (fd, Some z)
                | None => scan_keys proposals (scan_block (snd bd) fd (fst bd)) bs
                end
  end.

(** update (gibbs.py:71-134) with the lookups: the state of the algorithm
    afterwards and the key raised, if any; [None] is InvalidArgumentError. *)
Definition gibbs_try (latent proposals : list nat) (dt : @data V) (s : mstate V dict) (d : gibbs_draws V) (late : bool)
  : option (mstate V dict * option nat) :=
  match gather_all (m_tables s) (m_t s - 1) with
  | None => None
  | Some rows =>
      match scan_keys proposals (gibbs_start latent dt (m_extra s) rows d) (gd_blocks d) with
      | (self, Some z) => Some (mkm (m_tables s) self (m_t s) (m_accept s), Some z)
      | (_, None) => match update (gibbs_kernel latent dt) s d late with
                     | Some (s', _, _) => Some (s', None)
                     | None => None
                     end
      end
  end.
End Gibbs.
