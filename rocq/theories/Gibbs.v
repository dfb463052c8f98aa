(** * Gibbs sampling.

    Models edward/inferences/gibbs.py:71-153 ([update], [build_update]).  The
    dictionary self.feed_dict is the further state of the algorithm; keys are
    graph elements as in Feed.v. *)
From Coq Require Import List Arith Bool.
From Verif Require Import Ext Feed MonteCarlo.
Import ListNotations.

Section Gibbs.
Context {V : Type}.
Notation dict := (list (nat * V)).
(** Keys of latent_vars; self.data (see Feed.v). *)
Variable latent : list nat.
Variable dt : @data V.

(** The random draws of one call, its scan order and its argument: the blocks
    with the values that the conditionals of their variables take in that session
    run (gibbs.py:112-119), the values that the conditionals take in the session
    run that stores (gibbs.py:122-123), the dictionary passed. *)
Record gibbs_draws : Type := mkgibbs {
  gd_blocks : list (list nat * (nat -> dict -> V)); gd_store : nat -> dict -> V; gd_feed : option dict }.

(** gibbs.py:85-102; [rows] holds row 0 at the first update. *)
Definition gibbs_start (self : dict) (rows : list V) (d : gibbs_draws) : dict :=
  let self1 := match self with [] => init_data dt (init_latent (combine latent rows) []) | _ => self end in
  dict_update self1 (or_new (gd_feed d)).

(** The scan (gibbs.py:112-119). *)
Definition gibbs_scan (fd : dict) (blocks : list (list nat * (nat -> dict -> V))) : dict :=
  fold_left (fun fd bd => scan_block (snd bd) fd (fst bd)) blocks fd.

(** update with build_update (gibbs.py:71-153): what is stored is
    self.proposal_vars[z], evaluated in a session run of its own (gibbs.py:122,
    149); n_accept always grows (gibbs.py:152). *)
Definition gibbs_kernel : kernel V dict gibbs_draws := fun _ self rows d =>
  let self' := gibbs_scan (gibbs_start self rows d) (gd_blocks d) in
  Some (self', map (fun z => gd_store d z self') latent, true).
End Gibbs.
Arguments gibbs_draws : clear implicits.
