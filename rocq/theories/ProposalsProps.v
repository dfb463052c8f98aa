(** * C80: proposals that do not match the latent variables *)
From Coq Require Import Reals List Arith Bool Lia Lra.
From Verif Require Import Ext Feed MonteCarlo MonteCarloSpec MH MHSpec Gibbs.
From Verif Require Import Proposals ProposalsProofs.
Import ListNotations.

(** Metropolis-Hastings (and each replica of replica exchange, with [temper]):
    the update can be built exactly when every key of proposal_vars is a key of
    latent_vars. *)
Theorem C80_mh_builds_partial : forall {V} (log_prob proposal_log_prob : nat -> list (nat * V) -> V -> ext) latent proposals temper old d,
  NoDup latent -> NoDup proposals -> NoDup (map fst (d_data d)) ->
  (forall k, In k latent -> ~ In k (map fst (d_data d))) -> length old = length latent ->
  ((exists r, mh_sample log_prob proposal_log_prob latent proposals temper old d = Some r) <-> incl proposals latent).
Proof. exact @builds. Qed.
Print Assumptions C80_mh_builds_partial.

(** A latent variable without a proposal has its initial value in every row,
    whatever is drawn. *)
Theorem C80_mh_frozen_partial : forall {V} (log_prob proposal_log_prob : nat -> list (nat * V) -> V -> ext) latent proposals us tables z0 m,
  (forall i, well_posed latent proposals (d_data (fst (us i)))) ->
  length tables = length latent -> row_is tables 0 z0 -> (forall rows, In rows tables -> m <= length rows) ->
  exists s infos, updates (mh_kernel log_prob proposal_log_prob latent proposals) (initial tables tt) us 0 m = Some (s, infos) /\
    forall i z v, nth_error latent i = Some z -> ~ In z proposals -> nth_error z0 i = Some v ->
    forall j, j < m -> nth_error (nth i (m_tables s) []) j = Some v.
Proof. exact @frozen. Qed.
Print Assumptions C80_mh_frozen_partial.

(** So a variable in latent_vars need not be inferred: no error is raised, all
    states are equally probable, and no draws ever make the second variable true. *)
Theorem C80_mh_covers_refuted : exists (log_prob proposal_log_prob : nat -> list (nat * bool) -> bool -> ext) latent proposals,
  NoDup latent /\ log_densities log_prob proposal_log_prob /\
  (forall z z', length z = 2 -> length z' = 2 -> joint log_prob latent [] z = joint log_prob latent [] z' /\ (0 < joint log_prob latent [] z)%R) /\
  forall us m, (forall i, d_data (fst (us i)) = []) ->
  exists s infos, updates (mh_kernel log_prob proposal_log_prob latent proposals)
      (initial [repeat false m; repeat false m] tt) us 0 m = Some (s, infos) /\
    forall j, j < m -> nth_error (nth 1 (m_tables s) []) j = Some false.
Proof. exact covers_refuted. Qed.
Print Assumptions C80_mh_covers_refuted.

(** Gibbs is the other way round: initialize succeeds exactly when every key of
    latent_vars is a key of proposal_vars, and proposals for other variables are
    not noticed. *)
Theorem C80_gibbs_builds_partial : forall latent proposals,
  (gibbs_build latent proposals = None <-> incl latent proposals) /\
  (forall z, gibbs_build latent proposals = Some z -> In z latent /\ ~ In z proposals).
Proof. exact gibbs_builds. Qed.
Print Assumptions C80_gibbs_builds_partial.

(** An update of Gibbs raises KeyError exactly when the scan order names a
    variable without proposal.  The draws of the blocks before it stay in the
    dictionary that is fed; nothing is stored and the iteration does not count. *)
Theorem C80_gibbs_scan_partial : forall {V} latent proposals dt (s s' : mstate V (list (nat * V))) d late z,
  gibbs_try latent proposals dt s d late = Some (s', Some z) <->
  exists rows before b f after b1 b2, gather_all (m_tables s) (m_t s - 1) = Some rows /\
    gd_blocks d = before ++ (b, f) :: after /\ Forall (fun bd => incl (fst bd) proposals) before /\
    b = b1 ++ z :: b2 /\ incl b1 proposals /\ ~ In z proposals /\
    s' = mkm (m_tables s) (gibbs_scan (gibbs_start latent dt (m_extra s) rows d) before) (m_t s) (m_accept s).
Proof. exact @gibbs_key_error. Qed.
Print Assumptions C80_gibbs_scan_partial.

(** With a scan of latent variables, an update after initialize does not raise
    KeyError: it is the update of C27. *)
Theorem C80_gibbs_update_partial : forall {V} latent proposals dt (s : mstate V (list (nat * V))) d late,
  gibbs_build latent proposals = None -> Forall (fun bd => incl (fst bd) latent) (gd_blocks d) ->
  gibbs_try latent proposals dt s d late =
  match update (gibbs_kernel latent dt) s d late with Some (s', _, _) => Some (s', None) | None => None end.
Proof. exact @gibbs_after_build. Qed.
Print Assumptions C80_gibbs_update_partial.

(** Variables 0 and 1, a proposal for 0 only: Metropolis-Hastings builds, Gibbs
    does not; a proposal for the observed variable 2: Metropolis-Hastings does not. *)
Example C80_demo : let lp := fun (_ : nat) (_ : list (nat * bool)) (_ : bool) => Fin 0%R in
  let d := mkdraws [(2, true)] (fun _ _ => true) (1 / 2)%R in
  (exists r, mh_sample lp lp [0; 1] [0] (fun r => r) [false; false] d = Some r) /\
  ~ (exists r, mh_sample lp lp [0; 1] [0; 1; 2] (fun r => r) [false; false] d = Some r) /\
  gibbs_build [0; 1] [0] = Some 1 /\ gibbs_build [0; 1] [0; 1; 2] = None.
Proof. exact keys_example. Qed.
(** Gibbs with proposals for 0 and 1 and the scan 0, 2, 1: the draw for 0 is kept. *)
Example C80_scan : option_map (fun r => (m_tables (fst r), m_extra (fst r), m_t (fst r), snd r))
  (gibbs_try [0; 1] [0; 1] [] (initial [[5; 5]; [6; 6]] [])
    (mkgibbs [([0], fun _ _ => 7); ([2], fun _ _ => 8); ([1], fun _ _ => 9)] (fun _ _ => 0) None) false) =
  Some ([[5; 5]; [6; 6]], [(0, 7); (1, 6)], 0, Some 2).
Proof. reflexivity. Qed.
