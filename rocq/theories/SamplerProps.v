(** * Properties C26 and C27: transformed Monte Carlo, and Gibbs sampling. *)
From Coquelicot Require Import Coquelicot.
From Coq Require Import Reals List Arith Bool Lia Lra.
From Verif Require Import Ext Feed MonteCarlo MonteCarloSpec MonteCarloProofs Transform MH MHSpec MHProofs
  HMC HMCSpec HMCProofs ChainProofs SGLD SGLDSpec SGLDProofs SamplerProofs Gibbs GibbsSpec GibbsProofs GibbsLawProofs.
Import ListNotations.
Local Open Scope R_scope.

(** ** C26: auto-transformed Monte Carlo reads back the sample it stored *)

(** HMC: the chain moves between the stored rows (C22_hmc, C25), and what it
    targets at the row [u] is the density of the variables there times the volume
    factor of the transformations.  The full statement for the other algorithms
    is refuted below. *)
Theorem C26_hmc_partial : forall log_prob latent data, hmc_posed log_prob latent data ->
  forall u, length u = length latent ->
  exists l, log_joint_unconstrained log_prob latent data u = Some l /\ is_log_density l /\
    density l = density_at log_prob latent data (constrain latent u) * volume_factor latent u.
Proof. exact hmc_target. Qed.
Print Assumptions C26_hmc_partial.

(** The volume factor of the elementwise transformations is the product of the
    derivatives of the map from stored to constrained values. *)
Theorem C26_volume_partial : forall b, b = Invert Sigmoid \/ b = Invert Softplus ->
  exists f, (forall v, inv b v = map f v) /\ (forall a, ex_derive f a) /\
    forall v, exp (sumR (ildj b v)) = product (map (Derive f) v).
Proof. exact volume_derivatives. Qed.
Print Assumptions C26_volume_partial.

(** SGLD and SGHMC do not start from the row they stored: for a flat posterior and
    without noise every update applies the softplus to the state once more, so the
    chain, which should stay where it is, grows for ever. *)
Theorem C26_sgld_refuted : forall scale keys gradients step_size z0 us,
  length z0 = length keys -> (forall f z, same_shape z0 z -> same_shape z0 (gradients f z)) ->
  zero_of_constants gradients -> noiseless z0 us ->
  forall tables m, row_is tables 0 z0 -> (forall rows, In rows tables -> (m <= length rows)%nat) ->
  exists s infos, updates (sgld_kernel (fun _ _ _ => Fin 0) scale (map (fun k => (k, Some (Invert Softplus))) keys)
      gradients step_size) (initial tables tt) us 0 m = Some (s, infos) /\
    forall j, (j < m)%nat -> row_is (m_tables s) j (softplus_iter (S j) z0) /\
      all_greater (softplus_iter (S j) z0) (softplus_iter j z0).
Proof. exact sgld_drift. Qed.
Print Assumptions C26_sgld_refuted.

Theorem C26_sghmc_refuted : forall scale keys gradients step_size friction z0 us,
  length z0 = length keys -> (forall f z, same_shape z0 z -> same_shape z0 (gradients f z)) ->
  zero_of_constants gradients -> noiseless z0 us ->
  forall tables m, row_is tables 0 z0 -> (forall rows, In rows tables -> (m <= length rows)%nat) ->
  exists s infos, updates (sghmc_kernel (fun _ _ _ => Fin 0) scale (map (fun k => (k, Some (Invert Softplus))) keys)
      gradients step_size friction) (initial tables (zeros z0)) us 0 m = Some (s, infos) /\
    forall j, (j < m)%nat -> row_is (m_tables s) j (softplus_iter (S j) z0) /\
      all_greater (softplus_iter (S j) z0) (softplus_iter j z0).
Proof. exact sghmc_drift. Qed.
Print Assumptions C26_sghmc_refuted.

(** For a variable on the simplex what is read has one entry more than what was
    stored. *)
Theorem C26_simplex_refuted : forall v, length (inv (Invert SoftmaxCentered) v) = S (length v).
Proof. exact simplex_length. Qed.
Print Assumptions C26_simplex_refuted.

(** Without transformation both start from the row stored: the steps of Langevin
    and Hamiltonian dynamics (missing: transformed variables). *)
Theorem C26_sgld_partial : forall log_prob scale keys gradients step_size z0 us,
  length z0 = length keys -> (forall f z, same_shape z0 z -> same_shape z0 (gradients f z)) ->
  (forall i, same_shape z0 (g_normal (fst (us i)))) ->
  forall tables m, row_is tables 0 z0 -> (forall rows, In rows tables -> (m <= length rows)%nat) ->
  let lp := fun k d v => Fin (log_prob k d v) in let latent := map (fun k => (k, None)) keys in
  exists s infos, updates (sgld_kernel lp scale latent gradients step_size) (initial tables tt) us 0 m = Some (s, infos) /\
    exists st, st 0%nat = z0 /\
      (forall i, let lr := step_size / Rpower (INR (i + 1)) 0.55 in
        st (S i) = plus_multiple (plus_multiple (st i) (lr / 2)
          (gradients (scaled_log_joint lp scale latent (g_data (fst (us i)))) (st i))) (sqrt lr) (g_normal (fst (us i)))) /\
      forall j, (j < m)%nat -> row_is (m_tables s) j (st (S j)).
Proof. exact sgld_plain. Qed.
Print Assumptions C26_sgld_partial.

Theorem C26_sghmc_partial : forall log_prob scale keys gradients step_size z0 us,
  length z0 = length keys -> (forall f z, same_shape z0 z -> same_shape z0 (gradients f z)) ->
  (forall i, same_shape z0 (g_normal (fst (us i)))) -> forall friction,
  forall tables m, row_is tables 0 z0 -> (forall rows, In rows tables -> (m <= length rows)%nat) ->
  let lp := fun k d v => Fin (log_prob k d v) in let latent := map (fun k => (k, None)) keys in
  exists s infos, updates (sghmc_kernel lp scale latent gradients step_size friction) (initial tables (zeros z0)) us 0 m = Some (s, infos) /\
    exists vs st, vs 0%nat = zeros z0 /\ st 0%nat = z0 /\
      (forall i, st (S i) = translate (st i) (vs i) /\
        vs (S i) = plus_multiple (plus_multiple (map (map (Rmult (1 - friction / 2))) (vs i)) (step_size / 100)
          (gradients (scaled_log_joint lp scale latent (g_data (fst (us i)))) (st i)))
          (sqrt (step_size / 100 * friction)) (g_normal (fst (us i)))) /\
      forall j, (j < m)%nat -> row_is (m_tables s) j (st (S j)).
Proof. exact sghmc_plain. Qed.
Print Assumptions C26_sghmc_partial.

(** The function whose gradient they follow: the scaled log joint density. *)
Theorem C26_scaled_target_partial : forall log_prob scale keys data (z : list tensor), NoDup keys -> NoDup (map fst data) ->
  (forall k, In k keys -> ~ In k (map fst data)) -> length z = length keys ->
  scaled_log_joint (fun k d v => Fin (log_prob k d v)) scale (map (fun k => (k, None)) keys) data z =
  Some (Fin (scaled_log_density log_prob scale keys data z)).
Proof. exact scaled_log_joint_spec. Qed.
Print Assumptions C26_scaled_target_partial.

(** Two variables, with three and one entries; the gradient of constants is zero. *)
Example C26_demo_hypotheses :
  let z0 : list tensor := [[1; 2; 3]; [5]] in
  let gradients := fun (f : list tensor -> option ext) (z : list tensor) => zeros z in
  let us := fun _ : nat => (mksg [] (zeros z0), false) in
  length z0 = length [7%nat; 9%nat] /\ (forall f z, same_shape z0 z -> same_shape z0 (gradients f z)) /\
  zero_of_constants gradients /\ noiseless z0 us /\ (forall i, same_shape z0 (g_normal (fst (us i)))) /\
  row_is [[[1; 2; 3]; [0; 0; 0]]; [[5]; [0]]] 0 z0.
Proof.
  simpl. split; [auto|]. split.
  - intros _ z H. eapply shape_trans; [exact H|]. apply shape_zeros.
  - split; [intros f c z _; auto|]. split; [intros i; auto|]. split; [intros i; repeat constructor|].
    split; auto. intros [|[|[|i]]] v E; inversion E; reflexivity.
Qed.
Example C26_demo_posed : hmc_posed (fun k _ v => match v with [x] => Fin (- x) | _ => NInf end)
  [(0%nat, Some (Invert Softplus))] [(1%nat, [1 / 2])].
Proof.
  split; [|split; [|split]].
  - repeat constructor; simpl; tauto.
  - repeat constructor; simpl; tauto.
  - simpl. intros k [<-|[]] [H|[]]. discriminate.
  - intros k d [|x [|y v]]; [left|right; exists (- x)|left]; auto.
Qed.

(** ** C27: Gibbs stores the draws its chain conditions on *)

(** The stored row is drawn anew, not the state: for a model of two binary
    variables the state keeps the posterior distribution [ex_p], but what is
    stored has another. *)
Theorem C27_law_refuted : exists p : bool -> bool -> R,
  (forall a b, 0 < p a b) /\ p true true + p true false + p false true + p false false = 1 /\
  (forall a b, probability p (fun self _ =>
     match self with [(0%nat, x); (1%nat, y)] => Bool.eqb x a && Bool.eqb y b | _ => false end) = p a b) /\
  probability p (fun _ stored => match stored with [x; y] => x && y | _ => false end) <> p true true.
Proof. exact gibbs_law_refuted. Qed.
Print Assumptions C27_law_refuted.

(** Every update draws, block after block, each variable given the values before
    the block; what it stores is one further draw of every variable given the
    final state.  (Missing, and false by the above: that it is the state.) *)
Theorem C27_scan_partial : forall {V} latent dt (us : nat -> gibbs_draws V * bool) tables z0 m,
  length tables = length latent -> row_is tables 0 z0 -> (forall rows, In rows tables -> (m <= length rows)%nat) ->
  exists s infos, updates (gibbs_kernel latent dt) (initial tables []) us 0 m = Some (s, infos) /\
    exists self rows, self 0%nat = [] /\ rows 0%nat = z0 /\ m_extra s = self m /\
      (forall j, (j < m)%nat -> row_is (m_tables s) j (rows (S j))) /\
      forall j, exists states,
        states 0%nat = gibbs_start latent dt (self j) (rows j) (fst (us j)) /\
        sweep (gd_blocks (fst (us j))) states /\
        self (S j) = states (length (gd_blocks (fst (us j)))) /\
        rows (S j) = map (fun z => gd_store (fst (us j)) z (self (S j))) latent.
Proof. exact @gibbs_rows. Qed.
Print Assumptions C27_scan_partial.

(** An update starts from the state, except where the caller feeds a value. *)
Theorem C27_start_partial : forall {V} latent dt (self : list (nat * V)) rows d k, self <> [] ->
  (forall v, ~ In (k, v) (or_new (gd_feed d))) ->
  dict_get (gibbs_start latent dt self rows d) k = dict_get self k.
Proof. exact @start_get. Qed.
Print Assumptions C27_start_partial.

(** A scan in any order, by draws from the complete conditionals, leaves the
    distribution of the state as it is: any finite model. *)
Theorem C27_invariant_partial : forall {V} (veq : forall a b : V, {a = b} + {a <> b}) latent values space (p : list V -> R),
  NoDup latent -> all_states latent values space -> (forall s, 0 <= p s) ->
  forall order r, (forall i, In i order -> (i < length latent)%nat) -> In r space ->
  law_after veq latent values space p order p r = p r.
Proof. exact @gibbs_invariant. Qed.
Print Assumptions C27_invariant_partial.

Example C27_demo_scan : sweep [([1%nat], fun _ d => match dict_get d 0%nat with Some v => (v + 10)%nat | None => 0%nat end);
     ([0%nat], fun _ d => match dict_get d 1%nat with Some v => (v + 100)%nat | None => 0%nat end)]
  (fun i => match i with O => [(0, 5); (1, 6)] | 1 => [(0, 5); (1, 15)] | _ => [(0, 115); (1, 15)] end%nat).
Proof.
  intros [|[|[|i]]] b draw E; inversion E; subst; intros k; destruct (in_dec _ k _) as [[<-|[]]|N]; auto;
    destruct k as [|[|k]]; auto; simpl in N; tauto.
Qed.
Example C27_demo_states : all_states [4%nat; 7%nat] [true; false] [[true; true]; [true; false]; [false; true]; [false; false]].
Proof.
  split; [|split].
  - repeat constructor; simpl; intuition discriminate.
  - repeat constructor; simpl; intuition discriminate.
  - intros s. split.
    + intros [<-|[<-|[<-|[<-|[]]]]]; split; auto; intros v [<-|[<-|[]]]; simpl; auto.
    + intros [H _]. destruct s as [|[] [|[] [|? s]]]; simpl in *; try discriminate; auto.
Qed.
