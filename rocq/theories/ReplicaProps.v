(** * Property C28: replica exchange. *)
From Coquelicot Require Import Coquelicot.
From Coq Require Import Reals List Arith Bool Lia Lra Permutation.
From Verif Require Import Ext Feed MonteCarlo MonteCarloSpec MH MHSpec Replica ReplicaSpec ReplicaProofs
  ReplicaMoveProofs ReplicaRunProofs.
Import ListNotations.
Local Open Scope R_scope.

(** The constructor accepts exactly the ladders that start with 1. *)
Theorem C28_ladder_partial : forall {V} bs (zero : V -> V) tables,
  (exists r, new_replicas bs zero tables = Some r) <-> nth_error bs 0 = Some 1.
Proof. exact @new_replicas_some. Qed.
Print Assumptions C28_ladder_partial.

(** An exchange step puts the states in the order of [exchanged]: consecutive pairs
    from the first one on, each exchanged exactly if its test tells so, and none
    when the uniform is not below the frequency. *)
Theorem C28_order_partial : forall {V} bs freq ratios (d : replica_draws V) (samples : list (list V)),
  length samples = length bs -> (r_first d <= length bs)%nat ->
  exists D, reorder samples (new_replica_idx bs freq ratios d) = exchanged (r_first d) D samples /\
    (freq <= r_u d -> D = []) /\
    (r_u d < freq -> length D = ((length bs - r_first d) / 2)%nat /\
      forall j, (j < length D)%nat ->
        nth j D false = exchange_test bs ratios (r_first d + 2 * j) (r_us d (r_first d + 2 * j))).
Proof. exact @new_order. Qed.
Print Assumptions C28_order_partial.

(** No state is lost or duplicated. *)
Theorem C28_permutation_partial : forall {A} first D (l : list A),
  Permutation (exchanged first D l) l /\ exchanged first D (exchanged first D l) = l.
Proof. intros. split; [exact (exchanged_perm first D l)|exact (exchanged_invol first D l)]. Qed.
Print Assumptions C28_permutation_partial.

(** Detailed balance of the exchanges for the product of the tempered joint
    densities, whatever the ladder: the flow from the states [zs] by the exchanges
    [D] is that from where they lead, back by the same exchanges. *)
Theorem C28_exchange_partial : forall {V} (log_prob plp : nat -> list (nat * V) -> V -> ext) latent proposals data,
  well_posed latent proposals data -> log_densities log_prob plp ->
  forall bs zs i D, length zs = length bs -> Forall (fun z => length z = length latent) zs ->
  (i <= 1)%nat -> (i + 2 * length D <= length bs)%nat ->
  exists rs rs' q q',
    replica_ratios log_prob latent data zs = Some rs /\
    replica_ratios log_prob latent data (exchanged i D zs) = Some rs' /\
    (forall j, exchange_probability bs rs (i + 2 * j) (q j)) /\
    (forall j, exchange_probability bs rs' (i + 2 * j) (q' j)) /\
    ladder_density (joint log_prob latent data) bs zs * decision_probability q D =
    ladder_density (joint log_prob latent data) bs (exchanged i D zs) * decision_probability q' D.
Proof. exact @exchange_detailed. Qed.
Print Assumptions C28_exchange_partial.

(** A replica's own move: the temperature also multiplies the correction for the
    proposal, so detailed balance for p^b fails when the proposal is not symmetric. *)
Theorem C28_move_refuted :
  exists (lp plp : nat -> list (nat * bool) -> bool -> ext) (latent proposals : list nat) (b : R) (z z' : list bool),
    0 < b < 1 /\ well_posed (V := bool) latent proposals [] /\ log_densities lp plp /\ length z = length latent /\
    reachable latent proposals z z' /\ z <> z' /\
    (let p := joint lp latent [] in let g := propose_density Bool.bool_dec plp latent proposals [] in
     forall a a', tempered_probability lp plp latent proposals [] b z z' z' a ->
       tempered_probability lp plp latent proposals [] b z' z z a' ->
       tempered (p z) b * g z z' * a <> tempered (p z') b * g z' z * a').
Proof. exact asymmetric_refuted. Qed.
Print Assumptions C28_move_refuted.

(** It holds at temperature one, and at every temperature between states that
    propose each other with equal density. *)
Theorem C28_move_partial : forall {V} (veq : forall a b : V, {a = b} + {a <> b})
  (log_prob plp : nat -> list (nat * V) -> V -> ext) latent proposals data b,
  0 < b -> well_posed latent proposals data -> log_densities log_prob plp ->
  let p := joint log_prob latent data in let g := propose_density veq plp latent proposals data in
  forall z z', length z = length latent -> reachable latent proposals z z' -> z <> z' ->
  b = 1 \/ g z z' = g z' z ->
  exists a a', tempered_probability log_prob plp latent proposals data b z z' z' a /\
    tempered_probability log_prob plp latent proposals data b z' z z a' /\
    tempered (p z) b * g z z' * a = tempered (p z') b * g z' z * a'.
Proof. exact @tempered_balance. Qed.
Print Assumptions C28_move_partial.

(** A whole run: every update is a move of each replica followed by an exchange
    step; what is stored for the user is the state of the first replica.  The
    states start from zero, not from what the caller put into the Empirical. *)
Theorem C28_run_partial : forall {V} (log_prob proposal_log_prob : nat -> list (nat * V) -> V -> ext) latent proposals bs freq us,
  (forall i, well_posed latent proposals (r_data (fst (us i)))) ->
  (forall i j, d_data (r_moves (fst (us i)) j) = r_data (fst (us i))) ->
  (forall i, (r_first (fst (us i)) <= 1)%nat) ->
  forall zero tables replicas z0 m, new_replicas bs zero tables = Some replicas ->
  length tables = length latent -> row_is tables 0 z0 -> (forall rows, In rows tables -> (m <= length rows)%nat) ->
  exists s infos, updates (replica_kernel log_prob proposal_log_prob latent proposals bs freq) (initial tables replicas) us 0 m = Some (s, infos) /\
    exists st accs, st 0%nat = map (fun _ => map zero z0) bs /\
      (forall t, (t < m)%nat -> replica_step log_prob latent proposals bs freq us t (st t) (st (S t)) (accs t)) /\
      (forall t, (t < m)%nat -> exists z, nth_error (st (S t)) 0 = Some z /\ row_is (m_tables s) t z) /\
      (forall t, (t < m)%nat -> Forall2 (fun tbs z => row_is tbs t z) (m_extra s) (st (S t))).
Proof. exact @start_run. Qed.
Print Assumptions C28_run_partial.

(** Cases that meet the hypotheses. *)
Example C28_demo_order : exchanged 1 [true; false] [10; 20; 30; 40; 50; 60]%nat = [10; 30; 20; 40; 50; 60]%nat.
Proof. reflexivity. Qed.

Definition demo_log_prob : nat -> list (nat * bool) -> bool -> ext := fun _ _ v => if v then Fin (ln (3 / 4)) else Fin (ln (1 / 4)).
Definition demo_proposal : nat -> list (nat * bool) -> bool -> ext := fun _ _ _ => Fin (ln (1 / 2)).
Example C28_demo_posed : well_posed [0%nat] [0%nat] [(1%nat, true)] /\ log_densities demo_log_prob demo_proposal.
Proof.
  assert (N : NoDup [0%nat]) by (constructor; [simpl; tauto|constructor]).
  split.
  - split; auto. split; auto. split; [apply incl_refl|]. split; [constructor; [simpl; tauto|constructor]|].
    simpl. intros k H1 H2. destruct H1 as [<-|[]], H2 as [H2|[]]; discriminate.
  - split; intros; right; unfold demo_log_prob, demo_proposal; [destruct v|]; eauto.
Qed.
Example C28_demo_move : let g := propose_density Bool.bool_dec demo_proposal [0%nat] [0%nat] [(1%nat, true)] in
  reachable [0%nat] [0%nat] [false] [true] /\ g [false] [true] = g [true] [false] /\ 0 < g [false] [true].
Proof.
  split.
  - split; auto. intros [|[|i]] k v A B C; inversion A; subst. simpl in C. tauto.
  - unfold propose_density. simpl. rewrite exp_ln by lra. lra.
Qed.
(** Two replicas, two updates; the first has an exchange. *)
Definition demo_draws : nat -> replica_draws bool * bool := fun t =>
  (mkreplica (fun i => mkdraws [(1%nat, true)] (fun _ _ => Nat.even i) (1 / 10)) [(1%nat, true)]
     (INR t) 0 (fun _ => 1 / 10), false).
Example C28_demo_run : (forall i, well_posed [0%nat] [0%nat] (r_data (fst (demo_draws i)))) /\
  (forall i j, d_data (r_moves (fst (demo_draws i)) j) = r_data (fst (demo_draws i))) /\
  (forall i, (r_first (fst (demo_draws i)) <= 1)%nat) /\
  (exists r, new_replicas [1; 1 / 2] (fun _ => false) [[true; true; true]] = Some r) /\
  row_is [[true; true; true]] 0 [true] /\ r_u (fst (demo_draws 0)) < 1 / 10 <= r_u (fst (demo_draws 1)).
Proof.
  split; [intros i; exact (proj1 C28_demo_posed)|]. split; [intros; reflexivity|]. split; [intros; simpl; auto|].
  split; [apply C28_ladder_partial; reflexivity|]. split; [|simpl; lra].
  split; auto. intros [|[|i]] v E; inversion E; auto.
Qed.
