(** * Proofs for C28: the start of the run, and an asymmetric proposal. *)
From Coquelicot Require Import Coquelicot.
From Coq Require Import Reals List Arith Bool Lia Lra Permutation.
From Verif Require Import Ext Feed MonteCarlo MonteCarloSpec MonteCarloProofs MH MHSpec ExtProofs MHProofs ChainProofs
  Replica ReplicaSpec ReplicaProofs ReplicaMoveProofs.
Import ListNotations.

Lemma new_replicas_some : forall {V} bs (zero : V -> V) tables,
  (exists r, new_replicas bs zero tables = Some r) <-> nth_error bs 0 = Some 1%R.
Proof.
  intros V [|b bs] zero tables; simpl; [split; [intros (r & E)|]; discriminate|].
  destruct (Req_EM_T b 1) as [->|N]; split; eauto.
  - intros (r & E). discriminate.
  - intros E. inversion E. congruence.
Qed.

Local Open Scope nat_scope.

Lemma start_run : forall {V} (log_prob proposal_log_prob : nat -> list (nat * V) -> V -> ext) latent proposals bs freq us,
  (forall i, well_posed latent proposals (r_data (fst (us i)))) ->
  (forall i j, d_data (r_moves (fst (us i)) j) = r_data (fst (us i))) ->
  (forall i, r_first (fst (us i)) <= 1) ->
  forall zero tables replicas z0 m, new_replicas bs zero tables = Some replicas ->
  length tables = length latent -> row_is tables 0 z0 -> (forall rows, In rows tables -> m <= length rows) ->
  exists s infos, updates (replica_kernel log_prob proposal_log_prob latent proposals bs freq) (initial tables replicas) us 0 m = Some (s, infos) /\
    exists st accs, st 0 = map (fun _ => map zero z0) bs /\
      (forall t, t < m -> replica_step log_prob latent proposals bs freq us t (st t) (st (S t)) (accs t)) /\
      (forall t, t < m -> exists z, nth_error (st (S t)) 0 = Some z /\ row_is (m_tables s) t z) /\
      (forall t, t < m -> Forall2 (fun tbs z => row_is tbs t z) (m_extra s) (st (S t))).
Proof.
  intros V lp plp latent proposals bs freq us Hwp Hd Hf zero tables replicas z0 m Hn Hl H0 Hm.
  assert (Hbs : bs <> []). { intros ->. discriminate. }
  assert (E : replicas = map (fun _ => map (map zero) tables) bs).
  { unfold new_replicas in Hn. destruct bs; [congruence|]. destruct (Req_EM_T r 1); [|discriminate]. inversion Hn. auto. }
  assert (H1 : 1 <= length bs) by (destruct bs; simpl; [congruence|lia]).
  apply replica_run; auto.
  - intros i. specialize (Hf i). lia.
  - subst. apply map_length.
  - subst. apply Forall_forall. intros tb Htb. apply in_map_iff in Htb. destruct Htb as (_ & <- & _). split; [rewrite map_length; auto|].
    intros rows Hr. apply in_map_iff in Hr. destruct Hr as (r & <- & Hr). rewrite map_length. auto.
  - intros _. subst. clear - H0. induction bs as [|b bs IH]; simpl; constructor; auto.
    destruct H0 as [A B]. split; [rewrite !map_length; auto|]. intros i v Ev.
    rewrite nth_error_map in Ev. destruct (nth_error z0 i) as [w|] eqn:Ew; [|discriminate]. inversion Ev; subst.
    specialize (B i w Ew). change (@nil V) with (map zero []). rewrite map_nth, nth_error_map, B. auto.
Qed.

(** ** An asymmetric proposal *)
Local Open Scope R_scope.
Definition ex_lp : nat -> list (nat * bool) -> bool -> ext := fun _ _ _ => Fin 0.
(** The proposal: from false to true with probability 1/2, from true to false with 1/8. *)
Definition ex_plp : nat -> list (nat * bool) -> bool -> ext := fun _ d v =>
  match dict_get d 0%nat with
  | Some true => if v then Fin (ln (7 / 8)) else Fin (ln (1 / 8))
  | _ => Fin (ln (1 / 2))
  end.

Lemma tempered_unique : forall {V} (lp plp : nat -> list (nat * V) -> V -> ext) latent proposals data b z z' q q',
  (forall u, exists d, proposing latent proposals data z' u d) ->
  tempered_probability lp plp latent proposals data b z z' z' q -> tempered_probability lp plp latent proposals data b z z' z' q' -> q = q'.
Proof.
  intros V lp plp latent proposals data b z z' q q' Hex (f & Hf & Cf) (h & Hh & Ch). apply (RInt_01_unique f h q q' Hf Hh).
  intros u Hu. destruct (Hex u) as (d & Hd).
  destruct (Cf u Hu) as [[E1 S1]|[E1 (r1 & N1 & S1)]]; destruct (Ch u Hu) as [[E2 S2]|[E2 (r2 & N2 & S2)]]; try congruence.
  - destruct (S1 d Hd) as (a1 & X1). destruct (S2 d Hd) as (a2 & X2). congruence.
  - destruct (S1 d Hd) as (a1 & X1). destruct (S2 d Hd) as (a2 & X2). congruence.
Qed.

Lemma tempered_sqrt : forall x, 0 < x -> tempered x (1 / 2) = sqrt x.
Proof.
  intros x Hx. unfold tempered. destruct (Req_EM_T x 0); [lra|]. replace (1 / 2) with (/ 2) by lra. apply Rpower_sqrt. auto.
Qed.

Lemma asymmetric_refuted :
  exists (lp plp : nat -> list (nat * bool) -> bool -> ext) (latent proposals : list nat) (b : R) (z z' : list bool),
    0 < b < 1 /\ well_posed (V := bool) latent proposals [] /\ log_densities lp plp /\ length z = length latent /\
    reachable latent proposals z z' /\ z <> z' /\
    (let p := joint lp latent [] in let g := propose_density Bool.bool_dec plp latent proposals [] in
     forall a a', tempered_probability lp plp latent proposals [] b z z' z' a ->
       tempered_probability lp plp latent proposals [] b z' z z a' ->
       tempered (p z) b * g z z' * a <> tempered (p z') b * g z' z * a').
Proof.
  exists ex_lp, ex_plp, [0%nat], [0%nat], (1 / 2), [false], [true].
  assert (WF : @well_posed bool [0%nat] [0%nat] []).
  { assert (N : NoDup [0%nat]) by (constructor; [simpl; tauto|constructor]).
    split; auto. split; auto. split; [apply incl_refl|]. split; [constructor|]. simpl. tauto. }
  assert (LD : log_densities ex_lp ex_plp).
  { split; intros; right; unfold ex_lp, ex_plp; eauto. destruct (dict_get d 0%nat) as [[]|]; [destruct v|..]; eauto. }
  assert (R1 : reachable [0%nat] [0%nat] [false] [true]).
  { split; auto. intros [|[|i]] k v A B C; inversion A; subst. simpl in C. tauto. }
  assert (R2 : reachable [0%nat] [0%nat] [true] [false]).
  { split; auto. intros [|[|i]] k v A B C; inversion A; subst. simpl in C. tauto. }
  split; [lra|]. split; auto. split; auto. split; auto. split; auto. split; [discriminate|].
  cbv zeta. intros a a' Ha Ha'.
  assert (Hex : forall (v : bool) u, exists d, @proposing bool [0%nat] [0%nat] [] [v] u d).
  { intros v u. exists (mkdraws [] (fun _ _ => v) u). repeat split; auto. intros k w e [E|[]] _. inversion E; auto. }
  pose proof (tempered_prob Bool.bool_dec ex_lp ex_plp [0%nat] [0%nat] [] (1 / 2) ltac:(lra) WF LD [false] [true] eq_refl R1 ltac:(discriminate)) as P1.
  pose proof (tempered_prob Bool.bool_dec ex_lp ex_plp [0%nat] [0%nat] [] (1 / 2) ltac:(lra) WF LD [true] [false] eq_refl R2 ltac:(discriminate)) as P2.
  rewrite (tempered_unique _ _ _ _ _ _ _ _ _ _ (Hex true) Ha P1), (tempered_unique _ _ _ _ _ _ _ _ _ _ (Hex false) Ha' P2).
  assert (J : forall v, joint ex_lp [0%nat] [] [v] = 1). { intros v. unfold joint. simpl. rewrite exp_0. ring. }
  assert (G1 : propose_density Bool.bool_dec ex_plp [0%nat] [0%nat] [] [false] [true] = 1 / 2).
  { unfold propose_density. simpl. rewrite exp_ln by lra. lra. }
  assert (G2 : propose_density Bool.bool_dec ex_plp [0%nat] [0%nat] [] [true] [false] = 1 / 8).
  { unfold propose_density. simpl. rewrite exp_ln by lra. lra. }
  rewrite !J, G1, G2, !Rmult_1_l. rewrite !tempered_sqrt by lra. rewrite sqrt_1.
  assert (S : sqrt (1 / 8) = sqrt (1 / 2) / 2).
  { replace (1 / 8) with ((1 / 2) / (2 * 2)) by lra. rewrite sqrt_div by lra. rewrite sqrt_square by lra. auto. }
  pose proof (sqrt_lt_R0 (1 / 2) ltac:(lra)) as Hs. rewrite S. set (w := sqrt (1 / 2)) in *.
  unfold accept_prob. destruct (Req_EM_T w 0); [lra|]. destruct (Req_EM_T (w / 2) 0); [lra|].
  replace (w / 2 / w) with (1 / 2) by (field; lra). replace (w / (w / 2)) with 2 by (field; lra).
  rewrite Rmin_right, Rmin_left by lra. lra.
Qed.

(** The exchanges, with the test on what _replica_ratio computes. *)
Lemma exchange_detailed : forall {V} (log_prob plp : nat -> list (nat * V) -> V -> ext) latent proposals data,
  well_posed latent proposals data -> log_densities log_prob plp ->
  forall bs zs i D, length zs = length bs -> Forall (fun z => length z = length latent) zs ->
  (i <= 1)%nat -> (i + 2 * length D <= length bs)%nat ->
  exists rs rs' q q',
    replica_ratios log_prob latent data zs = Some rs /\
    replica_ratios log_prob latent data (exchanged i D zs) = Some rs' /\
    (forall j, exchange_probability bs rs (i + 2 * j) (q j)) /\
    (forall j, exchange_probability bs rs' (i + 2 * j) (q' j)) /\
    ladder_density (joint log_prob latent data) bs zs * decision_probability q D =
    ladder_density (joint log_prob latent data) bs (exchanged i D zs) * decision_probability q' D.
Proof.
  intros V lp plp latent proposals data WF LD bs zs i D Hl Hz Hi HD.
  set (L := fun z : list V => if Nat.eq_dec (length z) (length latent)
     then match replica_ratio lp latent data z with Some l => l | None => Fin 0 end else Fin 0).
  assert (HL : forall z, is_log_density (L z)).
  { intros z. unfold L. destruct (Nat.eq_dec _ _) as [E|E]; [|right; eauto].
    destruct (replica_ratio_spec lp plp latent proposals data WF LD z E) as (l & El & Hd & _). rewrite El. auto. }
  assert (HR : forall ws, Forall (fun z => length z = length latent) ws ->
    replica_ratios lp latent data ws = Some (map L ws)).
  { induction ws as [|w ws IH]; intros Hw; auto. inversion Hw; subst. cbn [replica_ratios map].
    destruct (replica_ratio_spec lp plp latent proposals data WF LD w H1) as (l & El & _).
    rewrite IH by auto. unfold L at 2. destruct (Nat.eq_dec _ _); [|congruence]. rewrite El. auto. }
  assert (HP : forall ws, Forall (fun z => length z = length latent) ws ->
    ladder_density (fun z => density (L z)) bs ws = ladder_density (joint lp latent data) bs ws).
  { intros ws Hw. unfold ladder_density. f_equal. apply map_ext_in. intros [b z] Hin. cbn [fst snd]. f_equal.
    apply in_combine_r in Hin. rewrite Forall_forall in Hw. specialize (Hw z Hin).
    destruct (replica_ratio_spec lp plp latent proposals data WF LD z Hw) as (l & El & _ & Ed).
    unfold L. destruct (Nat.eq_dec _ _); [|congruence]. rewrite El. auto. }
  assert (Hz' : Forall (fun z => length z = length latent) (exchanged i D zs)).
  { eapply Permutation.Permutation_Forall; [apply Permutation.Permutation_sym, exchanged_perm|]. auto. }
  destruct (exchange_balance L HL bs zs i D Hl Hi HD) as (q & q' & A & B & C).
  exists (map L zs), (map L (exchanged i D zs)), q, q'. rewrite !HP in C by auto. auto.
Qed.
