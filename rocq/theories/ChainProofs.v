(** Chains of algorithms that accept or reject. *)
From Coquelicot Require Import Coquelicot.
From Coq Require Import Reals List Arith Bool Lia Lra.
From Verif Require Import Ext Feed FeedProofs MonteCarlo MonteCarloSpec MonteCarloProofs MH MHSpec MHProofs Transform HMC HMCSpec HMCProofs.
Import ListNotations.
Local Open Scope nat_scope.

Section C.
Context {V X U : Type}.
Variable k : kernel V X U.
Variable us : nat -> U * bool.

Lemma chain_functional : forall x z j x1 z1 acc1 x2 z2 acc2,
  chain k x z us j x1 z1 acc1 -> chain k x z us j x2 z2 acc2 -> x1 = x2 /\ z1 = z2 /\ acc1 = acc2.
Proof.
  intros x z j x1 z1 acc1 x2 z2 acc2 H. revert x2 z2 acc2. induction H as [x' z' a E|j x1 z1 acc x' z' a C IH E];
    intros x2 z2 acc2 H2; inversion H2 as [y' w' b E2|i y1 w1 acc3 y' w' b C2 E2]; subst.
  - rewrite E in E2. inversion E2; subst; auto.
  - destruct (IH _ _ _ C2) as (<- & <- & <-). rewrite E in E2. inversion E2; subst; auto.
Qed.

Lemma chain_prefix : forall x z j x1 z1 acc, chain k x z us j x1 z1 acc -> forall i, i <= j ->
  exists x2 z2, chain k x z us i x2 z2 (firstn (S i) acc).
Proof.
  induction 1; intros i Hi.
  - replace i with 0 by lia. exists x', z'. simpl. constructor; auto.
  - pose proof (chain_len _ _ _ _ _ _ _ _ H) as L. destruct (Nat.eq_dec i (S j)) as [->|].
    + exists x', z'. rewrite firstn_all2 by (rewrite app_length; simpl; lia). econstructor; eauto.
    + destruct (IHchain i ltac:(lia)) as (x2 & z2 & C). exists x2, z2. rewrite firstn_app.
      replace (S i - length acc) with 0 by lia. simpl firstn at 2. rewrite app_nil_r. auto.
Qed.

Variable n : nat.
Variable P : X -> list V -> Prop.
Variable propose : nat -> list V -> list V.
Hypothesis HPn : forall x z, P x z -> length z = n.
Hypothesis Hk : forall i x z, P x z ->
  exists x' a, k i x z (fst (us i)) = Some (x', if a : bool then propose i z else z, a) /\
    P x' (if a then propose i z else z).

Lemma choose_proper : proper k P n us.
Proof.
  split; auto. intros i x z Hz. destruct (Hk i x z Hz) as (x' & a & E & L). do 3 eexists. split; [exact E|]. auto.
Qed.

Lemma chain_steps : forall x z j x1 z1 acc, P x z -> chain k x z us j x1 z1 acc -> P x1 z1 /\
  exists st, accept_reject propose z st acc /\ st (S j) = z1 /\
    forall i x2 z2 acc2, i <= j -> chain k x z us i x2 z2 acc2 -> st (S i) = z2.
Proof.
  intros x z j x1 z1 acc Hz H. induction H.
  - destruct (Hk 0 x z Hz) as (x2 & a2 & E & L). rewrite H in E. inversion E; subst.
    split; [auto|]. exists (fun i => match i with 0 => z | _ => if a2 then propose 0 z else z end).
    split; [split; auto|split; auto].
    + intros [|i] a; simpl; [intros Ea; inversion Ea; subst; auto|]. destruct i; discriminate.
    + intros i x1 z2 acc2 Hi C. inversion C; subst; [|lia]. rewrite H in H0. inversion H0; subst. auto.
  - destruct IHchain as (L1 & st & (S0 & Sn) & S1 & Sc). destruct (Hk (S j) x1 z1 L1) as (x2 & a2 & E & L).
    rewrite H0 in E. inversion E; subst. split; [auto|].
    pose proof (chain_len _ _ _ _ _ _ _ _ H) as Hl.
    exists (fun i => if Nat.eq_dec i (S (S j)) then if a2 then propose (S j) (st (S j)) else st (S j) else st i).
    split; [split|split].
    + destruct (Nat.eq_dec 0 (S (S j))); [lia|auto].
    + intros i a Ha. assert (Hi : i < length (acc ++ [a2])) by (apply nth_error_Some; congruence).
      rewrite app_length in Hi. simpl in Hi. destruct (Nat.eq_dec i (S (S j))); [lia|].
      destruct (Nat.eq_dec (S i) (S (S j))) as [Ei|Ei].
      * assert (i = S j) by lia. subst i. rewrite nth_error_app2 in Ha by lia. rewrite Hl, Nat.sub_diag in Ha. inversion Ha; auto.
      * apply Sn. rewrite nth_error_app1 in Ha by lia. auto.
    + destruct (Nat.eq_dec (S (S j)) (S (S j))); [auto|lia].
    + intros i x3 z3 acc2 Hi C. destruct (Nat.eq_dec (S i) (S (S j))) as [Ei|Ei].
      * assert (i = S j) by lia. subst i. assert (C2 : chain k x (st 0) us (S j) x2 (if a2 then propose (S j) (st (S j)) else st (S j)) (acc ++ [a2])) by (econstructor; eauto).
        destruct (chain_functional _ _ _ _ _ _ _ _ _ C C2) as (_ & -> & _). auto.
      * apply (Sc i x3 z3 acc2); auto. lia.
Qed.

Lemma chosen : forall tables x z0 m, length tables = n -> row_is tables 0 z0 -> P x z0 ->
  (forall rows, In rows tables -> m <= length rows) ->
  exists s infos, updates k (initial tables x) us 0 m = Some (s, infos) /\
    exists st acc, accept_reject propose z0 st acc /\ length acc = m /\
      (forall j, j < m -> row_is (m_tables s) j (st (S j))) /\
      m_accept s = accepted acc /\ m_accept s <= m_t s /\ m_t s = m.
Proof.
  intros tables x z0 m Hn H0 HP0 Hm. destruct (updates_after k P tables x us z0 m) as (s & infos & E & A); auto.
  { rewrite Hn. apply choose_proper. }
  exists s, infos. split; auto. destruct A as (Ht & _ & _ & Hrow & acc & La & Na & _ & Hc & _).
  destruct m as [|m].
  - exists (fun _ => z0), acc. destruct acc; [|discriminate]. split; [split; auto; intros [|i] a; discriminate|].
    split; auto. split; [intros; lia|]. split; auto. split; auto. rewrite Na. unfold accepted. simpl. lia.
  - destruct (Hc m eq_refl) as (z & C). destruct (chain_steps _ _ _ _ _ _ HP0 C) as (_ & st & St & _ & Sc). exists st, acc. split; auto. split; auto. split.
    + intros j Hj. destruct (Hrow j Hj) as (x' & z' & acc' & C' & R). rewrite (Sc j x' z' acc'); auto. lia.
    + split; auto. split; auto. rewrite Na, Ht, <- La. apply accepted_le.
Qed.
End C.

(** ** Metropolis-Hastings *)
Section MHc.
Context {V : Type}.
Notation dict := (list (nat * V)).
Variable log_prob proposal_log_prob : nat -> dict -> V -> ext.
Variable latent proposals : list nat.

Lemma mh_chosen : forall us tables z0 m,
  (forall i, well_posed latent proposals (d_data (fst (us i)))) ->
  length tables = length latent -> row_is tables 0 z0 -> (forall rows, In rows tables -> m <= length rows) ->
  exists s infos, updates (mh_kernel log_prob proposal_log_prob latent proposals) (initial tables tt) us 0 m = Some (s, infos) /\
    exists st acc, accept_reject (fun i z => proposal_state latent proposals (d_data (fst (us i))) z (fst (us i))) z0 st acc /\
      length acc = m /\ (forall j, j < m -> row_is (m_tables s) j (st (S j))) /\
      m_accept s = accepted acc /\ m_accept s <= m_t s /\ m_t s = m.
Proof.
  intros us tables z0 m WF Hl H0 Hm. apply (chosen _ _ (length latent) (fun _ z => length z = length latent)); auto.
  - intros i x z Hz. 
    destruct (mh_move log_prob proposal_log_prob latent proposals (d_data (fst (us i))) (WF i) (fun r => r) z (fst (us i)) Hz eq_refl) as (a & E).
    exists x, a. unfold mh_kernel. rewrite E. split; auto. destruct a; auto.
    unfold proposal_state. rewrite map_length, combine_length. lia.
  - destruct H0. congruence.
Qed.
End MHc.

(** ** HMC *)
Section HMCc.
Variable log_prob : nat -> list (nat * tensor) -> tensor -> ext.
Variable latent : list (nat * option bij).
Variable grad : list (nat * tensor) -> list tensor -> list tensor.
Variable e : R.
Variable n : nat.

Lemma log_joint_some : forall data zs, length zs = length latent -> log_joint log_prob latent data zs <> None.
Proof.
  intros data zs Hl. unfold log_joint. set (d := dict_update _ _).
  assert (F : forall l s, incl l (map fst latent) -> fold_left (fun acc z => match acc with None => None | Some s =>
      match dict_get d z with Some v => Some (eadd s (log_prob z d v)) | None => None end end) l (Some s) <> None).
  { assert (Hd : forall k, In k (map fst latent) -> exists v, dict_get d k = Some v).
    { intros k Hk. unfold d. rewrite <- (fst_combine (map fst latent) zs) in Hk by (rewrite map_length; auto).
      apply in_map_iff in Hk. destruct Hk as ([k' v] & <- & Hin). simpl.
      clear - Hin. unfold dict_update. revert Hin. generalize (combine (map fst latent) zs). intros c.
      assert (G : forall data0 (c : list (nat * tensor)), (exists v, dict_get c k' = Some v) ->
        exists v, dict_get (fold_left (fun a kv => dict_set a (fst kv) (snd kv)) data0 c) k' = Some v).
      { induction data0 as [|[k w] data0 IH]; intros c0 Hc; auto. simpl. apply IH.
        destruct Hc as (v0 & Hc). destruct (Nat.eq_dec k k') as [->|Hne].
        - exists w. rewrite get_set, Nat.eqb_refl. auto.
        - exists v0. rewrite get_set. destruct (Nat.eqb_spec k k'); [congruence|auto]. }
      intros Hin. apply G. clear - Hin. induction c as [|[k w] c IH]; [destruct Hin|]. simpl.
      destruct (Nat.eqb k k') eqn:E; [eauto|]. destruct Hin as [Hin|Hin]; [|auto].
      inversion Hin; subst. rewrite Nat.eqb_refl in E. discriminate. }
    induction l as [|k l IH]; intros s Hi; [discriminate|]. simpl. destruct (Hd k) as (v & Ev); [apply Hi; simpl; auto|].
    rewrite Ev. apply IH. intros k' Hk'. apply Hi. simpl; auto. }
  specialize (F (map fst latent) (Fin 0) (incl_refl _)).
  destruct (fold_left _ (map fst latent) _); [discriminate|congruence].
Qed.

Lemma hmc_choose : forall s0, List.length s0 = length latent -> forall d z,
  (forall z, same_shape s0 z -> same_shape s0 (grad (h_data d) z)) -> same_shape s0 (h_momenta d) -> same_shape s0 z ->
  exists a : bool, hmc_sample log_prob latent grad e n z d =
    Some (if a then fst (leapfrog (grad (h_data d)) e n z (h_momenta d)) else z, a).
Proof.
  intros s0 Hs d z Hg Hr Hz. unfold hmc_sample. destruct (leapfrog _ e n z _) as [z' r'] eqn:E.
  destruct (reversible (grad (h_data d)) e s0 Hg n z (h_momenta d) z' r' Hz Hr E) as (Hz' & Hr' & _).
  assert (S : forall u, same_shape s0 u -> log_joint_unconstrained log_prob latent (h_data d) u <> None).
  { intros u Hu. pose proof (shape_length latent s0 Hs u Hu) as Lu. unfold log_joint_unconstrained.
    destruct (back_transform_spec latent u Lu) as [A _]. rewrite A. 
    match goal with |- context [log_joint ?p ?l ?dd ?zz] => pose proof (log_joint_some dd zz) as LJ; destruct (log_joint p l dd zz) end;
      [discriminate|]. exfalso. apply LJ; auto. rewrite map_length, combine_length. lia. }
  pose proof (S z' Hz') as S1. pose proof (S z Hz) as S2.
  destruct (log_joint_unconstrained log_prob latent (h_data d) z'); [|congruence].
  destruct (log_joint_unconstrained log_prob latent (h_data d) z); [|congruence]. eexists. reflexivity.
Qed.

Lemma hmc_chosen : forall s0 us tables z0 m, List.length s0 = length latent ->
  (forall i z, same_shape s0 z -> same_shape s0 (grad (h_data (fst (us i))) z)) ->
  (forall i, same_shape s0 (h_momenta (fst (us i)))) -> same_shape s0 z0 ->
  row_is tables 0 z0 -> (forall rows, In rows tables -> m <= length rows) ->
  exists s infos, updates (hmc_kernel log_prob latent grad e n) (initial tables tt) us 0 m = Some (s, infos) /\
    exists st acc, accept_reject (fun i z => fst (leapfrog (grad (h_data (fst (us i)))) e n z (h_momenta (fst (us i))))) z0 st acc /\
      length acc = m /\ (forall j, j < m -> row_is (m_tables s) j (st (S j))) /\
      m_accept s = accepted acc /\ m_accept s <= m_t s /\ m_t s = m.
Proof.
  intros s0 us tables z0 m Hs Hg Hr Hz0 H0 Hm.
  apply (chosen _ _ (length latent) (fun _ z => same_shape s0 z)); auto.
  - intros x z Hz. apply (shape_length latent s0 Hs z Hz).
  - intros i x z Hz. destruct (hmc_choose s0 Hs (fst (us i)) z (Hg i) (Hr i) Hz) as (a & E). exists x, a.
    unfold hmc_kernel. rewrite E. split; auto. destruct a; auto.
    destruct (leapfrog (grad (h_data (fst (us i)))) e n z (h_momenta (fst (us i)))) as [z' r'] eqn:El.
    destruct (reversible _ e s0 (Hg i) n z _ z' r' Hz (Hr i) El) as (A & _). auto.
  - destruct H0 as [A _]. rewrite <- A. apply (shape_length latent s0 Hs z0 Hz0).
Qed.
End HMCc.
