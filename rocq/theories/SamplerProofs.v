(** * Proofs for C26: untransformed stochastic gradient chains. *)
From Coquelicot Require Import Coquelicot.
From Coq Require Import Reals List Arith Bool Lia Lra.
From Verif Require Import Ext Feed MonteCarlo MonteCarloSpec MonteCarloProofs Transform MH MHSpec MHProofs
  HMC HMCSpec HMCProofs ChainProofs SGLD SGLDSpec SGLDProofs.
Import ListNotations.
Local Open Scope R_scope.

Lemma plain_row : forall (ks : list nat) (z : list tensor), length z = length ks ->
  params_row (map (fun k => (k, None)) ks) z = z.
Proof.
  unfold params_row. induction ks as [|k ks IH]; intros [|v z] H; simpl in *; try lia; auto. rewrite IH by lia. auto.
Qed.

Section Plain.
Variable log_prob : nat -> list (nat * tensor) -> tensor -> R.
Variable scale : nat -> R.
Variable keys : list nat.
Notation latent := (map (fun k => (k, @None bij)) keys).
Notation lp := (fun k d v => Fin (log_prob k d v)).

Lemma plain_fst : map fst latent = keys.
Proof. rewrite map_map. simpl. apply map_id. Qed.

Lemma scaled_log_joint_spec : forall data (z : list tensor), NoDup keys -> NoDup (map fst data) ->
  (forall k, In k keys -> ~ In k (map fst data)) -> length z = length keys ->
  scaled_log_joint lp scale latent data z = Some (Fin (scaled_log_density log_prob scale keys data z)).
Proof.
  intros data z H1 H2 H3 Hz. unfold scaled_log_joint, scaled_log_density. rewrite plain_fst.
  rewrite update_app; auto. 2:{ intros k Hk Hin. rewrite fst_combine in Hin by auto. apply (H3 k); auto. }
  set (e := combine keys z ++ data).
  assert (HG : forall k v, In (k, v) e -> dict_get e k = Some v).
  { intros k v Hin. unfold e in *. apply in_app_or in Hin. rewrite get_app. destruct Hin as [Hin|Hin].
    - rewrite (get_in _ k v); auto. rewrite fst_combine; auto.
    - rewrite get_none; [apply get_in; auto|]. rewrite fst_combine by auto. intros H. apply (H3 k H).
      change k with (fst (k, v)). apply in_map; auto. }
  assert (G : forall ks zs s, (forall k v, In (k, v) (combine ks zs) -> In (k, v) e) -> length zs = length ks ->
    fold_left (fun acc k => match acc with None => None | Some s =>
      match dict_get e k with Some v => Some (eadd s (emul (Fin (scale k)) (lp k e v))) | None => None end end) ks (Some (Fin s)) =
    Some (Fin (s + sumR (map (fun kv => scale (fst kv) * log_prob (fst kv) e (snd kv)) (combine ks zs))))).
  { induction ks as [|k ks IH]; intros [|v zs] s Hin Hlen; simpl in Hlen; try lia.
    - simpl. rewrite Rplus_0_r. auto.
    - cbn [fold_left]. rewrite (HG k v) by (apply Hin; simpl; auto). cbn [eadd emul].
      rewrite (IH zs); [|intros; apply Hin; simpl; auto|lia]. cbn [combine map sumR fst snd]. do 2 f_equal. simpl. lra. }
  rewrite (G keys z) by (auto; intros; apply in_or_app; auto).
  assert (D : forall l s, (forall k v, In (k, v) l -> In (k, v) e) ->
    fold_left (fun acc xv => match dict_get e (fst xv) with
      | Some v => eadd acc (emul (Fin (scale (fst xv))) (lp (fst xv) e v)) | None => acc end) l (Fin s) =
    Fin (s + sumR (map (fun kv => scale (fst kv) * log_prob (fst kv) e (snd kv)) l))).
  { induction l as [|[k v] l IH]; intros s Hin.
    - simpl. rewrite Rplus_0_r. auto.
    - cbn [fold_left fst]. rewrite (HG k v) by (apply Hin; simpl; auto). cbn [eadd emul].
      rewrite IH by (intros; apply Hin; simpl; auto). cbn [map fst snd]. f_equal. simpl. lra. }
  rewrite D by (intros; apply in_or_app; auto). do 2 f_equal. lra.
Qed.

Variable gradients : (list tensor -> option ext) -> list tensor -> list tensor.
Variable step_size : R.
Variable z0 : list tensor.
Variable us : nat -> sg_draws * bool.
Hypothesis Hl : length z0 = length keys.
Hypothesis Hgr : forall f z, same_shape z0 z -> same_shape z0 (gradients f z).
Hypothesis Hno : forall i, same_shape z0 (g_normal (fst (us i))).

Lemma no_bij : forall k b, In (k, Some b) latent -> exists f, forall v, inv b v = map f v.
Proof. intros k b H. apply in_map_iff in H. destruct H as (x & E & _). discriminate. Qed.

Lemma shape_len : forall z, same_shape z0 z -> length z = length keys.
Proof. intros z H. rewrite <- Hl. symmetry. unfold same_shape in H. clear - H. induction H; simpl; auto. Qed.

Lemma sgld_plain : forall tables m, row_is tables 0 z0 -> (forall rows, In rows tables -> (m <= length rows)%nat) ->
  exists s infos, updates (sgld_kernel lp scale latent gradients step_size) (initial tables tt) us 0 m = Some (s, infos) /\
    exists st, st 0%nat = z0 /\
      (forall i, let lr := step_size / Rpower (INR (i + 1)) 0.55 in
        st (S i) = plus_multiple (plus_multiple (st i) (lr / 2)
          (gradients (scaled_log_joint lp scale latent (g_data (fst (us i)))) (st i))) (sqrt lr) (g_normal (fst (us i)))) /\
      forall j, (j < m)%nat -> row_is (m_tables s) j (st (S j)).
Proof.
  intros tables m H0 Hm.
  destruct (sgld_rows lp scale latent gradients step_size z0 us) with (tables := tables) (m := m)
    as (s & infos & E & st & S0 & Sn & Ssh & Sr); auto.
  - rewrite map_length. auto.
  - apply no_bij.
  - exists s, infos. split; auto. exists st. split; auto. split; auto.
    intros i. cbv zeta. rewrite Sn. unfold sgld_step. cbv zeta. rewrite plain_row by (apply shape_len; auto). auto.
Qed.

Variable friction : R.
Lemma sghmc_plain : forall tables m, row_is tables 0 z0 -> (forall rows, In rows tables -> (m <= length rows)%nat) ->
  exists s infos, updates (sghmc_kernel lp scale latent gradients step_size friction) (initial tables (zeros z0)) us 0 m = Some (s, infos) /\
    exists vs st, vs 0%nat = zeros z0 /\ st 0%nat = z0 /\
      (forall i, st (S i) = translate (st i) (vs i) /\
        vs (S i) = plus_multiple (plus_multiple (map (map (Rmult (1 - friction / 2))) (vs i)) (step_size / 100)
          (gradients (scaled_log_joint lp scale latent (g_data (fst (us i)))) (st i)))
          (sqrt (step_size / 100 * friction)) (g_normal (fst (us i)))) /\
      forall j, (j < m)%nat -> row_is (m_tables s) j (st (S j)).
Proof.
  intros tables m H0 Hm.
  destruct (sghmc_rows lp scale latent gradients step_size z0 us) with (tables := tables) (m := m) (v0 := zeros z0) (friction := friction)
    as (s & infos & E & vs & st & V0 & S0 & Sn & Ssh & Sr & _); auto.
  - rewrite map_length. auto.
  - apply no_bij.
  - apply shape_zeros.
  - exists s, infos. split; auto. exists vs, st. split; auto. split; auto. split; auto.
    intros i. destruct (Sn i) as [A B]. destruct (Ssh i) as [_ C]. rewrite A, B. unfold sghmc_v. cbv zeta.
    rewrite plain_row by (apply shape_len; auto). split; auto.
    replace (step_size * 0.01) with (step_size / 100) by lra. auto.
Qed.
End Plain.
