From Coquelicot Require Import Coquelicot.
From Coq Require Import Reals String List Arith Bool Lia Lra.
From Verif Require Import Ext Feed FeedProofs MonteCarlo MonteCarloSpec MonteCarloProofs Transform TransformSpec TransformProofs
  MHSpec ExtProofs MHProofs HMC HMCSpec HMCProofs ChainProofs SGLD SGLDSpec.
Import ListNotations.
Local Open Scope R_scope.

(** ** Algorithms that always move *)
Section Driven.
Context {V X U : Type}.
Variable k : kernel V X U.
Variable us : nat -> U * bool.
Variable n : nat.
Variable P : X -> list V -> Prop.
Variable nx : nat -> X -> list V -> X.
Variable nz : nat -> X -> list V -> list V.
Hypothesis HPn : forall x z, P x z -> length z = n.
Hypothesis Hk : forall i x z, P x z -> k i x z (fst (us i)) = Some (nx i x z, nz i x z, true) /\ P (nx i x z) (nz i x z).

Fixpoint states (i : nat) (p : X * list V) : X * list V :=
  match i with O => p | S i' => let q := states i' p in (nx i' (fst q) (snd q), nz i' (fst q) (snd q)) end.

Lemma states_P : forall i x z, P x z -> P (fst (states i (x, z))) (snd (states i (x, z))).
Proof. induction i; intros x z H; simpl; auto. apply Hk. auto. Qed.

Lemma chain_states : forall j x z, P x z ->
  chain k x z us j (fst (states (S j) (x, z))) (snd (states (S j) (x, z))) (repeat true (S j)).
Proof.
  induction j as [|j IH]; intros x z H.
  - simpl. constructor. apply Hk; auto.
  - replace (repeat true (S (S j))) with (repeat true (S j) ++ [true]) by (symmetry; apply (repeat_cons (S j) true)).
    econstructor; [apply IH; auto|]. apply (Hk (S j)). apply (states_P (S j)); auto.
Qed.

Lemma driven : forall tables x z0 m, length tables = n -> row_is tables 0 z0 -> P x z0 ->
  (forall rows, In rows tables -> (m <= length rows)%nat) ->
  exists s infos, updates k (initial tables x) us 0 m = Some (s, infos) /\ m_t s = m /\ m_accept s = m /\
    rest_unchanged tables (m_tables s) m /\
    exists stx st, stx 0%nat = x /\ st 0%nat = z0 /\
      (forall i, stx (S i) = nx i (stx i) (st i) /\ st (S i) = nz i (stx i) (st i)) /\
      (forall i, P (stx i) (st i)) /\
      (forall j, (j < m)%nat -> row_is (m_tables s) j (st (S j))) /\ m_extra s = stx m.
Proof.
  intros tables x z0 m Hn H0 HP0 Hm.
  assert (Hp : proper k P (length tables) us).
  { rewrite Hn. split; auto. intros i x1 z1 H1. destruct (Hk i x1 z1 H1) as [A B]. eauto. }
  destruct (updates_after k P tables x us z0 m) as (s & infos & E & A); auto.
  exists s, infos. split; auto. destruct A as (Ht & _ & Hrest & Hrow & acc & La & Na & Hx0 & Hc & _). split; auto.
  assert (Hacc : m = O -> accepted acc = O).
  { intros ->. destruct acc; [reflexivity|discriminate]. }
  split.
  { destruct m as [|m]; [rewrite Na; auto|]. destruct (Hc m eq_refl) as (z & C).
    destruct (chain_functional k us _ _ _ _ _ _ _ _ _ C (chain_states m x z0 HP0)) as (_ & _ & ->).
    rewrite Na. unfold accepted. rewrite count_occ_repeat_eq; auto. }
  split; auto.
  exists (fun i => fst (states i (x, z0))), (fun i => snd (states i (x, z0))).
  split; auto. split; auto. split; [intros i; auto|]. split; [intros i; apply states_P; auto|]. split.
  - intros j Hj. destruct (Hrow j Hj) as (x' & z' & acc' & C & R).
    destruct (chain_functional k us _ _ _ _ _ _ _ _ _ C (chain_states j x z0 HP0)) as (_ & -> & _). auto.
  - destruct m as [|m]; [apply Hx0; auto|]. destruct (Hc m eq_refl) as (z & C).
    destruct (chain_functional k us _ _ _ _ _ _ _ _ _ C (chain_states m x z0 HP0)) as (A & _ & _). auto.
Qed.
End Driven.

(** ** Shapes *)
Lemma params_row_shape : forall latent z, length z = length latent ->
  (forall l, In l latent -> snd l <> Some (Invert SoftmaxCentered)) ->
  (forall l b, In l latent -> snd l = Some b -> exists f, forall v, inv b v = map f v) ->
  same_shape z (params_row latent z).
Proof.
  unfold same_shape, params_row. induction latent as [|[k b] l IH]; intros [|v z] Hl Hn Hb; simpl in *; try lia; constructor.
  - destruct b as [b|]; auto. destruct (Hb (k, Some b) b (or_introl eq_refl) eq_refl) as (f & Hf). rewrite Hf, map_length; auto.
  - apply IH; auto. intros; eapply Hb; eauto.
Qed.

Lemma langevin_translate : forall lr z g e, same_shape z g -> same_shape z e ->
  langevin lr z g e = plus_multiple (plus_multiple z (lr / 2) g) (sqrt lr) e.
Proof.
  unfold same_shape, plus_multiple, translate. intros lr z g e H. revert e.
  induction H; intros e He; inversion He; subst; simpl; auto.
  rewrite IHForall2 by auto. f_equal. unfold vadd, vscal. replace (0.5 * lr) with (lr / 2) by lra. auto.
Qed.

Lemma velocity_translate : forall fr lr v g e, same_shape v g -> same_shape v e ->
  velocity fr lr v g e =
  plus_multiple (plus_multiple (map (map (Rmult (1 - fr / 2))) v) lr g) (sqrt (lr * fr)) e.
Proof.
  unfold same_shape, plus_multiple, translate. intros fr lr v g e H. revert e.
  induction H; intros e He; inversion He; subst; simpl; auto.
  rewrite IHForall2 by auto. f_equal. unfold vadd, vscal. replace (1 - 0.5 * fr) with (1 - fr / 2) by lra. auto.
Qed.

Lemma shape_plus : forall z c a, same_shape z a -> same_shape z (plus_multiple z c a).
Proof.
  intros z c a H. unfold plus_multiple. apply shape_translate. unfold same_shape in *.
  induction H; constructor; auto. rewrite map_length; auto.
Qed.

Lemma shape_zeros : forall z, same_shape z (zeros z).
Proof. unfold same_shape, zeros. induction z; simpl; constructor; auto. rewrite map_length; auto. Qed.

Lemma zeros_shape : forall z z', same_shape z z' -> zeros z = zeros z'.
Proof.
  unfold same_shape, zeros. induction 1; simpl; auto. rewrite IHForall2. f_equal. clear - H.
  revert y H. induction x; intros [|b y] H; simpl in *; try discriminate; auto. f_equal. apply IHx. lia.
Qed.

Lemma vec_zeros : forall c (v : list R), map (fun q : R * R => fst q + snd q) (combine v (map (Rmult c) (map (fun _ : R => 0) v))) = v.
Proof. induction v as [|a v IHv]; simpl; auto. rewrite IHv. f_equal. lra. Qed.
Lemma vec_zeros' : forall (v : list R), map (fun q : R * R => fst q + snd q) (combine v (map (fun _ : R => 0) v)) = v.
Proof. induction v as [|a v IHv]; simpl; auto. rewrite IHv. f_equal. lra. Qed.

Lemma plus_zeros : forall z c, plus_multiple z c (zeros z) = z.
Proof.
  unfold plus_multiple, translate, zeros. induction z as [|v z IH]; intros c; simpl; auto. rewrite IH, vec_zeros. auto.
Qed.

Lemma translate_zeros : forall z, translate z (zeros z) = z.
Proof.
  unfold translate, zeros. induction z as [|v z IH]; simpl; auto. rewrite IH, vec_zeros'. auto.
Qed.

Section SG.
Variable log_prob : nat -> list (nat * tensor) -> tensor -> ext.
Variable scale : nat -> R.
Variable latent : list (nat * option bij).
Variable gradients : (list tensor -> option ext) -> list tensor -> list tensor.
Variable step_size : R.
Variable z0 : list tensor.
Variable us : nat -> sg_draws * bool.
Hypothesis Hl : length z0 = length latent.
Hypothesis Hel : forall k b, In (k, Some b) latent -> exists f, forall v, inv b v = map f v.
Hypothesis Hgr : forall f z, same_shape z0 z -> same_shape z0 (gradients f z).
Hypothesis Hno : forall i, same_shape z0 (g_normal (fst (us i))).

Notation shape := (same_shape z0).
Lemma read_shape : forall z, shape z -> shape (params_row latent z).
Proof.
  intros z Hz. eapply shape_trans; [exact Hz|]. apply params_row_shape.
  - rewrite <- Hl. unfold same_shape in Hz. clear - Hz. induction Hz; simpl; auto.
  - intros [k b] Hin E. simpl in E. subst b. destruct (Hel _ _ Hin) as (f & Hf). specialize (Hf []). simpl in Hf.
    unfold softmax_centered in Hf. simpl in Hf. discriminate.
  - intros [k b'] b Hin E. simpl in E. subst b'. eauto.
Qed.

(** The step of SGLD from the row [z]. *)
Definition sgld_step (i : nat) (z : list tensor) : list tensor :=
  let w := params_row latent z in
  let lr := step_size / Rpower (INR (i + 1)) 0.55 in
  plus_multiple (plus_multiple w (lr / 2) (gradients (scaled_log_joint log_prob scale latent (g_data (fst (us i)))) w))
    (sqrt lr) (g_normal (fst (us i))).

Lemma sgld_moves : forall i x z, shape z ->
  sgld_kernel log_prob scale latent gradients step_size i x z (fst (us i)) = Some (x, sgld_step i z, true) /\ shape (sgld_step i z).
Proof.
  intros i x z Hz. pose proof (read_shape z Hz) as Hw.
  assert (Hg : same_shape (params_row latent z)
     (gradients (scaled_log_joint log_prob scale latent (g_data (fst (us i)))) (params_row latent z))).
  { eapply shape_trans; [apply shape_sym; exact Hw|]. apply Hgr; auto. }
  assert (Hn : same_shape (params_row latent z) (g_normal (fst (us i)))).
  { eapply shape_trans; [apply shape_sym; exact Hw|]. apply Hno. }
  split.
  - unfold sgld_kernel, sgld_step, learning_rate. rewrite langevin_translate; auto.
  - unfold sgld_step. cbv zeta. eapply shape_trans; [exact Hw|].
    pose proof (shape_plus _ (step_size / Rpower (INR (i + 1)) 0.55 / 2) _ Hg) as A.
    eapply shape_trans; [exact A|]. apply shape_plus. eapply shape_trans; [apply shape_sym; exact A|]. auto.
Qed.

Lemma sgld_rows : forall tables m, row_is tables 0 z0 -> (forall rows, In rows tables -> (m <= length rows)%nat) ->
  exists s infos, updates (sgld_kernel log_prob scale latent gradients step_size) (initial tables tt) us 0 m = Some (s, infos) /\
    exists st, st 0%nat = z0 /\ (forall i, st (S i) = sgld_step i (st i)) /\
      (forall i, shape (st i)) /\
      (forall j, (j < m)%nat -> row_is (m_tables s) j (st (S j))).
Proof.
  intros tables m H0 Hm.
  destruct (driven (sgld_kernel log_prob scale latent gradients step_size) us (length latent) (fun _ z => shape z)
    (fun _ x _ => x) (fun i _ z => sgld_step i z)) with (tables := tables) (x := tt) (z0 := z0) (m := m)
    as (s & infos & E & _ & _ & _ & stx & st & _ & S0 & Sn & SP & Sr & _); auto.
  - intros x z Hz. apply (shape_length latent z0 Hl z Hz).
  - intros i x z Hz. apply sgld_moves; auto.
  - destruct H0 as [A _]. congruence.
  - apply shape_refl.
  - exists s, infos. split; auto. exists st. split; auto. split; [intros i; apply Sn|]. auto.
Qed.

Variable friction : R.

Definition sghmc_v (i : nat) (v z : list tensor) : list tensor :=
  let lr := step_size * 0.01 in
  plus_multiple (plus_multiple (map (map (Rmult (1 - friction / 2))) v) lr
     (gradients (scaled_log_joint log_prob scale latent (g_data (fst (us i)))) (params_row latent z)))
    (sqrt (lr * friction)) (g_normal (fst (us i))).

Lemma sghmc_moves : forall i v z, shape v /\ shape z ->
  sghmc_kernel log_prob scale latent gradients step_size friction i v z (fst (us i)) =
    Some (sghmc_v i v z, translate (params_row latent z) v, true) /\
  shape (sghmc_v i v z) /\ shape (translate (params_row latent z) v).
Proof.
  intros i v z [Hv Hz]. pose proof (read_shape z Hz) as Hw.
  assert (Hg : same_shape v (gradients (scaled_log_joint log_prob scale latent (g_data (fst (us i)))) (params_row latent z))).
  { eapply shape_trans; [apply shape_sym; exact Hv|]. apply Hgr; auto. }
  assert (Hn : same_shape v (g_normal (fst (us i)))).
  { eapply shape_trans; [apply shape_sym; exact Hv|]. apply Hno. }
  split; [|split].
  - unfold sghmc_kernel, sghmc_v. rewrite velocity_translate; auto.
  - unfold sghmc_v. cbv zeta. eapply shape_trans; [exact Hv|].
    assert (Hv2 : same_shape v (map (map (Rmult (1 - friction / 2))) v)) by apply shape_scal.
    eapply shape_trans; [exact Hv2|].
    match goal with |- same_shape ?a (plus_multiple ?b _ _) => assert (A : same_shape a b) end.
    { apply shape_plus. eapply shape_trans; [apply shape_sym; exact Hv2|]. auto. }
    eapply shape_trans; [exact A|]. apply shape_plus. eapply shape_trans; [apply shape_sym; exact A|].
    eapply shape_trans; [apply shape_sym; exact Hv2|]. auto.
  - eapply shape_trans; [exact Hw|]. apply shape_translate. eapply shape_trans; [apply shape_sym; exact Hw|]. auto.
Qed.

Lemma sghmc_rows : forall v0 tables m, shape v0 -> row_is tables 0 z0 -> (forall rows, In rows tables -> (m <= length rows)%nat) ->
  exists s infos, updates (sghmc_kernel log_prob scale latent gradients step_size friction) (initial tables v0) us 0 m = Some (s, infos) /\
    exists vs st, vs 0%nat = v0 /\ st 0%nat = z0 /\
      (forall i, vs (S i) = sghmc_v i (vs i) (st i) /\ st (S i) = translate (params_row latent (st i)) (vs i)) /\
      (forall i, shape (vs i) /\ shape (st i)) /\
      (forall j, (j < m)%nat -> row_is (m_tables s) j (st (S j))) /\ m_extra s = vs m.
Proof.
  intros v0 tables m Hv H0 Hm.
  destruct (driven (sghmc_kernel log_prob scale latent gradients step_size friction) us (length latent) (fun v z => shape v /\ shape z)
    (fun i v z => sghmc_v i v z) (fun _ v z => translate (params_row latent z) v)) with (tables := tables) (x := v0) (z0 := z0) (m := m)
    as (s & infos & E & _ & _ & _ & stx & st & Sx0 & S0 & Sn & SP & Sr & Se); auto.
  - intros x z [_ Hz]. apply (shape_length latent z0 Hl z Hz).
  - intros i x z Hz. apply sghmc_moves; auto.
  - destruct H0 as [A _]. congruence.
  - split; auto. apply shape_refl.
  - exists s, infos. split; auto. exists stx, st. repeat (split; auto).
Qed.
End SG.

(** ** The transformed samplers drift *)
Lemma softplus_gt : forall x, softplus x > x.
Proof.
  intros x. unfold softplus. rewrite <- (ln_exp x) at 2. apply ln_increasing; [apply exp_pos|]. lra.
Qed.

Lemma scaled_const : forall scale latent data (z : list tensor), length z = length latent ->
  exists c, forall z', length z' = length latent -> scaled_log_joint (fun _ _ _ => Fin 0) scale latent data z' = Some c.
Proof.
  intros scale latent data z Hz. clear z Hz. unfold scaled_log_joint.
  set (f1 := fun (l : list nat) c => fold_left (fun a z => a + scale z * 0) l c).
  set (f2 := fun (l : list (nat * tensor)) c => fold_left (fun a z => a + scale (fst z) * 0) l c).
  exists (Fin (f2 data (f1 (map fst latent) 0))). intros z' Hz'. set (d := dict_update _ _).
  assert (Hd : forall k, In k (map fst latent) \/ In k (map fst data) -> exists v, dict_get d k = Some v).
  { intros k Hk. unfold d, dict_update.
    assert (G : forall data0 (c : list (nat * tensor)), (In k (map fst data0) \/ exists v, dict_get c k = Some v) ->
        exists v, dict_get (fold_left (fun a kv => dict_set a (fst kv) (snd kv)) data0 c) k = Some v).
    { induction data0 as [|[k1 w] data0 IH]; intros c [H|H]; simpl in *; auto; try contradiction.
      - apply IH. destruct H as [->|H]; auto. right. exists w. rewrite get_set, Nat.eqb_refl. auto.
      - apply IH. right. destruct H as (v & H). rewrite get_set. destruct (Nat.eqb k1 k); eauto. }
    apply G. destruct Hk as [Hk|Hk]; auto. right. apply get_key. rewrite fst_combine; auto. rewrite map_length; auto. }
  assert (F1 : forall l s, incl l (map fst latent) -> fold_left (fun acc z => match acc with None => None | Some s =>
      match dict_get d z with Some v => Some (eadd s (emul (Fin (scale z)) (Fin 0))) | None => None end end) l (Some (Fin s))
      = Some (Fin (f1 l s))).
  { induction l as [|k l IH]; intros s Hi; [reflexivity|]. cbn [fold_left]. destruct (Hd k) as (v & Ev); [left; apply Hi; simpl; auto|].
    rewrite Ev. cbn [eadd emul]. unfold f1. cbn [fold_left]. fold (f1 l (s + scale k * 0)). apply IH. intros a Ha. apply Hi. simpl; auto. }
  rewrite F1 by apply incl_refl. f_equal.
  assert (F2 : forall l s, incl l data -> fold_left (fun acc xv => match dict_get d (fst xv) with
      | Some v => eadd acc (emul (Fin (scale (fst xv))) (Fin 0)) | None => acc end) l (Fin s) = Fin (f2 l s)).
  { induction l as [|k l IH]; intros s Hi; [reflexivity|]. cbn [fold_left]. destruct (Hd (fst k)) as (v & Ev).
    { right. apply in_map. apply Hi. simpl; auto. }
    rewrite Ev. cbn [eadd emul]. unfold f2. cbn [fold_left]. fold (f2 l (s + scale (fst k) * 0)). apply IH. intros a Ha. apply Hi. simpl; auto. }
  apply F2. apply incl_refl.
Qed.

Section Drift.
Variable scale : nat -> R.
Variable keys : list nat.
Variable gradients : (list tensor -> option ext) -> list tensor -> list tensor.
Variable step_size friction : R.
Variable z0 : list tensor.
Variable us : nat -> sg_draws * bool.
Hypothesis Hl : length z0 = length keys.
Hypothesis Hgr : forall f z, same_shape z0 z -> same_shape z0 (gradients f z).
Hypothesis Hz : zero_of_constants gradients.
Hypothesis Hno : noiseless z0 us.

Notation latent := (map (fun k => (k, Some (Invert Softplus))) keys).

Lemma softplus_row : forall (ks : list nat) z, length z = length ks ->
  params_row (map (fun k => (k, Some (Invert Softplus))) ks) z = map (map softplus) z.
Proof.
  unfold params_row. induction ks as [|k ks IH]; intros [|v z] H; simpl in *; try lia; auto. rewrite IH by lia. auto.
Qed.

Lemma flat_gradient : forall i z, same_shape z0 z ->
  gradients (scaled_log_joint (fun _ _ _ => Fin 0) scale latent (g_data (fst (us i)))) z = zeros z.
Proof.
  intros i z Hzz. assert (L : length z = length latent).
  { rewrite map_length, <- Hl. symmetry. clear - Hzz. unfold same_shape in Hzz. induction Hzz; simpl; auto. }
  destruct (scaled_const scale latent (g_data (fst (us i))) z L) as (c & Hc).
  apply (Hz _ c). intros z' Hz'. apply Hc. rewrite <- L. symmetry. clear - Hz'. unfold same_shape in Hz'. induction Hz'; simpl; auto.
Qed.

Lemma elementwise : forall k b, In (k, Some b) latent -> exists f, forall v, inv b v = map f v.
Proof.
  intros k b H. apply in_map_iff in H. destruct H as (k' & E & _). inversion E; subst. exists softplus. auto.
Qed.
Lemma noise_shape : forall i, same_shape z0 (g_normal (fst (us i))).
Proof. intros i. rewrite Hno. apply shape_zeros. Qed.

Lemma iter_gt : forall n, same_shape z0 (softplus_iter n z0) /\ all_greater (softplus_iter (S n) z0) (softplus_iter n z0).
Proof.
  intros n. split.
  - induction n; simpl; [apply shape_refl|]. eapply shape_trans; [exact IHn|]. generalize (softplus_iter n z0). intros l.
    unfold same_shape. induction l; simpl; constructor; auto. rewrite map_length; auto.
  - simpl. generalize (softplus_iter n z0). intros l. unfold all_greater. induction l as [|v l IH]; simpl; constructor; auto.
    induction v; simpl; constructor; auto. apply softplus_gt.
Qed.

Lemma sgld_drift : forall tables m, row_is tables 0 z0 -> (forall rows, In rows tables -> (m <= length rows)%nat) ->
  exists s infos, updates (sgld_kernel (fun _ _ _ => Fin 0) scale latent gradients step_size) (initial tables tt) us 0 m = Some (s, infos) /\
    forall j, (j < m)%nat -> row_is (m_tables s) j (softplus_iter (S j) z0) /\
      all_greater (softplus_iter (S j) z0) (softplus_iter j z0).
Proof.
  intros tables m H0 Hm.
  destruct (sgld_rows (fun _ _ _ => Fin 0) scale latent gradients step_size z0 us) with (tables := tables) (m := m)
    as (s & infos & E & st & S0 & Sn & Ssh & Sr); auto.
  - rewrite map_length. auto.
  - apply elementwise.
  - apply noise_shape.
  - exists s, infos. split; auto. intros j Hj. split; [|apply iter_gt].
    assert (Es : forall i, st i = softplus_iter i z0).
    { induction i as [|i IH]; [auto|]. rewrite Sn. unfold sgld_step. cbv zeta. rewrite softplus_row.
      2:{ rewrite <- Hl. specialize (Ssh i). symmetry. clear - Ssh. unfold same_shape in Ssh. induction Ssh; simpl; auto. }
      assert (Hs : same_shape z0 (map (map softplus) (st i))) by (rewrite IH; apply (iter_gt (S i))).
      rewrite flat_gradient by auto. rewrite plus_zeros, Hno, (zeros_shape _ _ Hs), plus_zeros. rewrite IH. auto. }
    rewrite <- (Es (S j)). auto.
Qed.

Lemma sghmc_drift : forall tables m, row_is tables 0 z0 -> (forall rows, In rows tables -> (m <= length rows)%nat) ->
  exists s infos, updates (sghmc_kernel (fun _ _ _ => Fin 0) scale latent gradients step_size friction) (initial tables (zeros z0)) us 0 m = Some (s, infos) /\
    forall j, (j < m)%nat -> row_is (m_tables s) j (softplus_iter (S j) z0) /\
      all_greater (softplus_iter (S j) z0) (softplus_iter j z0).
Proof.
  intros tables m H0 Hm.
  destruct (sghmc_rows (fun _ _ _ => Fin 0) scale latent gradients step_size z0 us) with (tables := tables) (m := m) (v0 := zeros z0) (friction := friction)
    as (s & infos & E & vs & st & V0 & S0 & Sn & Ssh & Sr & _); auto.
  - rewrite map_length. auto.
  - apply elementwise.
  - apply noise_shape.
  - apply shape_zeros.
  - exists s, infos. split; auto. intros j Hj. split; [|apply iter_gt].
    assert (Es : forall i, vs i = zeros z0 /\ st i = softplus_iter i z0).
    { induction i as [|i [IHv IH]]; [auto|]. destruct (Sn i) as [-> ->]. unfold sghmc_v. cbv zeta. rewrite softplus_row.
      2:{ rewrite <- Hl. destruct (Ssh i) as [_ Si]. symmetry. clear - Si. unfold same_shape in Si. induction Si; simpl; auto. }
      assert (Hs : same_shape z0 (map (map softplus) (st i))) by (rewrite IH; apply (iter_gt (S i))).
      rewrite flat_gradient by auto. rewrite Hno, IHv.
      assert (Ez : forall c, map (map (Rmult c)) (zeros z0) = zeros z0).
      { intros c. unfold zeros. rewrite map_map. apply map_ext. intros v. rewrite map_map. apply map_ext. intros; lra. }
      rewrite Ez, <- (zeros_shape _ _ Hs). 
      assert (Ezz : zeros (zeros z0) = zeros z0) by (symmetry; apply zeros_shape, shape_zeros).
      rewrite <- Ezz at 2. rewrite plus_zeros. rewrite <- Ezz at 2. rewrite plus_zeros. split; auto.
      rewrite (zeros_shape _ _ Hs), translate_zeros, IH. auto. }
    destruct (Es (S j)) as [_ <-]. auto.
Qed.
End Drift.

(** ** HMC *)
Lemma hmc_target : forall log_prob latent data, hmc_posed log_prob latent data ->
  forall u, length u = length latent ->
  exists l, log_joint_unconstrained log_prob latent data u = Some l /\ is_log_density l /\
    density l = density_at log_prob latent data (constrain latent u) * volume_factor latent u.
Proof.
  intros log_prob latent data H u Hu. destruct (target_eval log_prob latent data H u Hu) as (s & E & R & L).
  exists s. split; auto. split; auto. rewrite (density_ratio s _ R L). reflexivity.
Qed.

Lemma product_exp : forall (h : R -> R) v, exp (sumR (map h v)) = product (map (fun a => exp (h a)) v).
Proof.
  intros h. unfold product. induction v; simpl; [apply exp_0|]. rewrite exp_plus, IHv. auto.
Qed.

Lemma volume_derivatives : forall b, b = Invert Sigmoid \/ b = Invert Softplus ->
  exists f, (forall v, inv b v = map f v) /\ (forall a, ex_derive f a) /\
    forall v, exp (sumR (ildj b v)) = product (map (Derive f) v).
Proof.
  intros b Hb.
  assert (H : log_derivative "real"%string (inv b) (ildj b)).
  { destruct Hb as [->| ->].
    - apply (jacobians (Base 0 (Some "01"%string)) (Trans (Base 0 (Some "01"%string)) (Invert Sigmoid) (Some "real"%string)) (Invert Sigmoid) "01"%string); auto; discriminate.
    - apply (jacobians (Base 0 (Some "nonnegative"%string)) (Trans (Base 0 (Some "nonnegative"%string)) (Invert Softplus) (Some "real"%string)) (Invert Softplus) "nonnegative"%string); auto; discriminate. }
  destruct H as (f & h & Hf & Hh & Hd). exists f. split; auto.
  assert (D : forall a, is_derive f a (exp (h a))).
  { intros a. apply Hd. repeat split; intros; discriminate. }
  split.
  - intros a. exists (exp (h a)). apply D.
  - intros v. rewrite Hh, product_exp. f_equal. apply map_ext. intros a. symmetry. apply is_derive_unique. auto.
Qed.

Lemma simplex_length : forall v, length (inv (Invert SoftmaxCentered) v) = S (length v).
Proof. intros v. simpl. unfold softmax_centered. rewrite !map_length, app_length. simpl. lia. Qed.
