(** * The order of integration over R^(a+b). *)
From Coquelicot Require Import Coquelicot.
From Coq Require Import Reals Lra Lia List Arith Psatz Classical_Prop.
From Verif Require Import VIIntegralSpec VolumeSpec VolumeProofs VolumeMassProofs.
Import ListNotations.
Local Open Scope R_scope.
Set Bullet Behavior "Strict Subproofs".

(** ** Slices *)
Lemma J_app : forall a b M f, J M (a + b) f = J M a (fun x => J M b (fun y => f (x ++ y))).
Proof.
  induction a as [|a IH]; intros b M f; [reflexivity|]. cbn [Nat.add cube_integral].
  apply RInt_ext. intros x _. rewrite IH. reflexivity.
Qed.
Lemma close_app : forall d x y u v, close d x y -> close d u v -> close d (x ++ u) (y ++ v).
Proof. intros d x y u v H1 H2. apply Forall2_app; auto. Qed.
Lemma cube_app : forall M x y, cube M (x ++ y) <-> cube M x /\ cube M y.
Proof. intros. apply Forall_app. Qed.
Lemma tst_app : forall a b M f x, tst (a + b) M f -> length x = a -> tst b M (fun y => f (x ++ y)).
Proof.
  intros a b M f x [HM [U Z]] Hx. split; [exact HM|]. split.
  - intros eps He. destruct (U eps He) as [d [Hd E]]. exists d. split; [exact Hd|]. intros y y' Hy Hy' C.
    apply E; rewrite ?app_length; auto. apply close_app; auto. now apply close_refl.
  - intros y Hy K. apply Z; [rewrite app_length; auto|]. intros L. apply K. apply cube_app in L. tauto.
Qed.
Lemma J_bound : forall n M f e, 0 <= e -> tst n M f -> (forall x, length x = n -> Rabs (f x) <= e) -> Rabs (J M n f) <= (2 * M) ^ n * e.
Proof. intros n M. apply (proj1 (proj2 (J_facts n M))). Qed.
Lemma J_diff : forall n M f g e, 0 <= e -> tst n M f -> tst n M g -> (forall x, length x = n -> Rabs (f x - g x) <= e) ->
  Rabs (J M n f - J M n g) <= (2 * M) ^ n * e.
Proof.
  intros n M f g e He Hf Hg H. replace (J M n f - J M n g) with (J M n (fun x => 1 * f x + -1 * g x)) by (rewrite J_lin by auto; ring).
  apply J_bound; auto; [apply tst_lin; auto|]. intros x Hx. replace (1 * f x + -1 * g x) with (f x - g x) by ring. auto.
Qed.
Lemma small : forall V eps, 0 <= V -> 0 < eps -> 0 < eps / (V + 1) /\ V * (eps / (V + 1)) < eps.
Proof.
  intros V eps HV He. split; [apply Rdiv_lt_0_compat; lra|].
  apply Rmult_lt_reg_r with (V + 1); [lra|]. replace (V * (eps / (V + 1)) * (V + 1)) with (V * eps) by (field; lra). nra.
Qed.
Lemma J_inner : forall a b M f, tst (a + b) M f -> tst a M (fun x => J M b (fun y => f (x ++ y))).
Proof.
  intros a b M f Hf. pose proof Hf as [HM [U Z]]. split; [exact HM|]. split.
  - intros eps He. assert (HV : 0 <= (2 * M) ^ b) by (apply pow_le; lra).
    destruct (small _ eps HV He) as [S1 S2]. destruct (U _ S1) as [d [Hd E]]. exists d. split; [exact Hd|].
    intros x y Hx Hy C. eapply Rle_lt_trans; [|exact S2]. apply J_diff; [lra|eapply tst_app; eauto|eapply tst_app; eauto|].
    intros u Hu. left. apply E; rewrite ?app_length; auto. apply close_app; auto. now apply close_refl.
  - intros x Hx K. apply J_zero. intros y Hy. apply Z; [rewrite app_length; auto|]. intros L. apply K. apply cube_app in L. tauto.
Qed.
Lemma cn_app : forall a b f x, continuous_n (a + b) f -> length x = a -> continuous_n b (fun y => f (x ++ y)).
Proof.
  intros a b f x Hf Hx M eps He.
  assert (B : exists K, cube K x).
  { clear. induction x as [|u x [K HK]]; [exists 0; constructor|]. exists (Rmax (Rabs u) K).
    constructor; [apply Rmax_l|]. eapply cube_mono; [apply Rmax_r|exact HK]. }
  destruct B as [K HK]. destruct (Hf (Rmax K M) eps He) as [d [Hd E]]. exists d. split; [exact Hd|].
  intros y y' Hy Hy' C C' D. apply E; rewrite ?app_length; auto.
  - apply cube_app. split; [apply (cube_mono K); [apply Rmax_l|auto]|apply (cube_mono M); [apply Rmax_r|auto]].
  - apply cube_app. split; [apply (cube_mono K); [apply Rmax_l|auto]|apply (cube_mono M); [apply Rmax_r|auto]].
  - apply close_app; auto. now apply close_refl.
Qed.
Lemma window_app : forall a b M chi x, window (a + b) M chi -> length x = a -> window b M (fun y => chi (x ++ y)).
Proof.
  intros a b M chi x [HM [Hc [Hr Hz]]] Hx. split; [exact HM|]. split; [eapply cn_app; eauto|]. split.
  - intros y Hy. apply Hr. rewrite app_length; auto.
  - intros y Hy K. apply Hz; [rewrite app_length; auto|]. intros L. apply K. apply cube_app in L. tauto.
Qed.
Lemma cn_first : forall a b f, continuous_n a f -> continuous_n (a + b) (fun z => f (firstn a z)).
Proof.
  intros a b f Hf M eps He. destruct (Hf M eps He) as [d [Hd E]]. exists d. split; [exact Hd|].
  intros x y Hx Hy Cx Cy C. apply E; [rewrite firstn_length; lia|rewrite firstn_length; lia|apply (proj1 (cube_parts a M x) Cx)|apply (proj1 (cube_parts a M y) Cy)|now apply firstn_close].
Qed.
Lemma cn_last : forall a b f, continuous_n b f -> continuous_n (a + b) (fun z => f (skipn a z)).
Proof.
  intros a b f Hf M eps He. destruct (Hf M eps He) as [d [Hd E]]. exists d. split; [exact Hd|].
  intros x y Hx Hy Cx Cy C. apply E; [rewrite skipn_length; lia|rewrite skipn_length; lia|apply (proj1 (cube_parts a M x) Cx)|apply (proj1 (cube_parts a M y) Cy)|now apply skipn_close].
Qed.
Lemma window_product : forall a b M N chi xi, window a M chi -> window b N xi ->
  window (a + b) (Rmax M N) (fun z => chi (firstn a z) * xi (skipn a z)).
Proof.
  intros a b M N chi xi [HM [Hc [Hr Hz]]] [HN [Hc' [Hr' Hz']]]. split; [eapply Rle_trans; [exact HM|apply Rmax_l]|].
  split; [apply (cn_mult (a + b) (fun z => chi (firstn a z)) (fun z => xi (skipn a z))); [apply cn_first|apply cn_last]; auto|]. split.
  - intros z Hz0. assert (L1 : length (firstn a z) = a) by (rewrite firstn_length; lia).
    assert (L2 : length (skipn a z) = b) by (rewrite skipn_length; lia). specialize (Hr _ L1). specialize (Hr' _ L2). nra.
  - intros z Hz0 K. assert (L1 : length (firstn a z) = a) by (rewrite firstn_length; lia).
    assert (L2 : length (skipn a z) = b) by (rewrite skipn_length; lia).
    destruct (cube_dec M (firstn a z)) as [K1|K1]; [|rewrite Hz by auto; ring].
    destruct (cube_dec N (skipn a z)) as [K2|K2]; [|rewrite Hz' by auto; ring].
    exfalso. apply K. apply (cube_parts a). split; [apply (cube_mono M); [apply Rmax_l|auto]|apply (cube_mono N); [apply Rmax_r|auto]].
Qed.

(** ** Windows of growing size *)
Lemma ramp_mono : forall N N' a, N <= N' -> ramp N a <= ramp N' a.
Proof. intros N N' a H. unfold ramp, Rmax, Rmin. repeat destruct (Rle_dec _ _); lra. Qed.
Lemma std_mono : forall N N' x, N <= N' -> std N x <= std N' x.
Proof.
  intros N N' x H. induction x as [|a x IH]; [right; reflexivity|]. rewrite !std_cons. pose proof (ramp_mono N N' a H).
  unfold Rmin. repeat destruct (Rle_dec _ _); lra.
Qed.
Lemma window_below_std : forall n M chi N x, window n M chi -> M <= N -> length x = n -> chi x <= std N x.
Proof.
  intros n M chi N x [HM [_ [Hr Hz]]] HN Hx. destruct (cube_dec M x) as [K|K].
  - rewrite std_one by (eapply cube_mono; eauto). apply Hr; auto.
  - rewrite Hz by auto. apply std_range.
Qed.
(** The integral within a window of size [N]. *)
Definition within (N : R) (n : nat) (f : list R -> R) : R := J (N + 1) n (fun x => std N x * f x).
Lemma within_mono : forall n f N N', 0 <= N -> N <= N' -> continuous_n n f -> (forall x, length x = n -> 0 <= f x) -> within N n f <= within N' n f.
Proof.
  intros n f N N' H0 H Cf Pf. unfold within.
  rewrite <- (J_wider n (N + 1) (N' + 1)) by (try lra; apply (window_tst n (N + 1) (std N) f); auto; apply std_window; lra).
  apply J_le.
  - eapply tst_wider; [|apply (window_tst n (N + 1) (std N) f); auto; apply std_window; lra]. lra.
  - apply (window_tst n (N' + 1) (std N') f); auto; apply std_window; lra.
  - intros x Hx. apply Rmult_le_compat_r; [auto|]. now apply std_mono.
Qed.
Lemma within_part : forall n f M chi N, window n M chi -> M <= N -> continuous_n n f -> (forall x, length x = n -> 0 <= f x) ->
  J M n (fun x => chi x * f x) <= within N n f.
Proof.
  intros n f M chi N W H Cf Pf. unfold within. assert (HM : 0 <= M) by apply W.
  rewrite <- (J_wider n M (N + 1)) by (try lra; apply window_tst; auto).
  apply J_le.
  - eapply tst_wider; [|apply window_tst; eauto]. lra.
  - apply (window_tst n (N + 1) (std N) f); auto; apply std_window; lra.
  - intros x Hx. apply Rmult_le_compat_r; [auto|]. eapply window_below_std; eauto.
Qed.
Lemma within_le : forall n f a N, 0 <= N -> mass n f a -> within N n f <= a.
Proof. intros n f a N HN Ha. apply (mass_part n f a (std N) (N + 1) Ha). apply std_window; auto. Qed.
Lemma mass_nonneg : forall n f a, continuous_n n f -> (forall x, length x = n -> 0 <= f x) -> mass n f a -> 0 <= a.
Proof.
  intros n f a Cf Pf Ha. eapply Rle_trans; [|apply (within_le n f a 0); [lra|exact Ha]].
  apply J_nonneg; [apply (window_tst n (0 + 1) (std 0) f); auto; apply std_window; lra|].
  intros x Hx. apply Rmult_le_pos; [apply std_range|auto].
Qed.
Lemma mass_close : forall n f a eps, mass n f a -> 0 < eps -> continuous_n n f -> (forall x, length x = n -> 0 <= f x) ->
  exists N, 1 <= N /\ a - within N n f < eps.
Proof.
  intros n f a eps Ha He Cf Pf. destruct (classic (exists N, 1 <= N /\ a - within N n f < eps)) as [K|K]; [exact K|].
  exfalso. assert (a <= a - eps); [|lra]. apply Ha. intros v [chi [M [W ->]]].
  pose proof (within_part n f M chi (Rmax 1 M) W (Rmax_r _ _) Cf Pf).
  destruct (Rlt_dec (a - within (Rmax 1 M) n f) eps) as [L|L]; [|lra]. exfalso. apply K. exists (Rmax 1 M). split; [apply Rmax_l|exact L].
Qed.
Lemma cn_within : forall a b f N, 0 <= N -> continuous_n (a + b) f -> continuous_n a (fun x => within N b (fun y => f (x ++ y))).
Proof.
  intros a b f N HN Cf M eps He. set (K := Rabs M). assert (HK : 0 <= K) by apply Rabs_pos.
  pose proof (window_product a b (K + 1) (N + 1) (std K) (std N) (std_window a K HK) (std_window b N HN)) as W.
  pose proof (window_tst _ _ _ f W Cf) as T. apply J_inner in T. destruct T as [_ [U _]].
  destruct (U eps He) as [d [Hd E]]. exists d. split; [exact Hd|]. intros x y Hx Hy Cx Cy C.
  assert (Q : forall z, length z = a -> cube M z ->
    J (Rmax (K + 1) (N + 1)) b (fun u => std K (firstn a (z ++ u)) * std N (skipn a (z ++ u)) * f (z ++ u)) = within N b (fun u => f (z ++ u))).
  { intros z Hz Cz. unfold within.
    rewrite <- (J_wider b (N + 1) (Rmax (K + 1) (N + 1))).
    - apply J_ext. intros u Hu. rewrite firstn_app_l, skipn_app_l by auto.
      rewrite std_one by (eapply cube_mono; [apply RRle_abs|exact Cz]). ring.
    - apply Rmax_r.
    - apply (window_tst b (N + 1) (std N) (fun u => f (z ++ u))); [apply std_window; auto|eapply cn_app; eauto]. }
  rewrite <- !Q by auto. apply E; auto.
Qed.

(** ** Cubes are compact *)
Lemma compact_line : forall M (P : R -> R -> Prop), 0 <= M ->
  (forall d d' x, 0 < d' -> d' <= d -> P d x -> P d' x) ->
  (forall x, Rabs x <= M -> exists d, 0 < d /\ forall x', Rabs x' <= M -> Rabs (x' - x) < d -> P d x') ->
  exists d, 0 < d /\ forall x, Rabs x <= M -> P d x.
Proof.
  intros M P HM Mono Loc.
  set (E := fun s => - M <= s <= M /\ exists d, 0 < d /\ forall x, - M <= x <= s -> P d x).
  destruct (Loc (- M)) as [d0 [H0 E0]]; [rewrite Rabs_Ropp, Rabs_right; lra|].
  assert (Em : E (- M)).
  { split; [lra|]. exists d0. split; [exact H0|]. intros x Hx. replace x with (- M) by lra. apply E0; [rewrite Rabs_Ropp, Rabs_right; lra|].
    rewrite Rminus_eq_0, Rabs_R0. exact H0. }
  destruct (completeness E) as [m [Ub Lub]]; [exists M; intros s [Hs _]; lra|exists (- M); exact Em|].
  assert (Hm : - M <= m <= M). { split; [apply Ub; exact Em|]. apply Lub. intros s [Hs _]. lra. }
  destruct (Loc m) as [d1 [H1 E1]]; [apply Rabs_le; lra|].
  assert (Near : exists s, E s /\ m - d1 < s).
  { apply NNPP. intros K. assert (m <= m - d1); [|lra]. apply Lub. intros s Hs. apply Rnot_lt_le. intros L. apply K. exists s. auto. }
  destruct Near as [s [[Hs [d2 [H2 E2]]] Ls]].
  set (t := Rmin M (m + d1 / 2)). set (d := Rmin d1 d2). assert (Hd : 0 < d) by (apply Rmin_pos; auto).
  assert (Et : forall x, - M <= x <= t -> P d x).
  { intros x Hx. assert (x <= M) by (eapply Rle_trans; [apply Hx|apply Rmin_l]).
    assert (x <= m + d1 / 2) by (eapply Rle_trans; [apply Hx|apply Rmin_r]).
    destruct (Rle_dec x s) as [L|L].
    - apply (Mono d2); [exact Hd|apply Rmin_r|]. apply E2. lra.
    - apply (Mono d1); [exact Hd|apply Rmin_l|]. apply E1; [apply Rabs_le; lra|]. apply Rabs_def1; lra. }
  assert (Tm : t <= m). { apply Ub. split; [|exists d; auto]. unfold t, Rmin. destruct (Rle_dec _ _); lra. }
  assert (T : t = M). { unfold t, Rmin in *. destruct (Rle_dec _ _); lra. }
  exists d. split; [exact Hd|]. intros x Hx. apply Et. rewrite T. apply Rabs_le_between. exact Hx.
Qed.
Lemma compact_cube : forall n M (Q : R -> list R -> Prop), 0 <= M ->
  (forall d d' x, 0 < d' -> d' <= d -> Q d x -> Q d' x) ->
  (forall x, length x = n -> cube M x -> exists d, 0 < d /\ forall x', length x' = n -> cube M x' -> close d x' x -> Q d x') ->
  exists d, 0 < d /\ forall x, length x = n -> cube M x -> Q d x.
Proof.
  induction n as [|n IH]; intros M Q HM Mono Loc.
  - destruct (Loc []) as [d [Hd E]]; [reflexivity|constructor|]. exists d. split; [exact Hd|].
    intros [|u x] Hx _; [|discriminate Hx]. apply E; [reflexivity|constructor|constructor].
  - destruct (compact_line M (fun d u => forall l, length l = n -> cube M l -> Q d (u :: l)) HM) as [d [Hd E]].
    + intros d d' u H1 H2 H l Hl Cl. eapply Mono; eauto.
    + intros u Hu.
      destruct (IH M (fun d l => forall u', Rabs u' <= M -> Rabs (u' - u) < d -> Q d (u' :: l)) HM) as [d [Hd E]].
      * intros d d' l H1 H2 H u' Hu' Cu. apply (Mono d); auto. apply H; auto. lra.
      * intros l Hl Cl. destruct (Loc (u :: l)) as [d [Hd E]]; [cbn; auto|constructor; auto|]. exists d. split; [exact Hd|].
        intros l' Hl' Cl' C u' Hu' Cu. apply E; [cbn; auto|constructor; auto|constructor; auto].
      * exists d. split; [exact Hd|]. intros u' Hu' Cu l Hl Cl. apply E; auto.
    + exists d. split; [exact Hd|]. intros [|u l] Hx Cx; [discriminate Hx|]. inversion Cx; subst. apply E; auto.
Qed.

(** ** Tonelli's theorem *)
Section Tonelli.
Variable a b : nat.
Variable f : list R -> R.
Variable h : list R -> R.
Hypothesis Cf : continuous_n (a + b) f.
Hypothesis Ch : continuous_n a h.
Hypothesis Pf : forall x, length x = (a + b)%nat -> 0 <= f x.
Hypothesis Hh : forall x, length x = a -> mass b (fun y => f (x ++ y)) (h x).

Lemma Pfx : forall x, length x = a -> forall y, length y = b -> 0 <= f (x ++ y).
Proof. intros x Hx y Hy. apply Pf. rewrite app_length. auto. Qed.

(** Dini's theorem: windows fill the integral uniformly on cubes. *)
Lemma dini : forall M eps, 0 <= M -> 0 < eps -> exists N, 0 <= N /\
  forall x, length x = a -> cube M x -> h x - within N b (fun y => f (x ++ y)) < eps.
Proof.
  intros M eps HM He.
  destruct (compact_cube a M (fun d x => forall N, / d <= N -> h x - within N b (fun y => f (x ++ y)) < eps) HM) as [d [Hd E]].
  - intros d d' x H1 H2 H N HN. apply H. eapply Rle_trans; [apply Rinv_le_contravar; eauto|exact HN].
  - intros x Hx Cx. destruct (mass_close b _ _ (eps / 3) (Hh x Hx)) as [N [HN E]]; [lra|eapply cn_app; eauto|apply Pfx; auto|].
    assert (N0 : 0 <= N) by lra.
    destruct (Ch M (eps / 3)) as [d1 [H1 E1]]; [lra|]. destruct (cn_within a b f N N0 Cf M (eps / 3)) as [d2 [H2 E2]]; [lra|].
    set (d := Rmin (Rmin d1 d2) (/ N)).
    assert (Hd : 0 < d) by (repeat apply Rmin_pos; auto; apply Rinv_0_lt_compat; lra). exists d. split; [exact Hd|].
    intros x' Hx' Cx' C N' HN'.
    assert (Q1 : Rabs (h x' - h x) < eps / 3).
    { apply E1; auto. eapply close_mono; [|exact C]. unfold d. eapply Rle_trans; [apply Rmin_l|apply Rmin_l]. }
    assert (Q2 : Rabs (within N b (fun y => f (x' ++ y)) - within N b (fun y => f (x ++ y))) < eps / 3).
    { apply E2; auto. eapply close_mono; [|exact C]. unfold d. eapply Rle_trans; [apply Rmin_l|apply Rmin_r]. }
    assert (Q3 : within N b (fun y => f (x' ++ y)) <= within N' b (fun y => f (x' ++ y))).
    { apply within_mono; auto; [|eapply cn_app; eauto|apply Pfx; auto].
      assert (N <= / d); [|lra]. rewrite <- (Rinv_inv N). apply Rinv_le_contravar; [exact Hd|apply Rmin_r]. }
    apply Rabs_def2 in Q1. apply Rabs_def2 in Q2. lra.
  - exists (/ d). split; [left; apply Rinv_0_lt_compat; auto|]. intros x Hx Cx. apply E; auto. lra.
Qed.

Lemma h_nonneg : forall x, length x = a -> 0 <= h x.
Proof. intros x Hx. eapply mass_nonneg; [|apply (Pfx x Hx)|apply Hh; auto]. eapply cn_app; eauto. Qed.

Lemma inner_part : forall M chi, window (a + b) M chi -> forall A, mass a h A -> J M (a + b) (fun z => chi z * f z) <= A.
Proof.
  intros M chi W A HA. pose proof (window_tst _ _ _ f W Cf) as T. rewrite J_app. assert (HM : 0 <= M) by apply W.
  eapply Rle_trans; [|apply (within_le a h A M HM HA)]. unfold within.
  pose proof (J_inner _ _ _ _ T) as T2.
  rewrite <- (J_wider a M (M + 1)) by (try lra; exact T2). apply J_le.
  - eapply tst_wider; [|exact T2]. lra.
  - apply (window_tst a (M + 1) (std M) h); auto. apply std_window; auto.
  - intros x Hx. destruct (cube_dec M x) as [K|K].
    + rewrite std_one by auto. rewrite Rmult_1_l. apply (mass_part b (fun y => f (x ++ y)) (h x) (fun y => chi (x ++ y)) M); auto.
      eapply window_app; eauto.
    + destruct T2 as [_ [_ Z]]. rewrite Z by auto. apply Rmult_le_pos; [apply std_range|apply h_nonneg; auto].
Qed.
Lemma outer_part : forall M chi, window a M chi -> forall u,
  (forall M' xi, window (a + b) M' xi -> J M' (a + b) (fun z => xi z * f z) <= u) ->
  J M a (fun x => chi x * h x) <= u.
Proof.
  intros M chi W u Hu. assert (HM : 0 <= M) by apply W. apply Rle_trans with (u + 0); [|lra].
  apply Rnot_lt_le. intros L.
  set (eps := J M a (fun x => chi x * h x) - u). assert (He : 0 < eps) by (unfold eps; lra).
  assert (HV : 0 <= (2 * M) ^ a) by (apply pow_le; lra). destruct (small _ eps HV He) as [S1 S2].
  destruct (dini M _ HM S1) as [N [HN E]].
  pose proof (window_product a b M (N + 1) chi (std N) W (std_window b N HN)) as WW.
  specialize (Hu _ _ WW). set (K := Rmax M (N + 1)) in *.
  assert (TT : tst (a + b) K (fun z => chi (firstn a z) * std N (skipn a z) * f z)) by (apply (window_tst (a + b) K _ f WW); auto).
  rewrite J_app in Hu.
  assert (Q : forall x, length x = a -> J K b (fun y => chi (firstn a (x ++ y)) * std N (skipn a (x ++ y)) * f (x ++ y)) =
    chi x * within N b (fun y => f (x ++ y))).
  { intros x Hx. assert (Tx : tst b (N + 1) (fun y => std N y * f (x ++ y))).
    { apply (window_tst b (N + 1) (std N) (fun y => f (x ++ y))); [apply std_window; auto|eapply cn_app; eauto]. }
    unfold within. rewrite <- (J_wider b (N + 1) K) by (apply Rmax_r || exact Tx).
    assert (Tk : tst b K (fun y => std N y * f (x ++ y))) by (eapply tst_wider; [apply Rmax_r|exact Tx]).
    replace (chi x * J K b (fun y => std N y * f (x ++ y))) with (chi x * J K b (fun y => std N y * f (x ++ y)) + 0 * J K b (fun y => std N y * f (x ++ y))) by ring.
    rewrite <- J_lin by auto. apply J_ext. intros y Hy. rewrite firstn_app_l, skipn_app_l by auto. ring. }
  rewrite (J_ext a K _ _ Q) in Hu.
  assert (Tw : tst a M (fun x => chi x * within N b (fun y => f (x ++ y)))) by (apply (window_tst a M chi (fun x => within N b (fun y => f (x ++ y)))); auto; apply cn_within; auto).
  rewrite (J_wider a M K) in Hu by (apply Rmax_l || exact Tw).
  assert (D : Rabs (J M a (fun x => chi x * h x) - J M a (fun x => chi x * within N b (fun y => f (x ++ y)))) <= (2 * M) ^ a * (eps / ((2 * M) ^ a + 1))).
  { apply J_diff; auto; [lra|apply window_tst; auto|]. intros x Hx. destruct (cube_dec M x) as [Kx|Kx].
    - specialize (E x Hx Kx). pose proof (within_le b _ _ N HN (Hh x Hx)). destruct W as [_ [_ [Wr _]]]. specialize (Wr x Hx).
      rewrite <- Rmult_minus_distr_l, Rabs_mult, !Rabs_right by lra. nra.
    - destruct W as [_ [_ [_ Wz]]]. rewrite Wz by auto. rewrite !Rmult_0_l, Rminus_eq_0, Rabs_R0. lra. }
  pose proof (RRle_abs (J M a (fun x => chi x * h x) - J M a (fun x => chi x * within N b (fun y => f (x ++ y))))). unfold eps in *. lra.
Qed.
Lemma tonelli : forall A, mass a h A <-> mass (a + b) f A.
Proof.
  assert (F : forall A, mass a h A -> mass (a + b) f A).
  { intros A HA. split.
    - intros v [chi [M [W ->]]]. apply inner_part; auto.
    - intros u Hu. apply HA. intros v [chi [M [W ->]]]. apply outer_part; auto. intros M' xi W'. apply Hu. exists xi, M'. auto. }
  intros A. split; [apply F|]. intros HA.
  destruct (completeness (fun v => exists chi M, window a M chi /\ v = J M a (fun x => chi x * h x))) as [B HB].
  - exists A. intros v [chi [M [W ->]]]. apply outer_part; auto. intros M' xi W'. apply (mass_part _ f); auto.
  - exists (J (0 + 1) a (fun x => std 0 x * h x)), (std 0), (0 + 1). split; [apply std_window; lra|reflexivity].
  - replace A with B; [exact HB|]. eapply mass_unique; [apply F; exact HB|exact HA].
Qed.
End Tonelli.

(** ** Dominated functions *)
Lemma dominated_sig : forall n f g b, continuous_n n f -> continuous_n n g -> (forall x, length x = n -> 0 <= f x <= g x) ->
  mass n g b -> {a | mass n f a}.
Proof.
  intros n f g b Cf Cg H Hb.
  destruct (completeness (fun v => exists chi M, window n M chi /\ v = J M n (fun x => chi x * f x))) as [a Ha].
  - destruct (mass_dominated n f g b Cf Cg H Hb) as [a Ha]. exists a. apply Ha.
  - exists (J (0 + 1) n (fun x => std 0 x * f x)), (std 0), (0 + 1). split; [apply std_window; lra|reflexivity].
  - exists a. exact Ha.
Qed.
(** What is left outside a window is dominated, too. *)
Lemma rest_dominated : forall n f g a b N, 0 <= N -> continuous_n n f -> continuous_n n g -> (forall x, length x = n -> 0 <= f x <= g x) ->
  mass n f a -> mass n g b -> a - within N n f <= b - within N n g.
Proof.
  intros n f g a b N HN Cf Cg H Ha Hb. assert (a <= b - within N n g + within N n f); [|lra].
  apply Ha. intros v [chi [M [W ->]]]. pose proof (std_window n N HN) as WN. pose proof (window_max _ _ _ _ _ W WN) as WW.
  set (K := Rmax M (N + 1)) in *. set (xi := fun x => Rmax (chi x) (std N x)) in *.
  assert (W1 : window n K chi) by (eapply window_wider; [apply Rmax_l|exact W]).
  assert (W2 : window n K (std N)) by (eapply window_wider; [apply Rmax_r|exact WN]).
  pose proof (mass_part n g b xi K Hb WW) as B. unfold within.
  rewrite <- (J_wider n M K) by (apply Rmax_l || (apply window_tst; auto)).
  rewrite <- (J_wider n (N + 1) K (fun x => std N x * g x)) by (apply Rmax_r || (apply (window_tst n (N + 1) (std N) g); auto)).
  rewrite <- (J_wider n (N + 1) K (fun x => std N x * f x)) by (apply Rmax_r || (apply (window_tst n (N + 1) (std N) f); auto)).
  assert (T : forall psi k, window n K psi -> continuous_n n k -> tst n K (fun x => psi x * k x)) by (intros; apply window_tst; auto).
  assert (Q : 1 * J K n (fun x => chi x * f x) + -1 * J K n (fun x => std N x * f x) <= 1 * J K n (fun x => xi x * g x) + -1 * J K n (fun x => std N x * g x)).
  { rewrite <- !J_lin by auto. apply J_le; try (apply tst_lin; auto). intros x Hx. destruct (H x Hx) as [H1 H2].
    assert (chi x <= xi x) by apply Rmax_l. assert (std N x <= xi x) by apply Rmax_r. nra. }
  lra.
Qed.
(** The inner integral of a dominated function is continuous. *)
Lemma inner_continuous : forall a b f g H, continuous_n (a + b) f -> continuous_n (a + b) g -> continuous_n a H ->
  (forall z, length z = (a + b)%nat -> 0 <= f z <= g z) -> (forall x, length x = a -> mass b (fun y => g (x ++ y)) (H x)) ->
  exists h, continuous_n a h /\ forall x, length x = a -> mass b (fun y => f (x ++ y)) (h x).
Proof.
  intros a b f g H Cf Cg CH P HH.
  assert (Px : forall x, length x = a -> forall y, length y = b -> 0 <= f (x ++ y) <= g (x ++ y)) by (intros x Hx y Hy; apply P; rewrite app_length; auto).
  assert (Sg : forall x, length x = a -> {v | mass b (fun y => f (x ++ y)) v}).
  { intros x Hx. apply (dominated_sig b _ (fun y => g (x ++ y)) (H x)); [eapply cn_app; eauto|eapply cn_app; eauto|apply Px; auto|auto]. }
  exists (fun x => match Nat.eq_dec (length x) a with left E => proj1_sig (Sg x E) | right _ => 0 end).
  set (h := fun x => _). assert (Hh : forall x, length x = a -> mass b (fun y => f (x ++ y)) (h x)).
  { intros x Hx. unfold h. destruct (Nat.eq_dec (length x) a) as [E|E]; [|contradiction]. apply (proj2_sig (Sg x E)). }
  split; [|exact Hh]. intros M eps He. set (K := Rabs M). assert (HK : 0 <= K) by apply Rabs_pos.
  destruct (dini a b g H Cg CH (fun z Hz => Rle_trans _ _ _ (proj1 (P z Hz)) (proj2 (P z Hz))) HH K (eps / 3) HK) as [N [HN E]]; [lra|].
  destruct (cn_within a b f N HN Cf M (eps / 3)) as [d [Hd E2]]; [lra|]. exists d. split; [exact Hd|].
  intros x y Hx Hy Cx Cy C. specialize (E2 x y Hx Hy Cx Cy C).
  assert (Q : forall z, length z = a -> cube M z -> 0 <= h z - within N b (fun u => f (z ++ u)) < eps / 3).
  { intros z Hz Cz. pose proof (within_le b _ _ N HN (Hh z Hz)). split; [lra|].
    eapply Rle_lt_trans; [|apply (E z Hz); eapply cube_mono; [apply RRle_abs|exact Cz]].
    apply rest_dominated; auto; [eapply cn_app; eauto|eapply cn_app; eauto]. }
  pose proof (Q x Hx Cx). pose proof (Q y Hy Cy). apply Rabs_def2 in E2. apply Rabs_def1; lra.
Qed.

(** ** Fubini's theorem *)
Theorem fubini_dominated : forall a b f g H Z, continuous_n (a + b) f -> continuous_n (a + b) g -> continuous_n a H ->
  (forall z, length z = (a + b)%nat -> Rabs (f z) <= g z) -> (forall x, length x = a -> mass b (fun y => g (x ++ y)) (H x)) -> mass a H Z ->
  exists h A, continuous_n a h /\ (forall x, length x = a -> by_volume b (fun y => f (x ++ y)) (h x)) /\
    by_volume a h A /\ by_volume (a + b) f A /\ (forall x, length x = a -> Rabs (h x) <= H x).
Proof.
  intros a b f g H Z Cf Cg CH D HH HZ.
  set (p := fun z => Rmax (f z) 0). set (q := fun z => Rmax (- f z) 0).
  assert (Cp : continuous_n (a + b) p) by (apply cn_max; [auto|apply cn_const]).
  assert (Cq : continuous_n (a + b) q) by (apply (cn_max _ (fun x => - f x)); [apply cn_opp; auto|apply cn_const]).
  assert (Bp : forall z, length z = (a + b)%nat -> 0 <= p z <= g z).
  { intros z Hz. specialize (D z Hz). unfold Rabs in D. split; [apply Rmax_r|]. unfold p, Rmax. destruct (Rle_dec _ _), (Rcase_abs (f z)); lra. }
  assert (Bq : forall z, length z = (a + b)%nat -> 0 <= q z <= g z).
  { intros z Hz. specialize (D z Hz). unfold Rabs in D. split; [apply Rmax_r|]. unfold q, Rmax. destruct (Rle_dec _ _), (Rcase_abs (f z)); lra. }
  assert (Epq : forall z, f z = p z - q z) by (intros z; unfold p, q, Rmax; destruct (Rle_dec (f z) 0), (Rle_dec (- f z) 0); lra).
  destruct (inner_continuous a b p g H Cp Cg CH Bp HH) as [hp [Chp Hp]].
  destruct (inner_continuous a b q g H Cq Cg CH Bq HH) as [hq [Chq Hq]].
  assert (Gp : forall z, length z = (a + b)%nat -> 0 <= g z) by (intros z Hz; destruct (Bp z Hz); lra).
  pose proof (proj1 (tonelli a b g H Cg CH Gp HH Z) HZ) as MZ.
  destruct (mass_dominated (a + b) p g Z Cp Cg Bp MZ) as [Ap HAp]. destruct (mass_dominated (a + b) q g Z Cq Cg Bq MZ) as [Aq HAq].
  assert (P0 : forall z, length z = (a + b)%nat -> 0 <= p z) by (intros z Hz; apply Bp; auto).
  assert (Q0 : forall z, length z = (a + b)%nat -> 0 <= q z) by (intros z Hz; apply Bq; auto).
  pose proof (proj2 (tonelli a b p hp Cp Chp P0 Hp Ap) HAp) as M1. pose proof (proj2 (tonelli a b q hq Cq Chq Q0 Hq Aq) HAq) as M2.
  exists (fun x => hp x - hq x), (Ap - Aq). split; [|split; [|split; [|split]]].
  - apply (cn_ext a (fun x => 1 * hp x + -1 * hq x)); [intros; ring|apply cn_lin; auto].
  - intros x Hx. exists (fun y => p (x ++ y)), (fun y => q (x ++ y)), (hp x), (hq x).
    split; [eapply cn_app; eauto|]. split; [eapply cn_app; eauto|]. split; [|split; [|split]]; auto.
    intros y Hy. assert (L : length (x ++ y) = (a + b)%nat) by (rewrite app_length; auto). split; [apply P0; auto|]. split; [apply Q0; auto|apply Epq].
  - exists hp, hq, Ap, Aq. split; [auto|]. split; [auto|]. split; [|split; [|split]]; auto. intros x Hx.
    split; [apply (h_nonneg a b p hp Cp P0 Hp x Hx)|]. split; [apply (h_nonneg a b q hq Cq Q0 Hq x Hx)|reflexivity].
  - exists p, q, Ap, Aq. split; [auto|]. split; [auto|]. split; [|split; [|split]]; auto.
  - intros x Hx. 
    assert (S : mass b (fun y => p (x ++ y) + q (x ++ y)) (hp x + hq x)).
    { apply mass_add; auto; try (eapply cn_app; eauto); intros y Hy; [apply P0|apply Q0]; rewrite app_length; auto. }
    assert (hp x + hq x <= H x).
    { apply S. intros v [chi [M [W ->]]]. eapply Rle_trans; [|apply (mass_part b _ _ chi M (HH x Hx) W)].
      apply J_le; try (apply window_tst; auto).
      - apply (cn_plus b (fun y => p (x ++ y)) (fun y => q (x ++ y))); eapply cn_app; eauto.
      - eapply cn_app; eauto.
      - intros y Hy. assert (L : length (x ++ y) = (a + b)%nat) by (rewrite app_length; auto). specialize (D _ L).
        destruct W as [_ [_ [Wr _]]]. specialize (Wr y Hy). apply Rmult_le_compat_l; [lra|].
        unfold p, q, Rmax, Rabs in *. destruct (Rle_dec (f (x ++ y)) 0), (Rle_dec (- f (x ++ y)) 0), (Rcase_abs (f (x ++ y))); lra. }
    pose proof (h_nonneg a b p hp Cp P0 Hp x Hx). pose proof (h_nonneg a b q hq Cq Q0 Hq x Hx). apply Rabs_le. lra.
Qed.
