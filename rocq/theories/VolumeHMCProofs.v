(** * Hamiltonian Monte Carlo on R^n. *)
From Coquelicot Require Import Coquelicot.
From Coq Require Import Reals List Arith Bool Lia Lra Psatz.
From Verif Require Import Ext ExtProofs Feed MonteCarlo Transform MHSpec HMC HMCSpec HMCProofs VI VISpec VIIntegralSpec InvariantSpec InvariantProofs.
From Verif Require Import VolumeSpec VolumeProofs VolumeMassProofs VolumeStepProofs VolumeHMCSpec VolumeFlatProofs.
Import ListNotations.
Local Open Scope R_scope.
Set Bullet Behavior "Strict Subproofs".

Lemma cn_exp : forall n f, continuous_n n f -> continuous_n n (fun x => exp (f x)).
Proof.
  intros n f Cf M eps He. destruct (cn_bounded n f Cf M) as [B [HB E]].
  assert (P : 0 < eps / exp B) by (apply Rdiv_lt_0_compat; auto using exp_pos). destruct (Cf M _ P) as [d [Hd E']].
  assert (Q : forall a b, a <= B -> Rabs (a - b) < eps / exp B -> exp a - exp b < eps).
  { intros a b Ha Hab. assert (E1 : exp b = exp a * exp (b - a)) by (rewrite <- exp_plus; f_equal; ring).
    pose proof (exp_ineq1_le (b - a)). pose proof (exp_pos a). assert (exp a <= exp B) by (destruct Ha as [Ha| ->]; [left; apply exp_increasing; auto|lra]).
    assert (exp a - exp b <= exp a * (a - b)) by (rewrite E1; nra).
    apply Rabs_def2 in Hab. assert (X : eps = exp B * (eps / exp B)) by (field; pose proof (exp_pos B); lra).
    destruct (Rle_dec (a - b) 0); [nra|]. rewrite X. apply Rle_lt_trans with (exp a * (a - b)); auto.
    apply Rle_lt_trans with (exp B * (a - b)); [apply Rmult_le_compat_r; lra|]. apply Rmult_lt_compat_l; [apply exp_pos|]. lra. }
  exists d. split; [exact Hd|]. intros x y Hx Hy Hcx Hcy Hc. pose proof (E' x y Hx Hy Hcx Hcy Hc) as D.
  pose proof (E x Hx Hcx) as Bx. pose proof (E y Hy Hcy) as By.
  assert (forall u, Rabs u <= B -> u <= B) as AB by (intros u Hu; eapply Rle_trans; [apply Rle_abs|exact Hu]).
  apply Rabs_def1.
  - apply Q; auto.
  - assert (exp (f y) - exp (f x) < eps); [|lra]. apply Q; auto. rewrite Rabs_minus_sym. auto.
Qed.

Lemma cmap_firstn : forall a b, cmap (a + b) a (firstn a).
Proof.
  intros a b. apply cmap_coords; [intros x Hx; rewrite firstn_length; lia|]. intros k Hk.
  apply (cn_ext _ (fun x => nth k x 0)); [|apply cn_coord; lia]. intros x Hx.
  rewrite <- (firstn_skipn a x) at 1. rewrite app_nth1; auto. rewrite firstn_length. lia.
Qed.
Lemma cmap_skipn : forall a b, cmap (a + b) b (skipn a).
Proof.
  intros a b. apply cmap_coords; [intros x Hx; rewrite skipn_length; lia|]. intros k Hk.
  apply (cn_ext _ (fun x => nth (a + k) x 0)); [|apply cn_coord; lia]. intros x Hx.
  rewrite <- (firstn_skipn a x) at 1. rewrite app_nth2; rewrite firstn_length, Nat.min_l by lia; [|lia]. f_equal. lia.
Qed.

Lemma sumR_app : forall a b, sumR (a ++ b) = sumR a + sumR b.
Proof. induction a as [|x a IH]; intros b; cbn [app]; [cbn; lra|]. unfold sumR in *. cbn. rewrite IH. lra. Qed.
Lemma momentum_flat : forall r, momentum_density r = exp (- sumR (map (fun x => x * x / 2) (concat r))).
Proof.
  intros r. unfold momentum_density. do 2 f_equal. induction r as [|v r IH]; [reflexivity|]. cbn [map concat]. rewrite map_app, sumR_app.
  rewrite <- IH. reflexivity.
Qed.
Lemma cn_squares : forall n, continuous_n n (fun x => sumR (map (fun x => x * x / 2) x)).
Proof.
  induction n as [|n IH].
  - apply (cn_ext _ (fun _ => 0)); [|apply cn_const]. intros [|a x] Hx; [reflexivity|discriminate].
  - apply (cn_ext _ (fun x => (/ 2 * (nth 0 x 0 * nth 0 x 0)) + sumR (map (fun x => x * x / 2) (skipn 1 x)))).
    + intros [|a x] Hx; [discriminate|]. cbn. unfold sumR. cbn. lra.
    + apply cn_plus.
      * apply cn_scal. apply cn_mult; apply cn_coord; lia.
      * apply (cn_comp (S n) n (skipn 1) (fun x => sumR (map (fun x => x * x / 2) x))); auto. apply (cmap_skipn 1 n).
Qed.
Lemma momentum_pos : forall r, 0 < momentum_density r.
Proof. intros. apply exp_pos. Qed.
Lemma cn_momentum : forall s0, continuous_tensors s0 momentum_density.
Proof.
  intros s0. unfold continuous_tensors. apply (cn_ext _ (fun l => exp (- sumR (map (fun x => x * x / 2) l)))).
  - intros l Hl. rewrite momentum_flat, concat_cut; auto.
  - apply cn_exp. apply cn_opp. apply cn_squares.
Qed.
Lemma cn_momenta : forall s0 k, continuous_n (k * size s0) (fun l => product (map momentum_density (blocks s0 k l))).
Proof.
  intros s0. induction k as [|k IH]; [exact (cn_const _ _)|]. cbn [blocks map]. cbn [Nat.mul].
  apply (cn_mult _ (fun l => momentum_density (cut s0 (firstn (size s0) l))) (fun l => product (map momentum_density (blocks s0 k (skipn (size s0) l))))).
  - apply (cn_comp (size s0 + k * size s0) (size s0) (firstn (size s0)) (fun l => momentum_density (cut s0 l))); [apply cmap_firstn|apply cn_momentum].
  - apply (cn_comp (size s0 + k * size s0) (k * size s0) (skipn (size s0)) (fun l => product (map momentum_density (blocks s0 k l)))); auto. apply cmap_skipn.
Qed.
Lemma product_app : forall a b, product (a ++ b) = product a * product b.
Proof. induction a as [|x a IH]; intros b; cbn; [unfold product; lra|]. unfold product in *. rewrite IH. cbn. lra. Qed.
Lemma product_pos : forall l, 0 < product (map momentum_density l).
Proof. induction l as [|r l IH]; [unfold product; cbn; lra|]. cbn. apply Rmult_lt_0_compat; auto using momentum_pos. Qed.

Section Run.
Variable log_prob : nat -> list (nat * tensor) -> tensor -> ext.
Variable latent : list (nat * option bij).
Variable data : list (nat * tensor).
Hypothesis HP : hmc_posed log_prob latent data.
Variable grad : list (nat * tensor) -> list tensor -> list tensor.
Variable step_size : R.
Variable n : nat.
Variable s0 : list tensor.
Hypothesis Hs0 : length s0 = length latent.
Hypothesis Hgrad : forall z, same_shape s0 z -> same_shape s0 (grad data z).
Hypothesis Cgrad : forall k, (k < size s0)%nat -> continuous_tensors s0 (fun z => nth k (concat (grad data z)) 0).
Notation tr := (trajectory data grad step_size n).
Notation pi := (phase_density log_prob latent data).

Lemma fine_trajectory : forall K j, (j < K)%nat -> fine s0 K (on j tr).
Proof.
  intros K j Hj.
  set (hf := half (grad data) step_size). set (df := drift step_size).
  assert (H1 : fine s0 K (on j hf)).
  { apply (fine_kick s0 K j Hj (fun z => map (vscal (/ 2 * step_size)) (grad data z))).
    - intros z Hz. eapply shape_trans; [apply Hgrad, Hz|apply shape_scal].
    - intros k Hk. unfold continuous_tensors. apply (cn_ext _ (fun l => / 2 * step_size * nth k (concat (grad data (cut s0 l))) 0)).
      + intros l Hl. rewrite concat_scal. rewrite (nth_indep (map _ _) 0 (/ 2 * step_size * 0)).
        * rewrite map_nth. reflexivity.
        * rewrite map_length. rewrite (concat_length s0); auto. apply Hgrad, cut_shape; auto.
      + apply cn_scal. apply Cgrad; auto. }
  assert (H2 : fine s0 K (on j df)) by (apply fine_drift; auto).
  assert (H3 : fine s0 K (on j (step (grad data) step_size))).
  { apply (fine_ext s0 K (fun b => on j hf (on j df (on j hf b)))).
    - intros b Hb. rewrite (on_comp s0 K j Hj df hf).
      + rewrite (on_comp s0 K j Hj hf (fun p => hf (df p))); auto.
      + apply H1; auto.
    - apply (fine_comp s0 K (fun b => on j df (on j hf b)) (on j hf)); auto. apply (fine_comp s0 K (on j hf) (on j df)); auto. }
  apply (fine_ext s0 K (fun b => on j mirror_momenta (Nat.iter n (on j (step (grad data) step_size)) b))).
  - intros b Hb. rewrite (on_iter s0 K j Hj) by auto. rewrite (on_comp s0 K j Hj) by auto.
    destruct (wf_split s0 K j Hj b Hb) as (z & rs1 & r & rs2 & -> & E & Hz & Hr & _). rewrite !(on_at K j Hj) by auto.
    unfold trajectory. cbn [fst snd]. rewrite (leapfrog_iter (grad data) step_size s0 Hgrad n z r Hz Hr). reflexivity.
  - apply (fine_comp s0 K (fun b => Nat.iter n (on j (step (grad data) step_size)) b) (on j mirror_momenta)).
    + apply fine_iter; auto.
    + apply fine_mirror; auto.
Qed.

Lemma target_nonneg : forall z, same_shape s0 z -> 0 <= target log_prob latent data z.
Proof.
  intros z Hz. destruct (target_eval log_prob latent data HP z) as (s & _ & [R0 _] & _); auto.
  rewrite <- Hs0. symmetry. clear -Hz. induction Hz; cbn; auto.
Qed.
Lemma pi_momentum : forall z r, pi z r = target log_prob latent data z * momentum_density r.
Proof. reflexivity. Qed.
Lemma pi_nonneg : forall z r, same_shape s0 z -> 0 <= pi z r.
Proof. intros z r Hz. rewrite pi_momentum. apply Rmult_le_pos; [apply target_nonneg; auto|]. left. apply momentum_pos. Qed.
Lemma pi_flip : forall z r, pi z (flip r) = pi z r.
Proof. intros. unfold phase_density. rewrite <- !kinetic_half, kinetic_flip. reflexivity. Qed.
Lemma accept_min : forall P N, 0 <= P -> 0 <= N -> N * accept_prob P N = Rmin N P.
Proof.
  intros P N HP' HN. unfold accept_prob. destruct (Req_EM_T N 0) as [->|Hn].
  - rewrite Rmult_0_l. rewrite Rmin_left; auto.
  - unfold Rmin. destruct (Rle_dec 1 (P / N)) as [H|H], (Rle_dec N P) as [H'|H']; try (field; lra).
    + assert (N * (P / N) = P) as E by (field; lra). nra.
    + assert (N * (P / N) = P) as E by (field; lra). nra.
Qed.

(** The mean after one update, and after several. *)
Definition upd (phi : list tensor -> R) (z r : list tensor) : R :=
  let p := tr (z, r) in
  let a := accept_prob (pi (fst p) (snd p)) (pi z r) in
  a * phi (fst p) + (1 - a) * phi z.
Fixpoint upds (phi : list tensor -> R) (rs : list (list tensor)) (z : list tensor) : R :=
  match rs with [] => phi z | r :: rs' => upd (upds phi rs') z r end.

Lemma upd_mean : forall phi z r, same_shape s0 z -> same_shape s0 r ->
  mean_update log_prob latent data grad step_size n z r phi (upd phi z r).
Proof.
  intros phi z r Hz Hr.
  pose proof (hmc_move log_prob latent data HP grad step_size n s0 Hs0 Hgrad z r Hz Hr) as (f & If & Hf).
  rewrite <- pi_flip in If. set (a := accept_prob _ _) in If.
  exists (fun u => phi z + (phi (fst (tr (z, r))) - phi z) * f u). split.
  - pose proof (is_RInt_const (V := R_NormedModule) 0 1 (phi z)) as HC.
    pose proof (is_RInt_scal (V := R_NormedModule) _ 0 1 (phi (fst (tr (z, r))) - phi z) _ If) as HS.
    pose proof (is_RInt_plus (V := R_NormedModule) _ _ 0 1 _ _ HC HS) as HQ.
    match type of HQ with @is_RInt _ _ _ _ ?v => replace v with (upd phi z r) in HQ; [exact HQ|] end.
    unfold upd. cbv zeta. change (accept_prob (pi (fst (tr (z, r))) (snd (tr (z, r)))) (pi z r)) with a.
    unfold plus, scal; simpl; unfold mult; simpl. unfold mirror_momenta; simpl. ring.
  - intros u Hu. destruct (Hf u Hu) as [[-> E]|[-> E]]; cbv zeta in E; rewrite E; do 2 eexists; (split; [reflexivity|]).
    + change (fst (tr (z, r))) with (fst (leapfrog (grad data) step_size n z r)). ring.
    + ring.
Qed.
Lemma upds_mean : forall phi rs z, same_shape s0 z -> Forall (same_shape s0) rs ->
  mean_updates log_prob latent data grad step_size n s0 phi rs z (upds phi rs z).
Proof.
  intros phi rs z Hz H. revert z Hz. induction H as [|r rs Hr H IH]; intros z Hz; [constructor|].
  apply (one_update _ _ _ _ _ _ _ _ r rs z (upds phi rs)); auto. apply upd_mean; auto.
Qed.
Lemma mean_unique : forall phi psi z r e, (forall w, same_shape s0 w -> psi w = phi w) -> same_shape s0 z -> same_shape s0 r ->
  mean_update log_prob latent data grad step_size n z r psi e -> e = upd phi z r.
Proof.
  intros phi psi z r e E Hz Hr H.
  pose proof (hmc_move log_prob latent data HP grad step_size n s0 Hs0 Hgrad z r Hz Hr) as M. cbv zeta in M. rewrite <- pi_flip in M.
  rewrite (update_mean log_prob latent data grad step_size n z r _ psi e M H). unfold upd. cbv zeta.
  rewrite !E; auto. apply (trajectory_shape data grad step_size n s0 Hgrad (z, r)). split; auto.
Qed.
Lemma upds_unique : forall phi rs z e, Forall (same_shape s0) rs -> same_shape s0 z ->
  mean_updates log_prob latent data grad step_size n s0 phi rs z e -> e = upds phi rs z.
Proof.
  intros phi rs z e Hrs Hz H. induction H as [z|r rs z psi e H IH M]; [reflexivity|]. inversion Hrs; subst.
  apply (mean_unique (upds phi rs) psi z r e); auto.
Qed.

Hypothesis Ctarget : continuous_tensors s0 (target log_prob latent data).
Variable phi : list tensor -> R.
Hypothesis Cphi : continuous_tensors s0 phi.
Variable K : nat.
Notation N := (S K * size s0)%nat.
Notation bl := (blocks s0 (S K)).
Notation w := (run_density log_prob latent data).

Lemma cn_state : forall f, continuous_tensors s0 f -> continuous_n N (fun x => f (hd [] (bl x))).
Proof.
  intros f Cf. cbn [blocks hd]. apply (cn_comp N (size s0) (firstn (size s0)) (fun l => f (cut s0 l))); auto. apply (cmap_firstn (size s0) (K * size s0)).
Qed.
Lemma cn_weight : continuous_n N (fun x => w (bl x)).
Proof.
  apply (cn_mult N (fun x => target log_prob latent data (hd [] (bl x))) (fun x => product (map momentum_density (tl (bl x))))).
  - apply cn_state. auto.
  - cbn [blocks tl]. apply (cn_comp N (K * size s0) (skipn (size s0)) (fun l => product (map momentum_density (blocks s0 K l)))).
    + apply (cmap_skipn (size s0) (K * size s0)).
    + apply cn_momenta.
Qed.
Lemma weight_nonneg : forall x, length x = N -> 0 <= w (bl x).
Proof.
  intros x Hx. destruct (blocks_wf s0 (S K) x Hx) as [A B]. destruct (bl x) as [|z rs]; [discriminate|]. inversion A; subst.
  cbn [run_density]. apply Rmult_le_pos; [apply target_nonneg; auto|]. left. apply product_pos.
Qed.

(** The mean over the updates after the first [j]. *)
Definition F (j : nat) (x : list R) : R := upds phi (skipn j (tl (bl x))) (hd [] (bl x)).

Lemma F_step : forall j, (j < K)%nat -> forall x, length x = N ->
  let T := flatly s0 K (on j tr) in
  T (T x) = x /\
  exists a, 0 <= a <= 1 /\ F j x = a * F (S j) (T x) + (1 - a) * F (S j) x /\ w (bl x) * a = Rmin (w (bl x)) (w (bl (T x))).
Proof.
  intros j Hj x Hx T. pose proof (blocks_wf s0 (S K) x Hx) as Hb. pose proof (fine_trajectory K j Hj) as [Hw _].
  assert (ET : bl (T x) = on j tr (bl x)) by (unfold T, flatly; apply blocks_flat; auto).
  split.
  - unfold T at 1, flatly. rewrite ET. rewrite (on_comp s0 K j Hj) by auto.
    rewrite <- (flat_blocks s0 (S K) x Hx) at 2. f_equal.
    destruct (wf_split s0 K j Hj _ Hb) as (z & rs1 & r & rs2 & -> & E & Hz & Hr & _). rewrite (on_at K j Hj) by auto.
    rewrite (trajectory_back data grad step_size n s0 Hgrad (z, r)) by (split; auto). reflexivity.
  - unfold F. rewrite ET. destruct (wf_split s0 K j Hj _ Hb) as (z & rs1 & r & rs2 & -> & E & Hz & Hr & A & B).
    rewrite (on_at K j Hj) by auto. cbn [hd tl].
    pose proof (trajectory_shape data grad step_size n s0 Hgrad (z, r) (conj Hz Hr)) as [Hz' Hr'].
    assert (S1 : forall q, skipn j (rs1 ++ q :: rs2) = q :: rs2) by (intros q; rewrite <- E, skipn_app, skipn_all, Nat.sub_diag; reflexivity).
    assert (S2 : forall q, skipn (S j) (rs1 ++ q :: rs2) = rs2).
    { intros q. change (q :: rs2) with ([q] ++ rs2). rewrite app_assoc. replace (S j) with (length (rs1 ++ [q])) by (rewrite app_length; cbn; lia).
      rewrite skipn_app, skipn_all, Nat.sub_diag. reflexivity. }
    rewrite S1, !S2. cbn [upds]. unfold upd. cbv zeta.
    set (p := tr (z, r)) in *. exists (accept_prob (pi (fst p) (snd p)) (pi z r)).
    split; [apply accept_prob_range; apply pi_nonneg; auto|]. split; [reflexivity|].
    cbn [run_density]. rewrite !map_app. cbn [map]. rewrite !product_app.
    assert (PC : forall a l, product (a :: l) = a * product l) by reflexivity. rewrite !PC. clear PC.
    set (Q := product (map momentum_density rs1) * product (map momentum_density rs2)).
    assert (Q0 : 0 < Q) by (apply Rmult_lt_0_compat; apply product_pos).
    replace (target log_prob latent data z * (product (map momentum_density rs1) * (momentum_density r * product (map momentum_density rs2)))) with (Q * pi z r) by (rewrite pi_momentum; unfold Q; ring).
    replace (target log_prob latent data (fst p) * (product (map momentum_density rs1) * (momentum_density (snd p) * product (map momentum_density rs2)))) with (Q * pi (fst p) (snd p)) by (rewrite pi_momentum; unfold Q; ring).
    rewrite Rmult_assoc, accept_min by (apply pi_nonneg; auto).
    unfold Rmin. destruct (Rle_dec (pi z r) (pi (fst p) (snd p))), (Rle_dec (Q * pi z r) (Q * pi (fst p) (snd p))); auto; nra.
Qed.

Lemma run : forall j, (j <= K)%nat -> continuous_n N (fun x => w (bl x) * F (K - j) x) /\ locally_bounded N (F (K - j)) /\
  forall c, by_volume N (fun x => w (bl x) * phi (hd [] (bl x))) c -> by_volume N (fun x => w (bl x) * F (K - j) x) c.
Proof.
  induction j as [|j IH]; intros Hj.
  - assert (E : forall x, length x = N -> F (K - 0) x = phi (hd [] (bl x))).
    { intros x Hx. unfold F. rewrite skipn_all2; [reflexivity|]. destruct (blocks_wf s0 (S K) x Hx) as [_ B].
      destruct (bl x); [discriminate|]. cbn in *. lia. }
    split; [|split].
    + apply (cn_ext _ (fun x => w (bl x) * phi (hd [] (bl x)))); [intros x Hx; rewrite E; auto|].
      apply (cn_mult N (fun x => w (bl x))); [apply cn_weight|]. apply cn_state; auto.
    + intros M. destruct (cn_bounded _ _ (cn_state phi Cphi) M) as [B [P Q]]. exists B. split; auto. intros x Hx Hc. rewrite E by auto. auto.
    + intros c Hc. eapply (int_ext _ _ (by_volume_integral N)); [|exact Hc]. intros x Hx. cbv beta. rewrite E; auto.
  - destruct IH as [C [B H]]; [lia|]. set (i := (K - S j)%nat). assert (Ei : (K - j)%nat = S i) by lia. rewrite Ei in *.
    assert (Hi : (i < K)%nat) by lia. pose proof (fine_trajectory K i Hi) as [_ HG]. set (T := flatly s0 K (on i tr)) in *.
    assert (HB : forall x, length x = N -> T (T x) = x) by (intros x Hx; apply (F_step i Hi x Hx)).
    assert (HE : forall x, length x = N -> w (bl x) * F i x = w (bl x) * F (S i) x + Rmin (w (bl x)) (w (bl (T x))) * (F (S i) (T x) - F (S i) x)).
    { intros x Hx. destruct (F_step i Hi x Hx) as [_ (a & _ & E1 & E2)]. fold T in E1, E2. rewrite <- E2, E1. ring. }
    split; [|split].
    + apply (step_continuous N T HG (fun x => w (bl x)) (F (S i)) (F i)); auto using cn_weight, weight_nonneg.
    + intros M. pose proof (lb_comp N T (F (S i)) (proj1 HG) B) as B'. destruct (B M) as [b [P Q]]. destruct (B' M) as [b' [P' Q']].
      exists (b + b'). split; [lra|]. intros x Hx Hc. destruct (F_step i Hi x Hx) as [_ (a & Ha & E1 & _)]. fold T in E1. rewrite E1.
      pose proof (Q x Hx Hc) as X1. pose proof (Q' x Hx Hc) as X2. cbv beta in X2.
      eapply Rle_trans; [apply Rabs_triang|]. rewrite !Rabs_mult, (Rabs_right a), (Rabs_right (1 - a)) by lra.
      pose proof (Rabs_pos (F (S i) (T x))). pose proof (Rabs_pos (F (S i) x)). nra.
    + intros c Hc. apply (step_stationary N T HG HB (fun x => w (bl x)) (F (S i)) (F i)); auto using cn_weight, weight_nonneg.
Qed.

Lemma run_stationary : forall E, (forall z rs, same_shape s0 z -> Forall (same_shape s0) rs -> length rs = K ->
    mean_updates log_prob latent data grad step_size n s0 phi rs z (E z rs)) ->
  forall c, by_blocks s0 (S K) (fun b => w b * phi (hd [] b)) c -> by_blocks s0 (S K) (fun b => w b * E (hd [] b) (tl b)) c.
Proof.
  intros E HE c Hc. destruct (run K (le_n K)) as [_ [_ H]]. specialize (H c Hc). rewrite Nat.sub_diag in H.
  unfold by_blocks. eapply (int_ext _ _ (by_volume_integral N)); [|exact H]. intros x Hx. cbv beta. f_equal.
  destruct (blocks_wf s0 (S K) x Hx) as [A B]. unfold F. destruct (bl x) as [|z rs]; [discriminate|]. inversion A; subst. cbn [hd tl skipn].
  symmetry. apply upds_unique; auto.
Qed.
End Run.

Lemma trajectory_volume : forall data grad step_size n s0, (forall z, same_shape s0 z -> same_shape s0 (grad data z)) ->
  (forall i, (i < size s0)%nat -> continuous_tensors s0 (fun z => nth i (concat (grad data z)) 0)) ->
  forall f a, by_blocks s0 2 (fun b => f (hd [] b, hd [] (tl b))) a ->
  by_blocks s0 2 (fun b => f (trajectory data grad step_size n (hd [] b, hd [] (tl b)))) a.
Proof.
  intros data grad step_size n s0 Hg Cg f a H. unfold by_blocks in *.
  destruct (fine_trajectory data grad step_size n s0 Hg Cg 1 0 (le_n 1)) as [Hw HG].
  pose proof (by_volume_good _ _ _ a HG H) as H'. eapply (int_ext _ _ (by_volume_integral _)); [|exact H'].
  intros x Hx. cbv beta. pose proof (blocks_wf s0 2 x Hx) as Hb. unfold flatly. rewrite blocks_flat by (apply Hw; auto).
  destruct (wf_split s0 1 0 (le_n 1) _ Hb) as (z & rs1 & r & rs2 & -> & E & _). destruct rs1; [|discriminate].
  rewrite (on_at 1 0 (le_n 1)) by auto. cbn [hd tl app]. rewrite <- surjective_pairing. reflexivity.
Qed.
