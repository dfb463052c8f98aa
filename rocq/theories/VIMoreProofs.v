(** * Score gradients for draws that depend on the variables, WakeSleep, and the
    choice KLqp makes (proofs of C37, C38, C67, C68). *)
From Coquelicot Require Import Coquelicot.
From Coq Require Import Reals List Arith Bool Lia Lra ZArith FunctionalExtensionality.
From Verif Require Import Graph Feed Transform VI VISpec VIProofs VIGradProofs VIMoreSpec.
Import ListNotations.
Local Open Scope R_scope.

(** The gradient of - average (F c) + r. *)
Lemma gradient_score : forall {A} (l : list A) (F : A -> params -> R) (c : A -> R) (r obj : params -> R) th v,
  (forall x, obj (set_param th v x) = - average (map (fun a => F a (set_param th v x) * c a) l) + r (set_param th v x)) ->
  (forall a, In a l -> differentiable (F a) th v) -> differentiable r th v ->
  gradient obj th v = - average (map (fun a => partial (F a) th v * c a) l) + partial r th v.
Proof.
  intros A l F c r obj th v Ho HF Hr. unfold gradient. apply is_derive_unique.
  apply (is_derive_ext (fun x => - average (map (fun a => F a (set_param th v x) * c a) l) + r (set_param th v x))); [intros; rewrite Ho; auto|].
  apply (is_derive_plus (K := R_AbsRing) (V := R_NormedModule) (fun x => - average (map (fun a => F a (set_param th v x) * c a) l)) (fun x => r (set_param th v x)));
    [|apply derive_of; auto].
  apply (is_derive_opp (K := R_AbsRing) (V := R_NormedModule) (fun x => average (map (fun a => F a (set_param th v x) * c a) l))).
  apply (is_derive_average l (fun a x => F a (set_param th v x) * c a)). intros a Ha.
  apply (is_derive_ext (fun x => c a * F a (set_param th v x))); [intros; apply Rmult_comm|]. rewrite Rmult_comm.
  apply (is_derive_scal (fun x => F a (set_param th v x))). apply derive_of. apply HF. auto.
Qed.

Section Stopped.
Context {V : Type}.
Variable log_prob : params -> nat -> list (nat * V) -> V -> list R.
Variable q_log_prob : params -> nat -> (nat -> V) -> V -> list R.
Variable latent : list (nat * nat).
Variable scale : list (nat * R).
Variable reg : params -> list R.
Variable ds : list (params -> sample V).
Variables (th : params) (v : nat).
Hypothesis Hp : forall d, In d ds -> posed latent (d th).
Hypothesis Hheld : conditions_held q_log_prob latent ds th v.
Hypothesis Hq : forall d, In d ds -> differentiable (fun t => log_q q_log_prob latent scale t (d th)) th v.
Hypothesis Hr : differentiable (penalty reg) th v.

Lemma stopped_q : forall s d x, In d ds ->
  q_total q_log_prob latent s (set_param th v x) (d th) (d (set_param th v x)) = log_q q_log_prob latent s (set_param th v x) (d th).
Proof.
  intros s d x Hd. rewrite <- q_total_spec. unfold q_total. rewrite !fold_sum. f_equal. apply sumR_map_ext. intros zq Hz.
  rewrite (Hheld d (snd zq) x (s_q (d th) (snd zq)) Hd (in_map snd _ _ Hz)). auto.
Qed.

Lemma score_stopped :
  gradient (score_objective log_prob q_log_prob latent scale reg ds th) th v =
  - average (map (fun d => partial (fun t => log_q q_log_prob latent scale t (d th)) th v *
      (log_joint log_prob latent scale th (d th) - log_q q_log_prob latent scale th (d th))) ds) + partial (penalty reg) th v.
Proof.
  apply (gradient_score ds (fun d t => log_q q_log_prob latent scale t (d th))); auto. intros x. unfold score_objective.
  rewrite (mean_average ds _ (fun d => log_q q_log_prob latent scale (set_param th v x) (d th) *
    (log_joint log_prob latent scale th (d th) - log_q q_log_prob latent scale th (d th)))).
  - unfold reg_penalty, penalty. lra.
  - intros d Hd. rewrite stopped_q, q_total_spec, p_total_spec by auto. auto.
Qed.

Variable kl : params -> nat -> nat -> (nat -> V) -> list R.
Variable kl_scaling : list (nat * R).
Variable entropy : params -> nat -> (nat -> V) -> list R.

Lemma score_kl_stopped : forall own,
  differentiable (fun t => sumR (map (fun zq => factor kl_scaling (fst zq) * sumR (kl t (fst zq) (snd zq) own)) latent)) th v ->
  gradient (score_kl_objective log_prob q_log_prob latent scale reg kl kl_scaling own ds th) th v =
  - average (map (fun d => partial (fun t => log_q q_log_prob latent scale t (d th)) th v * log_lik log_prob latent scale th (d th)) ds) +
  partial (fun t => sumR (map (fun zq => factor kl_scaling (fst zq) * sumR (kl t (fst zq) (snd zq) own)) latent) + penalty reg t) th v.
Proof.
  intros own Hk. apply (gradient_score ds (fun d t => log_q q_log_prob latent scale t (d th)) _
    (fun t => sumR (map (fun zq => factor kl_scaling (fst zq) * sumR (kl t (fst zq) (snd zq) own)) latent) + penalty reg t)); auto.
  - intros x. unfold score_kl_objective.
    rewrite (mean_average ds _ (fun d => log_q q_log_prob latent scale (set_param th v x) (d th) * log_lik log_prob latent scale th (d th))).
    + rewrite kl_spec. unfold reg_penalty, penalty. lra.
    + intros d Hd. rewrite stopped_q, p_lik_spec by auto. auto.
  - apply (ex_derive_plus (K := R_AbsRing) (V := R_NormedModule)); auto.
Qed.

Lemma score_entropy_stopped : forall own,
  differentiable (fun t => sumR (map (fun zq => sumR (entropy t (snd zq) own)) latent)) th v ->
  gradient (score_entropy_objective log_prob q_log_prob latent scale reg entropy own ds th) th v =
  - average (map (fun d => partial (fun t => log_q q_log_prob latent scale t (d th)) th v * log_joint log_prob latent scale th (d th)) ds) +
  partial (fun t => penalty reg t - sumR (map (fun zq => sumR (entropy t (snd zq) own)) latent)) th v.
Proof.
  intros own Hk. apply (gradient_score ds (fun d t => log_q q_log_prob latent scale t (d th)) _
    (fun t => penalty reg t - sumR (map (fun zq => sumR (entropy t (snd zq) own)) latent))); auto.
  - intros x. unfold score_entropy_objective.
    rewrite (mean_average ds _ (fun d => log_q q_log_prob latent scale (set_param th v x) (d th) * log_joint log_prob latent scale th (d th))).
    + unfold reg_penalty, penalty, q_entropy. lra.
    + intros d Hd. rewrite stopped_q, p_total_spec by auto. auto.
  - apply (ex_derive_minus (K := R_AbsRing) (V := R_NormedModule)); auto.
Qed.

Lemma wake_stopped :
  gradient (wake_loss_q q_log_prob latent scale reg false ds th) th v =
  - average (map (fun d => partial (fun t => log_q q_log_prob latent scale t (d th)) th v) ds) + partial (penalty reg) th v.
Proof.
  rewrite (gradient_score ds (fun d t => log_q q_log_prob latent scale t (d th)) (fun _ => 1) (penalty reg)); auto.
  - f_equal. f_equal. unfold average. rewrite !map_length. f_equal. apply sumR_map_ext. intros; lra.
  - intros x. unfold wake_loss_q.
    rewrite (mean_average ds _ (fun d => log_q q_log_prob latent scale (set_param th v x) (d th) * 1)); [reflexivity|].
    intros d Hd. rewrite stopped_q by auto. lra.
Qed.
End Stopped.

Lemma pq_stopped : forall {V} (log_prob : params -> nat -> list (nat * V) -> V -> list R) q_log_prob latent reg (ds : list (params -> sample V)) th v,
  ds <> [] -> (forall d, In d ds -> posed latent (d th)) -> conditions_held q_log_prob latent ds th v ->
  (forall d, In d ds -> differentiable (fun t => log_q q_log_prob latent [] t (d th)) th v) -> differentiable (penalty reg) th v ->
  let lw := fun d : params -> sample V => log_joint log_prob latent [] th (d th) - log_q q_log_prob latent [] th (d th) in
  gradient (pq_objective log_prob q_log_prob latent reg ds th) th v =
  - sumR (map (fun d => exp (lw d) / sumR (map (fun e => exp (lw e)) ds) * partial (fun t => log_q q_log_prob latent [] t (d th)) th v) ds) +
  partial (penalty reg) th v.
Proof.
  intros V log_prob q_log_prob latent reg ds th v Hne Hp Hheld Hd Hr lw. unfold gradient. apply is_derive_unique.
  set (c := fun d => exp (lw d) / sumR (map (fun e => exp (lw e)) ds)).
  assert (E : pq_log_w log_prob q_log_prob latent ds th = map lw ds).
  { unfold pq_log_w. apply map_ext_in. intros d Hi. rewrite pq_q_spec, pq_p_spec by auto. auto. }
  apply (is_derive_ext (fun x => - sumR (map (fun d => c d * log_q q_log_prob latent [] (set_param th v x) (d th)) ds) + penalty reg (set_param th v x))).
  - intros x. unfold pq_objective. rewrite E, w_norm_ratio by (destruct ds; [congruence|discriminate]).
    rewrite !map_map, dot_map. unfold penalty, reg_penalty.
    rewrite Ropp_minus_distr, Rplus_comm. unfold Rminus. f_equal. f_equal. apply sumR_map_ext.
    intros d Hi. assert (S : pq_q q_log_prob latent (set_param th v x) (d th) (d (set_param th v x)) = log_q q_log_prob latent [] (set_param th v x) (d th)).
    { rewrite <- pq_q_spec. unfold pq_q. rewrite !fold_sum. f_equal. apply sumR_map_ext. intros zq Hz.
      rewrite (Hheld d (snd zq) x (s_q (d th) (snd zq)) Hi (in_map snd _ _ Hz)). auto. }
    rewrite S. unfold c. lra.
  - apply (is_derive_plus (K := R_AbsRing) (V := R_NormedModule) (fun x => - sumR (map (fun d => c d * log_q q_log_prob latent [] (set_param th v x) (d th)) ds)) (fun x => penalty reg (set_param th v x)));
      [|apply derive_of; auto].
    apply (is_derive_opp (K := R_AbsRing) (V := R_NormedModule) (fun x => sumR (map (fun d => c d * log_q q_log_prob latent [] (set_param th v x) (d th)) ds))).
    apply (is_derive_sumR ds (fun d x => c d * log_q q_log_prob latent [] (set_param th v x) (d th))). intros d Hi. apply is_derive_scal. apply derive_of. apply Hd. auto.
Qed.

(** ** The gradient is not stopped in what an approximation is conditional on *)
Definition chain_q (th : params) (q : nat) (e : nat -> R) (u : R) : list R :=
  match q with 10%nat => [- ((u - th 0%nat) * (u - th 0%nat)) / 2] | _ => [- ((u - e 10%nat) * (u - e 10%nat)) / 2] end.
Definition chain_draw (th : params) : sample R :=
  mksample (fun q => match q with 10%nat => th 0%nat | _ => th 0%nat + 1 end) [] (fun _ => 0).
Definition chain_latent : list (nat * nat) := [(0%nat, 10%nat); (1%nat, 11%nat)].
Definition no_prior (th : params) (k : nat) (d : list (nat * R)) (u : R) : list R := [0].

Lemma chain_posed : forall th, posed chain_latent (chain_draw th).
Proof. intros th. split; [repeat constructor; simpl; lia|]. split; [constructor|]. simpl. tauto. Qed.

Lemma stopped_refuted : exists (log_prob : params -> nat -> list (nat * R) -> R -> list R) q_log_prob latent d th v,
  posed latent (d th) /\ differentiable (fun t => log_q q_log_prob latent [] t (d th)) th v /\
  gradient (score_objective log_prob q_log_prob latent [] (fun _ => []) [d] th) th v <>
  - (partial (fun t => log_q q_log_prob latent [] t (d th)) th v *
      (log_joint log_prob latent [] th (d th) - log_q q_log_prob latent [] th (d th))) + partial (penalty (fun _ => [])) th v.
Proof.
  exists no_prior, chain_q, chain_latent, chain_draw, (fun _ => 0), 0%nat.
  assert (L : forall x, log_q chain_q chain_latent [] (set_param (fun _ => 0) 0 x) (chain_draw (fun _ => 0)) = - (x * x) / 2 - 1 / 2).
  { intros x. unfold log_q, chain_latent, chain_q, chain_draw, set_param, factor. simpl. lra. }
  assert (D : partial (fun t => log_q chain_q chain_latent [] t (chain_draw (fun _ => 0))) (fun _ => 0) 0 = 0).
  { unfold partial. rewrite (Derive_ext _ (fun x => - (x * x) / 2 - 1 / 2)) by apply L.
    apply is_derive_unique. auto_derive; auto. lra. }
  split; [apply chain_posed|]. split.
  { unfold differentiable. eapply ex_derive_ext; [intros x; symmetry; apply L|]. auto_derive. auto. }
  rewrite D. unfold partial at 1, penalty. rewrite Derive_const.
  assert (G : gradient (score_objective no_prior chain_q chain_latent [] (fun _ => []) [chain_draw] (fun _ => 0)) (fun _ => 0) 0 = - (1 / 2)).
  { unfold gradient. apply is_derive_unique.
    apply (is_derive_ext (fun x => - ((- (x * x) / 2 - ((1 - x) * (1 - x)) / 2) * (1 / 2)))).
    - intros x. unfold score_objective, reduce_mean, reg_penalty. cbn [map length sumR].
      rewrite q_total_spec, p_total_spec by apply chain_posed.
      unfold log_q, log_joint, scaled_sum, q_total, weighted, get_or_1, latent_values, bindings, chain_latent, chain_q, chain_draw, no_prior, set_param, factor.
      simpl. lra.
    - auto_derive; auto. lra. }
  rewrite G. lra.
Qed.

(** ** WakeSleep *)
Section Wake.
Context {V : Type}.
Variable log_prob : params -> nat -> list (nat * V) -> V -> list R.
Variable q_log_prob : params -> nat -> (nat -> V) -> V -> list R.
Variable latent : list (nat * nat).
Variable scale : list (nat * R).
Variable reg : params -> list R.

Lemma wake_loss : forall (ds : list (params -> sample V)) th, (forall d, In d ds -> posed latent (d th)) ->
  wake_loss_p log_prob latent scale reg ds th = - average (map (fun d => log_joint log_prob latent scale th (d th)) ds) + penalty reg th.
Proof.
  intros ds th H. unfold wake_loss_p. rewrite (mean_average ds _ (fun d => log_joint log_prob latent scale th (d th))); [reflexivity|].
  intros d Hd. apply p_total_spec. auto.
Qed.

Lemma wake_model : forall (space : list (sample V)) w n th v, (0 < n)%nat -> sumR (map w space) = 1 ->
  (forall d, In d space -> posed latent d) ->
  (forall d, In d space -> differentiable (fun t => log_joint log_prob latent scale t d) th v) -> differentiable (penalty reg) th v ->
  expected space w n (fun l => gradient (wake_loss_p log_prob latent scale reg (fixed_draws l)) th v) =
  partial (fun t => - mean_of space w (log_joint log_prob latent scale t) + penalty reg t) th v.
Proof.
  intros space w n th v Hn Hw Hp Hd Hr.
  eapply eq_trans; [|exact (pathwise space w n th v (fun d t => log_joint log_prob latent scale t d) (penalty reg) Hn Hw Hd Hr)].
  apply expected_ext. intros l _ Hl. unfold gradient. apply Derive_ext. intros x.
  rewrite wake_loss.
  - unfold fixed_draws. rewrite map_map. auto.
  - intros d Hin. unfold fixed_draws in Hin. apply in_map_iff in Hin. destruct Hin as (a & <- & Ha). auto.
Qed.

Lemma get_p_swap : forall (d : sample V), NoDup (map snd latent) -> forall k,
  Feed.dict_get (p_dict_swap latent d) k =
  match find (fun zq => Nat.eqb (snd zq) k) latent with Some zq => Some (s_prior d (fst zq)) | None => Feed.dict_get (s_data d) k end.
Proof.
  intros d Hn k. unfold p_dict_swap. generalize (s_data d) as acc. revert Hn. generalize latent as l.
  induction l as [|zq l IH]; intros Hn acc; simpl; auto. inversion Hn as [|? ? Hni Hn']; subst.
  rewrite (IH Hn'), get_set. destruct (Nat.eqb (snd zq) k) eqn:E; auto.
  apply Nat.eqb_eq in E. subst k. destruct (find (fun z => Nat.eqb (snd z) (snd zq)) l) as [z|] eqn:F; auto.
  apply find_some in F. destruct F as [F1 F2]. apply Nat.eqb_eq in F2. exfalso. apply Hni. rewrite <- F2. now apply in_map.
Qed.

Lemma find_own : forall zq, NoDup (map snd latent) -> In zq latent -> find (fun z => Nat.eqb (snd z) (snd zq)) latent = Some zq.
Proof.
  intros zq. generalize latent as l. induction l as [|y l IH]; intros Hn Hi; [destruct Hi|].
  inversion Hn as [|? ? Hni Hn']; subst. simpl. destruct Hi as [->|Hi].
  - now rewrite Nat.eqb_refl.
  - destruct (Nat.eqb (snd y) (snd zq)) eqn:E; auto. apply Nat.eqb_eq in E. exfalso. apply Hni. rewrite E. now apply in_map.
Qed.

Lemma last_in : forall {A} (l : list A) a, l <> [] -> In (last l a) l.
Proof.
  intros A. induction l as [|x l IH]; intros a H; [congruence|]. destruct l as [|y l']; [simpl; auto|].
  right. change (last (x :: y :: l') a) with (last (y :: l') a). apply IH. discriminate.
Qed.

Lemma sleep_spec : forall c th (stopped d : sample V), NoDup (map snd latent) ->
  (forall zq, In zq latent -> factor scale (fst zq) = c) ->
  sleep_q q_log_prob latent scale th stopped d =
  sumR (map (fun zq => c * sumR (q_log_prob th (snd zq)
    (fun k => match Feed.dict_get (p_dict_swap latent d) k with Some u => u | None => s_q d k end) (s_prior stopped (fst zq)))) latent).
Proof.
  intros c th stopped d Hn Hc. unfold sleep_q. rewrite fold_sum, Rplus_0_l. apply sumR_map_ext. intros zq Hz.
  rewrite !(get_p_swap _ Hn (snd zq)), (find_own zq Hn Hz).
  rewrite weighted_sum, get_or_1_factor. f_equal. unfold last_latent. apply Hc. apply last_in. intros E. rewrite E in Hz. destruct Hz.
Qed.

Section Sleep.
Variable ds : list (params -> sample V).
Variables (th : params) (v : nat) (c : R).
Hypothesis Hn : NoDup (map snd latent).
Hypothesis Hc : forall zq, In zq latent -> factor scale (fst zq) = c.

Lemma sleep_env : forall (d : sample V) k,
  match Feed.dict_get (p_dict_swap latent d) k with Some u => u | None => s_q d k end = fantasy latent d k.
Proof.
  intros d k. rewrite (get_p_swap d Hn). unfold fantasy. destruct (find _ latent); auto.
Qed.

Hypothesis Hheld : fantasies_held q_log_prob latent ds th v.
Hypothesis Hq : forall d, In d ds -> differentiable (fun t => fantasy_log_q q_log_prob latent c t (d th)) th v.
Hypothesis Hr : differentiable (penalty reg) th v.

Lemma sleep_gradient :
  gradient (wake_loss_q q_log_prob latent scale reg true ds th) th v =
  - average (map (fun d => partial (fun t => fantasy_log_q q_log_prob latent c t (d th)) th v) ds) + partial (penalty reg) th v.
Proof.
  rewrite (gradient_score ds (fun d t => fantasy_log_q q_log_prob latent c t (d th)) (fun _ => 1) (penalty reg)); auto.
  - f_equal. f_equal. unfold average. rewrite !map_length. f_equal. apply sumR_map_ext. intros; lra.
  - intros x. unfold wake_loss_q.
    rewrite (mean_average ds _ (fun d => fantasy_log_q q_log_prob latent c (set_param th v x) (d th) * 1)); [reflexivity|].
    intros d Hd. rewrite (sleep_spec c) by auto. rewrite Rmult_1_r. unfold fantasy_log_q. apply sumR_map_ext. intros zq Hz.
    f_equal. f_equal. rewrite <- (Hheld d (snd zq) x (s_prior (d th) (fst zq)) Hd (in_map snd _ _ Hz)).
    f_equal. apply functional_extensionality. intros k. apply sleep_env.
Qed.
End Sleep.
End Wake.

Lemma sleep_unbiased : forall {V} (q_log_prob : params -> nat -> (nat -> V) -> V -> list R) latent scale reg c (space : list (sample V)) w n th v,
  (0 < n)%nat -> sumR (map w space) = 1 -> NoDup (map snd latent) -> (forall zq, In zq latent -> factor scale (fst zq) = c) ->
  (forall d, In d space -> differentiable (fun t => fantasy_log_q q_log_prob latent c t d) th v) -> differentiable (penalty reg) th v ->
  expected space w n (fun l => gradient (wake_loss_q q_log_prob latent scale reg true (fixed_draws l) th) th v) =
  partial (fun t => - mean_of space w (fantasy_log_q q_log_prob latent c t) + penalty reg t) th v.
Proof.
  intros V q_log_prob latent scale reg c space w n th v Hn Hw Hnd Hc Hd Hr.
  eapply eq_trans; [|exact (pathwise space w n th v (fun d t => fantasy_log_q q_log_prob latent c t d) (penalty reg) Hn Hw Hd Hr)].
  apply expected_ext. intros l _ Hl. unfold gradient. apply Derive_ext. intros x.
  unfold wake_loss_q, fixed_draws. rewrite map_map.
  rewrite (mean_average l _ (fun d => fantasy_log_q q_log_prob latent c (set_param th v x) d)); [reflexivity|].
  intros d Hi. rewrite (sleep_spec q_log_prob latent scale c) by auto. unfold fantasy_log_q. apply sumR_map_ext. intros zq _.
  f_equal. f_equal. f_equal. apply functional_extensionality. intros k. apply sleep_env; auto.
Qed.

(** The documentation promises fantasies of the observed variables too. *)
Definition amortized_q (th : params) (q : nat) (e : nat -> R) (u : R) : list R := [e 2%nat * u].
Definition amortized_draw (th : params) : sample R := mksample (fun _ => 0) [(2%nat, 5)] (fun _ => 1).
Lemma fantasy_refuted : exists (q_log_prob : params -> nat -> (nat -> R) -> R -> list R) latent d th,
  posed latent (d th) /\ NoDup (map snd latent) /\
  wake_loss_q q_log_prob latent [] (fun _ => []) true [d] th th <>
    - sumR (map (fun zq => sumR (q_log_prob th (snd zq)
        (fun k => match find (fun zq => Nat.eqb (snd zq) k) latent with Some zq => s_prior (d th) (fst zq) | None => s_prior (d th) k end)
        (s_prior (d th) (fst zq)))) latent).
Proof.
  exists amortized_q, [(0%nat, 10%nat)], amortized_draw, (fun _ => 0).
  assert (N : forall k : nat, NoDup [k]) by (intros k; constructor; [simpl; tauto|constructor]).
  split. { split; [apply N|]. split; [apply N|]. simpl. intros k [<-|[]] [E|[]]. discriminate. }
  split; [apply N|].
  unfold wake_loss_q, sleep_q, p_dict_swap, weighted, get_or_1, last_latent, reg_penalty, reduce_mean, amortized_q. simpl. lra.
Qed.

(** ** C68 *)
Lemma klqp_choice_spec : forall latent kl_scaling (is_normal fully_reparameterized : nat -> bool),
  let analytic := forall z q, In (z, q) latent -> is_normal z = true /\ is_normal q = true in
  let free := forall z q, In (z, q) latent -> fully_reparameterized q = true in
  let built := klqp_build latent kl_scaling is_normal fully_reparameterized in
  (built = None <-> kl_scaling <> [] /\ ~ analytic) /\
  (built = Some ReparamKL <-> free /\ analytic) /\
  (built = Some Reparam <-> free /\ ~ analytic /\ kl_scaling = []) /\
  (built = Some ScoreRB <-> ~ free /\ (kl_scaling = [] \/ analytic)).
Proof.
  intros latent kl_scaling is_normal rep analytic free built.
  assert (A : forallb (fun zq => is_normal (fst zq) && is_normal (snd zq)) latent = true <-> analytic).
  { rewrite forallb_forall. split.
    - intros H z q Hz. specialize (H _ Hz). now apply andb_true_iff in H.
    - intros H [z q] Hz. apply andb_true_iff. exact (H _ _ Hz). }
  assert (F : forallb (fun zq => rep (snd zq)) latent = true <-> free).
  { rewrite forallb_forall. split.
    - intros H z q Hz. exact (H _ Hz).
    - intros H [z q] Hz. exact (H _ _ Hz). }
  unfold built, klqp_build.
  destruct (forallb (fun zq => is_normal (fst zq) && is_normal (snd zq)) latent);
  destruct (forallb (fun zq => rep (snd zq)) latent).
  - assert (Ha : analytic) by (apply A; reflexivity). assert (Hf : free) by (apply F; reflexivity).
    cbn [negb andb]. clear A F. intuition (try discriminate; auto).
  - assert (Ha : analytic) by (apply A; reflexivity). assert (Hf : ~ free) by (intros H; apply F in H; discriminate).
    cbn [negb andb]. clear A F. intuition (try discriminate; auto).
  - assert (Ha : ~ analytic) by (intros H; apply A in H; discriminate). assert (Hf : free) by (apply F; reflexivity).
    clear A F. destruct kl_scaling as [|y l]; cbn [negb andb]; intuition (try discriminate; auto).
  - assert (Ha : ~ analytic) by (intros H; apply A in H; discriminate). assert (Hf : ~ free) by (intros H; apply F in H; discriminate).
    clear A F. destruct kl_scaling as [|y l]; cbn [negb andb]; intuition (try discriminate; auto).
Qed.

Lemma klqp_scaling_used : forall latent kl_scaling (is_normal fully_reparameterized : nat -> bool) c,
  (forall q, is_normal q = true -> fully_reparameterized q = true) ->
  klqp_build latent kl_scaling is_normal fully_reparameterized = Some c -> c <> ReparamKL -> kl_scaling = [].
Proof.
  intros latent kl_scaling is_normal rep c Hn H Hc.
  destruct (klqp_choice_spec latent kl_scaling is_normal rep) as (_ & _ & P2 & P3).
  destruct c; [congruence|apply P2 in H; tauto|]. apply P3 in H. destruct H as [Hf [->|Ha]]; auto.
  exfalso. apply Hf. intros z q Hz. apply Hn. apply (Ha z q Hz).
Qed.

Lemma n_samples_spec : forall n m, check_n_samples n = Some m <-> (0 < n)%Z /\ Z.of_nat m = n.
Proof.
  intros n m. unfold check_n_samples. destruct (Z.leb_spec n 0).
  - split; [discriminate|lia].
  - split; [intros [= <-]; lia|]. intros [_ <-]. now rewrite Nat2Z.id.
Qed.
