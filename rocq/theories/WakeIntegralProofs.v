(** * The two phases of WakeSleep on any space (proofs for C67). *)
From Coquelicot Require Import Coquelicot.
From Coq Require Import Reals List Arith Bool Lia Lra FunctionalExtensionality.
From Verif Require Import Graph GraphSpec Feed Transform TransformProofs VI VISpec VIProofs VIGradProofs VIMoreSpec VIMoreProofs VIIntegralSpec VIIntegralProofs.
Import ListNotations.
Local Open Scope R_scope.

Section W.
Context {V A : Type}.
Variable log_prob : params -> nat -> list (nat * V) -> V -> list R.
Variable q_log_prob : params -> nat -> (nat -> V) -> V -> list R.
Variable latent : list (nat * nat).
Variable scale : list (nat * R).
Variable reg : params -> list R.
Variable D : A -> Prop.
Variable I : (A -> R) -> R -> Prop.
Variable draw : A -> sample V.
Variable w : A -> R.
Hypothesis HI : integral D I.

Lemma wake_model_by : forall n th v L, (0 < n)%nat -> I w 1 -> (forall x, D x -> posed latent (draw x)) ->
  (forall x, D x -> differentiable (fun t => log_joint log_prob latent scale t (draw x)) th v) -> differentiable (penalty reg) th v ->
  let F := fun t x => w x * log_joint log_prob latent scale t (draw x) in
  interchange I F th v -> nearby (fun t => I (F t) (L t)) th v ->
  differentiable L th v /\
  expected_by D I w n (fun l => gradient (wake_loss_p log_prob latent scale reg (fixed_draws (map draw l))) th v) (partial (fun t => - L t + penalty reg t) th v).
Proof.
  intros n th v L Hn Hw Hp Hd Hr F S NL.
  destruct (pathwise_by D I w n th v (fun x t => log_joint log_prob latent scale t (draw x)) (penalty reg) L HI Hn Hw Hd Hr S NL) as [A1 A2].
  split; [exact A1|]. eapply (expected_by_ext D I w n); [|exact A2]. intros l _ Hl. apply gradient_ext. intros y.
  rewrite wake_loss.
  - unfold fixed_draws. rewrite !map_map. reflexivity.
  - intros d Hin. unfold fixed_draws in Hin. rewrite map_map in Hin. apply in_map_iff in Hin. destruct Hin as (a & <- & Ha). auto.
Qed.

Lemma sleep_by : forall c n th v L, (0 < n)%nat -> I w 1 -> NoDup (map snd latent) -> (forall zq, In zq latent -> factor scale (fst zq) = c) ->
  (forall x, D x -> differentiable (fun t => fantasy_log_q q_log_prob latent c t (draw x)) th v) -> differentiable (penalty reg) th v ->
  let F := fun t x => w x * fantasy_log_q q_log_prob latent c t (draw x) in
  interchange I F th v -> nearby (fun t => I (F t) (L t)) th v ->
  differentiable L th v /\
  expected_by D I w n (fun l => gradient (wake_loss_q q_log_prob latent scale reg true (fixed_draws (map draw l)) th) th v) (partial (fun t => - L t + penalty reg t) th v).
Proof.
  intros c n th v L Hn Hw Hnd Hc Hd Hr F S NL.
  destruct (pathwise_by D I w n th v (fun x t => fantasy_log_q q_log_prob latent c t (draw x)) (penalty reg) L HI Hn Hw Hd Hr S NL) as [A1 A2].
  split; [exact A1|]. eapply (expected_by_ext D I w n); [|exact A2]. intros l _ Hl. apply gradient_ext. intros y.
  unfold wake_loss_q, fixed_draws. rewrite !map_map.
  symmetry. f_equal. f_equal. apply mean_average.
  intros x Hx. rewrite (sleep_spec q_log_prob latent scale c) by auto. unfold fantasy_log_q. apply sumR_map_ext. intros zq _.
  f_equal. f_equal. f_equal. apply functional_extensionality. intros k. apply sleep_env; auto.
Qed.
End W.

(** Densities with logarithm theta z, at uniform draws. *)
Definition tilt_p (th : params) (k : nat) (d : list (nat * R)) (u : R) : list R := [th 0%nat * u].
Definition tilt_q (th : params) (q : nat) (e : nat -> R) (u : R) : list R := [th 0%nat * u].
Definition tilt_draw (z : R) : sample R := mksample (fun _ => z) [] (fun _ => z).

Lemma tilt_joint : forall t z, log_joint tilt_p [(0%nat, 1%nat)] [] t (tilt_draw z) = t 0%nat * z.
Proof. intros t z. unfold log_joint, scaled_sum, latent_values, bindings, tilt_p, factor. simpl. ring. Qed.
Lemma tilt_fantasy : forall t z, fantasy_log_q tilt_q [(0%nat, 1%nat)] 1 t (tilt_draw z) = t 0%nat * z.
Proof. intros t z. unfold fantasy_log_q, tilt_q. simpl. ring. Qed.

Section T.
Notation th0 := (fun _ : nat => 0).
Lemma tilt_swap : forall F, (forall t z, F t z = t 0%nat * z) ->
  interchange (by_RInt 0 1) (fun t z => 1 * F t z) th0 0 /\ nearby (fun t => by_RInt 0 1 (fun z => 1 * F t z) (t 0%nat * (1 / 2))) th0 0.
Proof.
  intros F E.
  assert (Z : forall t, by_RInt 0 1 (fun z => 1 * F t z) (t 0%nat * (1 / 2))).
  { intros t. apply (int_ext _ _ (RInt_integral 0 1 ltac:(lra)) (fun z => t 0%nat * z)); [intros; rewrite E; ring|].
    apply (int_scal _ _ (RInt_integral 0 1 ltac:(lra))).
    unfold by_RInt. replace (1 / 2) with (minus (1 * 1 / 2) (0 * 0 / 2)) by (unfold minus, plus, opp; simpl; field).
    apply (is_RInt_derive (fun z => z * z / 2) (fun z => z)).
    - intros z _. auto_derive; [exact I|]. field.
    - intros z _. apply continuous_id. }
  split; [|unfold nearby; apply filter_forall; intros y; apply Z].
  exists (fun t => t 0%nat * (1 / 2)), (1 / 2). split; [unfold nearby; apply filter_forall; intros y; apply Z|]. split.
  - unfold set_param. simpl. auto_derive; [exact I|]. field.
  - apply (int_ext _ _ (RInt_integral 0 1 ltac:(lra)) (fun z => 1 * F (fun _ => 1) z)).
    + intros z _. rewrite E. unfold partial. symmetry. rewrite (Derive_ext _ (fun y => y * z)).
      * apply is_derive_unique. auto_derive; [exact I|]. ring.
      * intros y. rewrite E. unfold set_param. simpl. ring.
    + pose proof (Z (fun _ => 1)) as X. cbv beta in X. rewrite Rmult_1_l in X. exact X.
Qed.
End T.
