(** * Proofs for C37: expected gradients. *)
From Coquelicot Require Import Coquelicot.
From Coq Require Import Reals List Arith Bool Lia Lra FunctionalExtensionality.
From Verif Require Import Graph GraphSpec Feed Transform TransformProofs VI VISpec VIProofs.
Import ListNotations.
Local Open Scope R_scope.

Lemma set_same : forall th v, set_param th v (th v) = th.
Proof. intros. apply functional_extensionality. intros w. unfold set_param. destruct (Nat.eqb_spec w v); subst; auto. Qed.

(** ** Expectations *)
Section E.
Context {A : Type}.
Variable space : list A.
Variable w : A -> R.

Lemma expected_ext : forall n f g, (forall l, length l = n -> (forall a, In a l -> In a space) -> f l = g l) ->
  expected space w n f = expected space w n g.
Proof.
  induction n as [|n IH]; intros f g H; simpl; [apply H; auto; intros ? []|].
  apply sumR_map_ext. intros a Ha. f_equal. apply IH. intros l Hl Hi. apply H; [simpl; auto|]. intros b [<-|Hb]; auto.
Qed.

Hypothesis total : sumR (map w space) = 1.

Lemma expected_sum : forall n h c, expected space w n (fun l => c + sumR (map h l)) = c + INR n * mean_of space w h.
Proof.
  induction n as [|n IH]; intros h c; simpl expected; [simpl; lra|].
  rewrite (sumR_map_ext space _ (fun a => w a * (c + INR n * mean_of space w h) + w a * h a)).
  - rewrite sumR_map_add. rewrite (sumR_map_ext space (fun a => w a * (c + INR n * mean_of space w h)) (fun a => (c + INR n * mean_of space w h) * w a)) by (intros; lra).
    rewrite sumR_map_scal. change (map (fun a => w a) space) with (map w space). rewrite total. rewrite S_INR. unfold mean_of. lra.
  - intros a _. rewrite (expected_ext n _ (fun l => (c + h a) + sumR (map h l))) by (intros; simpl; lra). rewrite IH. lra.
Qed.

Lemma expected_average : forall n h c, (0 < n)%nat -> expected space w n (fun l => c + average (map h l)) = c + mean_of space w h.
Proof.
  intros n h c Hn. assert (Hne : INR n <> 0) by (apply not_0_INR; lia).
  rewrite (expected_ext n _ (fun l => c + sumR (map (fun a => / INR n * h a) l))).
  - rewrite expected_sum. unfold mean_of. rewrite (sumR_map_ext space (fun a => w a * (/ INR n * h a)) (fun a => / INR n * (w a * h a))) by (intros; lra).
    rewrite sumR_map_scal. field. auto.
  - intros l Hl _. unfold average. rewrite map_length, Hl, sumR_map_scal. unfold Rdiv. lra.
Qed.
End E.

(** ** Derivatives of sums *)
Lemma is_derive_sumR : forall {A} (l : list A) (F : A -> R -> R) (F' : A -> R) t,
  (forall a, In a l -> is_derive (F a) t (F' a)) -> is_derive (fun x => sumR (map (fun a => F a x) l)) t (sumR (map F' l)).
Proof.
  induction l as [|a l IH]; intros F F' t H; simpl.
  - apply (is_derive_const (K := R_AbsRing) (V := R_NormedModule) 0 t).
  - apply (is_derive_plus (K := R_AbsRing) (V := R_NormedModule) (F a) (fun x => sumR (map (fun a => F a x) l)));
      [apply H; simpl; auto|apply IH; intros; apply H; simpl; auto].
Qed.
Lemma is_derive_average : forall {A} (l : list A) (F : A -> R -> R) (F' : A -> R) t,
  (forall a, In a l -> is_derive (F a) t (F' a)) -> is_derive (fun x => average (map (fun a => F a x) l)) t (average (map F' l)).
Proof.
  intros A l F F' t H. unfold average. rewrite map_length.
  apply (is_derive_ext (fun x => / INR (length l) * sumR (map (fun a => F a x) l))).
  - intros x. rewrite map_length. unfold Rdiv. apply Rmult_comm.
  - replace (sumR (map F' l) / INR (length l)) with (/ INR (length l) * sumR (map F' l)) by (unfold Rdiv; lra).
    apply (is_derive_scal (fun x => sumR (map (fun a => F a x) l)) t (/ INR (length l))). apply is_derive_sumR. auto.
Qed.

Lemma derive_of : forall f t, ex_derive f t -> is_derive f t (Derive f t).
Proof. intros. apply Derive_correct. auto. Qed.

(** The score identity: sum of b exp(f) A differentiates to the mean of f' A. *)
Section Score.
Context {A : Type}.
Variable space : list A.
Variable b : A -> R.
Variable f : A -> R -> R.
Variable t : R.
Hypothesis Hf : forall a, In a space -> ex_derive (f a) t.
Let w x a := b a * exp (f a x).

Lemma is_derive_weight : forall a, In a space -> is_derive (fun x => w x a) t (w t a * Derive (f a) t).
Proof.
  intros a Ha. unfold w. replace (b a * exp (f a t) * Derive (f a) t) with (b a * (Derive (f a) t * exp (f a t))) by lra.
  apply (is_derive_scal (fun x => exp (f a x)) t (b a)).
  apply (is_derive_comp exp (f a) t (exp (f a t)) (Derive (f a) t)); [apply is_derive_exp|apply derive_of; auto].
Qed.

Lemma score_identity : forall (h : A -> R -> R) (h' : A -> R), (forall a, In a space -> is_derive (h a) t (h' a)) ->
  is_derive (fun x => mean_of space (w x) (fun a => h a x)) t
    (mean_of space (w t) (fun a => Derive (f a) t * h a t) + mean_of space (w t) h').
Proof.
  intros h h' Hh. unfold mean_of. rewrite <- sumR_map_add.
  apply (is_derive_sumR space (fun a x => w x a * h a x)). intros a Ha.
  replace (w t a * (Derive (f a) t * h a t) + w t a * h' a) with ((w t a * Derive (f a) t) * h a t + w t a * h' a) by lra.
  apply (is_derive_mult (fun x => w x a) (h a) t (w t a * Derive (f a) t) (h' a)); [apply is_derive_weight; auto|auto|].
  intros. apply Rmult_comm.
Qed.

Lemma score_zero : locally t (fun x => sumR (map (w x) space) = 1) -> mean_of space (w t) (fun a => Derive (f a) t) = 0.
Proof.
  intros H. assert (D : is_derive (fun x => sumR (map (fun a => w x a) space)) t (sumR (map (fun a => w t a * Derive (f a) t) space))).
  { apply (is_derive_sumR space (fun a x => w x a)). intros. apply is_derive_weight. auto. }
  assert (D' : is_derive (fun x => sumR (map (fun a => w x a) space)) t 0).
  { apply (is_derive_ext_loc (fun _ => 1)).
    - eapply filter_imp; [|exact H]. intros x Hx. cbv beta in Hx |- *. symmetry. exact Hx.
    - apply (is_derive_const (K := R_AbsRing) (V := R_NormedModule) 1 t). }
  unfold mean_of. apply is_derive_unique in D. apply is_derive_unique in D'. congruence.
Qed.
End Score.

Section P.
Context {V : Type}.
Notation dict := (list (nat * V)).
Variable log_prob : params -> nat -> dict -> V -> list R.
Variable q_log_prob : params -> nat -> (nat -> V) -> V -> list R.
Variable latent : list (nat * nat).
Variable scale : list (nat * R).
Variable reg : params -> list R.
Variable kl : params -> nat -> nat -> (nat -> V) -> list R.
Variable kl_scaling : list (nat * R).
Variable entropy : params -> nat -> (nat -> V) -> list R.

Definition unscaled : Prop := forall zq, In zq latent -> factor scale (fst zq) = 1.

Lemma log_q_unscaled : unscaled -> forall th d, log_q q_log_prob latent scale th d = log_q q_log_prob latent [] th d.
Proof.
  intros U th d. unfold log_q. apply sumR_map_ext. intros zq H. rewrite (U zq H). unfold factor. simpl. auto.
Qed.

Variable space : list (sample V).
Variable base : sample V -> R.
Variable th : params.
Variable v : nat.
Variable n : nat.
Hypothesis Hn : (0 < n)%nat.
Hypothesis Hu : unscaled.
Hypothesis Hp : forall d, In d space -> posed latent d.
Hypothesis Hq : forall d, In d space -> differentiable (fun t => log_q q_log_prob latent [] t d) th v.
Hypothesis Hr : differentiable (penalty reg) th v.
Hypothesis Hone : nearby (fun t => sumR (map (draw_density q_log_prob latent base t) space) = 1) th v.

Let f (d : sample V) (x : R) : R := log_q q_log_prob latent [] (set_param th v x) d.
Let r (x : R) : R := penalty reg (set_param th v x).

Lemma Hnow : sumR (map (draw_density q_log_prob latent base th) space) = 1.
Proof. apply locally_singleton in Hone. rewrite set_same in Hone. auto. Qed.

Lemma average_zero : forall {A} (l : list A), average (map (fun _ => 0) l) = 0.
Proof. intros A l. unfold average. rewrite sumR_const. unfold Rdiv. lra. Qed.

(** The gradient of a score objective with weights [c] and a further term [e]. *)
Lemma score_gradient : forall (obj : params -> R) (c : sample V -> R) (e : R -> R) l,
  (forall d, In d l -> In d space) -> ex_derive e (th v) ->
  (forall x, obj (set_param th v x) = e x - average (map (fun d => f d x * c d) l)) ->
  gradient obj th v = Derive e (th v) + average (map (fun d => - (Derive (f d) (th v) * c d)) l).
Proof.
  intros obj c e l Hl He Ho. unfold gradient. apply is_derive_unique.
  apply (is_derive_ext (fun x => e x - average (map (fun d => f d x * c d) l))); [intros; rewrite Ho; auto|].
  replace (average (map (fun d => - (Derive (f d) (th v) * c d)) l)) with (- average (map (fun d => Derive (f d) (th v) * c d) l)).
  - apply (is_derive_minus (K := R_AbsRing) (V := R_NormedModule) e); [apply derive_of; auto|].
    apply (is_derive_average l (fun d x => f d x * c d)). intros d Hd.
    apply (is_derive_ext (fun x => c d * f d x)); [intros; apply Rmult_comm|]. rewrite Rmult_comm.
    apply is_derive_scal. apply derive_of. apply Hq. auto.
  - unfold average. rewrite !map_length. rewrite (sumR_map_ext l (fun d => - (Derive (f d) (th v) * c d)) (fun d => -1 * (Derive (f d) (th v) * c d))) by (intros; lra).
    rewrite sumR_map_scal. unfold Rdiv. lra.
Qed.

Lemma expected_score : forall (obj : list (sample V) -> params -> R) (c : sample V -> R) (e : R -> R), ex_derive e (th v) ->
  (forall l x, (forall d, In d l -> In d space) -> obj l (set_param th v x) = e x - average (map (fun d => f d x * c d) l)) ->
  expected space (draw_density q_log_prob latent base th) n (fun l => gradient (obj l) th v) =
    Derive e (th v) - mean_of space (draw_density q_log_prob latent base th) (fun d => Derive (f d) (th v) * c d).
Proof.
  intros obj c e He Ho.
  rewrite (expected_ext space _ n _ (fun l => Derive e (th v) + average (map (fun d => - (Derive (f d) (th v) * c d)) l))).
  - rewrite (expected_average space _ Hnow n _ _ Hn). unfold Rminus. f_equal. unfold mean_of.
    rewrite (sumR_map_ext space (fun a => draw_density q_log_prob latent base th a * - (Derive (f a) (th v) * c a))
      (fun a => -1 * (draw_density q_log_prob latent base th a * (Derive (f a) (th v) * c a)))) by (intros; lra). rewrite sumR_map_scal. lra.
  - intros l _ Hl. apply (score_gradient (obj l) c e); auto.
Qed.

Lemma density_f : forall x d, draw_density q_log_prob latent base (set_param th v x) d = base d * exp (f d x).
Proof. auto. Qed.
Lemma density_now : forall d, draw_density q_log_prob latent base th d = base d * exp (f d (th v)).
Proof. intros d. unfold f. rewrite set_same. auto. Qed.

Lemma fixed_map : forall {B} (F : (params -> sample V) -> B) l, map F (fixed_draws l) = map (fun d => F (fun _ => d)) l.
Proof. intros B F l. unfold fixed_draws. rewrite map_map. auto. Qed.

(** The gradient of an expected objective whose integrand is [h - alpha log q]. *)
Lemma true_gradient : forall (h : sample V -> R) (alpha : R) (e : R -> R), ex_derive e (th v) ->
  Derive (fun x => - mean_of space (draw_density q_log_prob latent base (set_param th v x)) (fun d => h d - alpha * f d x) + e x) (th v) =
  Derive e (th v) - mean_of space (draw_density q_log_prob latent base th) (fun d => Derive (f d) (th v) * (h d - alpha * f d (th v))).
Proof.
  intros h alpha e He. apply is_derive_unique.
  pose proof (score_identity space base f (th v) (fun d Hd => Hq d Hd) (fun d x => h d - alpha * f d x) (fun d => - (alpha * Derive (f d) (th v)))) as S.
  assert (S1 : forall d, In d space -> is_derive (fun x => h d - alpha * f d x) (th v) (- (alpha * Derive (f d) (th v)))).
  { intros d Hd. replace (- (alpha * Derive (f d) (th v))) with (minus 0 (alpha * Derive (f d) (th v))) by (unfold minus, plus, opp; simpl; lra).
    apply (is_derive_minus (K := R_AbsRing) (V := R_NormedModule) (fun _ => h d)).
    - apply (is_derive_const (K := R_AbsRing) (V := R_NormedModule)).
    - apply is_derive_scal, derive_of, Hq; auto. }
  specialize (S S1).
  assert (Z : mean_of space (fun a => base a * exp (f a (th v))) (fun d => - (alpha * Derive (f d) (th v))) = 0).
  { pose proof (score_zero space base f (th v) (fun d Hd => Hq d Hd) Hone) as Z. unfold mean_of in *.
    rewrite (sumR_map_ext space _ (fun a => - alpha * (base a * exp (f a (th v)) * Derive (f a) (th v)))) by (intros; lra).
    rewrite sumR_map_scal, Z. lra. }
  cbv beta in S. rewrite Z, Rplus_0_r in S.
  assert (M : mean_of space (draw_density q_log_prob latent base th) (fun d => Derive (f d) (th v) * (h d - alpha * f d (th v))) =
    mean_of space (fun a => base a * exp (f a (th v))) (fun d => Derive (f d) (th v) * (h d - alpha * f d (th v)))).
  { unfold mean_of. apply sumR_map_ext. intros. rewrite density_now. auto. }
  rewrite M.
  replace (Derive e (th v) - mean_of space (fun a => base a * exp (f a (th v))) (fun d => Derive (f d) (th v) * (h d - alpha * f d (th v))))
    with (plus (opp (mean_of space (fun a => base a * exp (f a (th v))) (fun d => Derive (f d) (th v) * (h d - alpha * f d (th v))))) (Derive e (th v)))
    by (unfold plus, opp; simpl; lra).
  apply (is_derive_plus (K := R_AbsRing) (V := R_NormedModule) (fun x => - mean_of space (draw_density q_log_prob latent base (set_param th v x)) (fun d => h d - alpha * f d x)) e);
    [|apply derive_of; auto].
  apply (is_derive_opp (K := R_AbsRing) (V := R_NormedModule) (fun x => mean_of space (draw_density q_log_prob latent base (set_param th v x)) (fun d => h d - alpha * f d x))).
  exact S.
Qed.

Lemma independent_at : forall (F : params -> R) x, independent F th v -> F (set_param th v x) = F th.
Proof. intros F x H. apply H. Qed.

Lemma score_unbiased : (forall d, In d space -> independent (fun t => log_joint log_prob latent scale t d) th v) ->
  expected space (draw_density q_log_prob latent base th) n
    (fun l => gradient (score_objective log_prob q_log_prob latent scale reg (fixed_draws l) th) th v) =
  partial (fun t => - mean_of space (draw_density q_log_prob latent base t)
    (fun d => log_joint log_prob latent scale t d - log_q q_log_prob latent scale t d) + penalty reg t) th v.
Proof.
  intros Hi.
  rewrite (expected_score (fun l => score_objective log_prob q_log_prob latent scale reg (fixed_draws l) th)
    (fun d => log_joint log_prob latent scale th d - 1 * f d (th v)) r Hr).
  - symmetry. unfold partial.
    rewrite <- (true_gradient (fun d => log_joint log_prob latent scale th d) 1 r Hr). apply Derive_ext. intros x. f_equal. f_equal.
    unfold mean_of. apply sumR_map_ext. intros d Hd. rewrite (Hi d Hd x), log_q_unscaled by auto. unfold f. lra.
  - intros l x Hl. unfold score_objective. rewrite fixed_map.
    rewrite (mean_average l _ (fun d => f d x * (log_joint log_prob latent scale th d - 1 * f d (th v)))).
    + unfold r, penalty, reg_penalty. lra.
    + intros d Hd. rewrite !q_total_spec, p_total_spec, !log_q_unscaled by auto. unfold f. rewrite set_same. lra.
Qed.

Lemma score_kl_unbiased : forall own, differentiable (fun t => kl_penalty latent kl kl_scaling own t) th v ->
  (forall d, In d space -> independent (fun t => log_lik log_prob latent scale t d) th v) ->
  expected space (draw_density q_log_prob latent base th) n
    (fun l => gradient (score_kl_objective log_prob q_log_prob latent scale reg kl kl_scaling own (fixed_draws l) th) th v) =
  partial (fun t => - mean_of space (draw_density q_log_prob latent base t) (log_lik log_prob latent scale t) +
    sumR (map (fun zq => factor kl_scaling (fst zq) * sumR (kl t (fst zq) (snd zq) own)) latent) + penalty reg t) th v.
Proof.
  intros own Hk Hi.
  assert (He : ex_derive (fun x => kl_penalty latent kl kl_scaling own (set_param th v x) + r x) (th v)).
  { apply (ex_derive_plus (K := R_AbsRing) (V := R_NormedModule) (fun x => kl_penalty latent kl kl_scaling own (set_param th v x)) r); auto. }
  rewrite (expected_score (fun l => score_kl_objective log_prob q_log_prob latent scale reg kl kl_scaling own (fixed_draws l) th)
    (fun d => log_lik log_prob latent scale th d - 0 * f d (th v)) _ He).
  - symmetry. unfold partial.
    rewrite <- (true_gradient (fun d => log_lik log_prob latent scale th d) 0 _ He). apply Derive_ext. intros x. rewrite kl_spec, Rplus_assoc. f_equal. f_equal.
    unfold mean_of. apply sumR_map_ext. intros d Hd. rewrite (Hi d Hd x). lra.
  - intros l x Hl. unfold score_kl_objective. rewrite fixed_map.
    rewrite (mean_average l _ (fun d => f d x * (log_lik log_prob latent scale th d - 0 * f d (th v)))).
    + unfold r, penalty, reg_penalty. lra.
    + intros d Hd. rewrite !q_total_spec, p_lik_spec, !log_q_unscaled by auto. unfold f. lra.
Qed.

Lemma score_entropy_unbiased : forall own, differentiable (fun t => q_entropy latent entropy own t) th v ->
  (forall d, In d space -> independent (fun t => log_joint log_prob latent scale t d) th v) ->
  expected space (draw_density q_log_prob latent base th) n
    (fun l => gradient (score_entropy_objective log_prob q_log_prob latent scale reg entropy own (fixed_draws l) th) th v) =
  partial (fun t => - mean_of space (draw_density q_log_prob latent base t) (log_joint log_prob latent scale t) -
    sumR (map (fun zq => sumR (entropy t (snd zq) own)) latent) + penalty reg t) th v.
Proof.
  intros own Hk Hi.
  assert (He : ex_derive (fun x => - q_entropy latent entropy own (set_param th v x) + r x) (th v)).
  { apply (ex_derive_plus (K := R_AbsRing) (V := R_NormedModule) (fun x => - q_entropy latent entropy own (set_param th v x)) r); auto.
    apply (ex_derive_opp (K := R_AbsRing) (V := R_NormedModule) (fun x => q_entropy latent entropy own (set_param th v x))). auto. }
  rewrite (expected_score (fun l => score_entropy_objective log_prob q_log_prob latent scale reg entropy own (fixed_draws l) th)
    (fun d => log_joint log_prob latent scale th d - 0 * f d (th v)) _ He).
  - symmetry. unfold partial.
    rewrite <- (true_gradient (fun d => log_joint log_prob latent scale th d) 0 _ He). apply Derive_ext. intros x. unfold q_entropy, Rminus. rewrite Rplus_assoc. f_equal. f_equal.
    unfold mean_of. apply sumR_map_ext. intros d Hd. rewrite (Hi d Hd x). lra.
  - intros l x Hl. unfold score_entropy_objective. rewrite fixed_map.
    rewrite (mean_average l _ (fun d => f d x * (log_joint log_prob latent scale th d - 0 * f d (th v)))).
    + unfold r, penalty, reg_penalty. lra.
    + intros d Hd. rewrite !q_total_spec, p_total_spec, !log_q_unscaled by auto. unfold f. lra.
Qed.
End P.

(** ** Gradients of averages of differentiable terms *)
Lemma pathwise : forall {A} (space : list A) (w : A -> R) n th v (F : A -> params -> R) (r : params -> R),
  (0 < n)%nat -> sumR (map w space) = 1 -> (forall a, In a space -> differentiable (F a) th v) -> differentiable r th v ->
  expected space w n (fun l => gradient (fun t => - average (map (fun a => F a t) l) + r t) th v) =
  partial (fun t => - mean_of space w (fun a => F a t) + r t) th v.
Proof.
  intros A space w n th v F r Hn Hw HF Hr.
  assert (G : forall l, (forall a, In a l -> In a space) -> gradient (fun t => - average (map (fun a => F a t) l) + r t) th v =
    partial r th v + average (map (fun a => - partial (F a) th v) l)).
  { intros l Hl. unfold gradient. apply is_derive_unique.
    replace (partial r th v + average (map (fun a => - partial (F a) th v) l)) with
      (plus (opp (average (map (fun a => partial (F a) th v) l))) (partial r th v)).
    - apply (is_derive_plus (K := R_AbsRing) (V := R_NormedModule) (fun x => - average (map (fun a => F a (set_param th v x)) l)) (fun x => r (set_param th v x)));
        [|apply derive_of; auto].
      apply (is_derive_opp (K := R_AbsRing) (V := R_NormedModule) (fun x => average (map (fun a => F a (set_param th v x)) l))).
      apply (is_derive_average l (fun a x => F a (set_param th v x))). intros a Ha. apply derive_of. apply HF. auto.
    - unfold plus, opp; simpl. unfold average. rewrite !map_length.
      rewrite (sumR_map_ext l (fun a => - partial (F a) th v) (fun a => -1 * partial (F a) th v)) by (intros; lra). rewrite sumR_map_scal. unfold Rdiv. lra. }
  rewrite (expected_ext space w n _ (fun l => partial r th v + average (map (fun a => - partial (F a) th v) l))) by (intros; apply G; auto).
  rewrite expected_average by auto. symmetry. unfold partial at 1. apply is_derive_unique.
  replace (partial r th v + mean_of space w (fun a => - partial (F a) th v)) with
    (plus (opp (mean_of space w (fun a => partial (F a) th v))) (partial r th v)).
  - apply (is_derive_plus (K := R_AbsRing) (V := R_NormedModule) (fun x => - mean_of space w (fun a => F a (set_param th v x))) (fun x => r (set_param th v x)));
      [|apply derive_of; auto].
    apply (is_derive_opp (K := R_AbsRing) (V := R_NormedModule) (fun x => mean_of space w (fun a => F a (set_param th v x)))).
    apply (is_derive_sumR space (fun a x => w a * F a (set_param th v x))). intros a Ha. apply is_derive_scal. apply derive_of. apply HF. auto.
  - unfold plus, opp; simpl. unfold mean_of.
    rewrite (sumR_map_ext space (fun a => w a * - partial (F a) th v) (fun a => -1 * (w a * partial (F a) th v))) by (intros; lra). rewrite sumR_map_scal. lra.
Qed.

Section Q.
Context {V : Type}.
Notation dict := (list (nat * V)).
Variable log_prob : params -> nat -> dict -> V -> list R.
Variable q_log_prob : params -> nat -> (nat -> V) -> V -> list R.
Variable latent : list (nat * nat).
Variable scale : list (nat * R).
Variable reg : params -> list R.

(** Reparameterization: the noise has probabilities that do not depend on the
    variables and the draw is a function of both. *)
Lemma reparam_unbiased : forall {A} (noise : list A) (w : A -> R) (draw : A -> params -> sample V) n th v, (0 < n)%nat ->
  sumR (map w noise) = 1 -> (forall e t, In e noise -> posed latent (draw e t)) ->
  (forall e, In e noise -> differentiable (fun t => log_joint log_prob latent scale t (draw e t) - log_q q_log_prob latent scale t (draw e t)) th v) ->
  differentiable (penalty reg) th v ->
  expected noise w n (fun l => gradient (reparam_loss log_prob q_log_prob latent scale reg (map draw l)) th v) =
  partial (fun t => - mean_of noise w (fun e => log_joint log_prob latent scale t (draw e t) - log_q q_log_prob latent scale t (draw e t)) + penalty reg t) th v.
Proof.
  intros A noise w draw n th v Hn Hw Hp Hd Hr.
  rewrite <- (pathwise noise w n th v (fun e t => log_joint log_prob latent scale t (draw e t) - log_q q_log_prob latent scale t (draw e t)) (penalty reg)) by auto.
  apply expected_ext. intros l _ Hl. unfold gradient. apply Derive_ext. intros x. rewrite reparam_spec, map_map; auto.
  intros d Hd'. apply in_map_iff in Hd'. destruct Hd' as (e & <- & He). auto.
Qed.

(** Model variables of the score function estimator. *)
Lemma model_unbiased : forall (space : list (sample V)) (base : sample V -> R) n th v, (0 < n)%nat ->
  (forall d, In d space -> posed latent d) ->
  (forall d, In d space -> independent (fun t => log_q q_log_prob latent scale t d) th v /\ independent (fun t => log_q q_log_prob latent [] t d) th v) ->
  (forall d, In d space -> differentiable (fun t => log_joint log_prob latent scale t d) th v) ->
  differentiable (penalty reg) th v ->
  sumR (map (draw_density q_log_prob latent base th) space) = 1 ->
  expected space (draw_density q_log_prob latent base th) n (fun l => gradient (score_loss log_prob q_log_prob latent scale reg (fixed_draws l)) th v) =
  partial (fun t => - mean_of space (draw_density q_log_prob latent base t)
    (fun d => log_joint log_prob latent scale t d - log_q q_log_prob latent scale t d) + penalty reg t) th v.
Proof.
  intros space base n th v Hn Hp Hq Hd Hr Hone.
  transitivity (partial (fun t => - mean_of space (draw_density q_log_prob latent base th)
    (fun d => log_joint log_prob latent scale t d - log_q q_log_prob latent scale t d) + penalty reg t) th v).
  - rewrite <- (pathwise space _ n th v (fun d t => log_joint log_prob latent scale t d - log_q q_log_prob latent scale t d) (penalty reg)); auto.
    + apply expected_ext. intros l _ Hl. unfold gradient. apply Derive_ext. intros x. rewrite score_spec.
      * unfold fixed_draws. rewrite map_map. auto.
      * intros d Hd'. apply in_map_iff in Hd'. destruct Hd' as (e & <- & He). auto.
    + intros d Hi. apply (ex_derive_minus (K := R_AbsRing) (V := R_NormedModule) (fun x => log_joint log_prob latent scale (set_param th v x) d)); auto.
      * apply Hd. auto.
      * apply (ex_derive_ext (fun _ => log_q q_log_prob latent scale th d)); [|apply (ex_derive_const (K := R_AbsRing) (V := R_NormedModule))].
        intros x. symmetry. apply (proj1 (Hq d Hi)).
  - unfold partial. apply Derive_ext. intros x. f_equal. f_equal. unfold mean_of. apply sumR_map_ext. intros d Hi. f_equal.
    unfold draw_density. rewrite (proj2 (Hq d Hi) x). auto.
Qed.

(** KLpq: the documented gradient. *)
Lemma pq_gradient : forall l th v, l <> [] -> (forall d, In d l -> posed latent d) ->
  (forall d, In d l -> differentiable (fun t => log_q q_log_prob latent [] t d) th v) -> differentiable (penalty reg) th v ->
  let lw := fun d => log_joint log_prob latent [] th d - log_q q_log_prob latent [] th d in
  gradient (pq_objective log_prob q_log_prob latent reg (fixed_draws l) th) th v =
  - sumR (map (fun d => exp (lw d) / sumR (map (fun e => exp (lw e)) l) * partial (fun t => log_q q_log_prob latent [] t d) th v) l) + partial (penalty reg) th v.
Proof.
  intros l th v Hne Hp Hd Hr lw. unfold gradient. apply is_derive_unique.
  set (c := fun d => exp (lw d) / sumR (map (fun e => exp (lw e)) l)).
  assert (E : pq_log_w log_prob q_log_prob latent (fixed_draws l) th = map lw l).
  { unfold pq_log_w, fixed_draws. rewrite map_map. apply map_ext_in. intros d Hi. rewrite pq_q_spec, pq_p_spec by auto. auto. }
  apply (is_derive_ext (fun x => - sumR (map (fun d => c d * log_q q_log_prob latent [] (set_param th v x) d) l) + penalty reg (set_param th v x))).
  - intros x. unfold pq_objective. rewrite E, w_norm_ratio by (destruct l; [congruence|discriminate]).
    unfold fixed_draws. rewrite !map_map, dot_map. unfold penalty, reg_penalty.
    rewrite Ropp_minus_distr, Rplus_comm. unfold Rminus. f_equal. f_equal. apply sumR_map_ext.
    intros d _. rewrite pq_q_spec. unfold c. lra.
  - apply (is_derive_plus (K := R_AbsRing) (V := R_NormedModule) (fun x => - sumR (map (fun d => c d * log_q q_log_prob latent [] (set_param th v x) d) l)) (fun x => penalty reg (set_param th v x)));
      [|apply derive_of; auto].
    apply (is_derive_opp (K := R_AbsRing) (V := R_NormedModule) (fun x => sumR (map (fun d => c d * log_q q_log_prob latent [] (set_param th v x) d) l))).
    apply (is_derive_sumR l (fun d x => c d * log_q q_log_prob latent [] (set_param th v x) d)). intros d Hi. apply is_derive_scal. apply derive_of. apply Hd. auto.
Qed.
End Q.
