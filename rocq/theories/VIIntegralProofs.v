(** * Expected gradients on any space (proofs for C37). *)
From Coquelicot Require Import Coquelicot.
From Coq Require Import Reals List Arith Bool Lia Lra FunctionalExtensionality.
From Verif Require Import Graph GraphSpec Feed Transform TransformProofs VI VISpec VIProofs VIGradProofs VIIntegralSpec.
Import ListNotations.
Local Open Scope R_scope.

(** ** The four operations *)
Lemma sum_integral : forall {A} (space : list A), integral (fun a => In a space) (by_sum space).
Proof.
  intros A space. unfold by_sum. constructor.
  - intros; congruence.
  - intros f g a H <-. symmetry. apply sumR_map_ext. exact H.
  - intros f g a b <- <-. apply sumR_map_add.
  - intros c f a <-. apply sumR_map_scal.
Qed.
Lemma series_integral : integral (fun _ => True) by_series.
Proof.
  unfold by_series. constructor.
  - intros f a b Ha Hb. apply is_series_unique in Ha. apply is_series_unique in Hb. congruence.
  - intros f g a H Hf. apply (is_series_ext f g); [intros n; apply H; exact I|exact Hf].
  - intros f g a b Hf Hg. exact (is_series_plus f g a b Hf Hg).
  - intros c f a Hf. exact (is_series_scal c f a Hf).
Qed.
Lemma RInt_integral : forall lo hi, lo <= hi -> integral (fun x => lo < x < hi) (by_RInt lo hi).
Proof.
  intros lo hi Hl. unfold by_RInt. constructor.
  - intros f a b Ha Hb. rewrite <- (is_RInt_unique (V := R_CompleteNormedModule) f lo hi a Ha). exact (is_RInt_unique (V := R_CompleteNormedModule) f lo hi b Hb).
  - intros f g a H Hf. apply (is_RInt_ext f g); [|exact Hf]. intros x Hx. rewrite Rmin_left, Rmax_right in Hx by lra. apply H. lra.
  - intros f g a b Hf Hg. exact (is_RInt_plus f g lo hi a b Hf Hg).
  - intros c f a Hf. exact (is_RInt_scal f lo hi c a Hf).
Qed.
Lemma line_integral : integral (fun _ => True) by_line.
Proof.
  unfold by_line. constructor.
  - intros f a b Ha Hb. rewrite <- (is_RInt_gen_unique (V := R_CompleteNormedModule) f a Ha). exact (is_RInt_gen_unique (V := R_CompleteNormedModule) f b Hb).
  - intros f g a H Hf. apply (is_RInt_gen_ext f g); [|exact Hf].
    exists (fun _ => True) (fun _ => True); try (exists 0; tauto). intros x y _ _ z _. apply H. exact I.
  - intros f g a b Hf Hg. exact (is_RInt_gen_plus f g a b Hf Hg).
  - intros c f a Hf. exact (is_RInt_gen_scal f c a Hf).
Qed.

(** ** Expectations *)
Section E.
Context {A : Type}.
Variable D : A -> Prop.
Variable I : (A -> R) -> R -> Prop.
Hypothesis HI : integral D I.
Variable w : A -> R.
Hypothesis total : I w 1.

Lemma expected_by_ext : forall n f g a, (forall l, length l = n -> (forall x, In x l -> D x) -> f l = g l) ->
  expected_by D I w n f a -> expected_by D I w n g a.
Proof.
  induction n as [|n IH]; intros f g a H E; simpl in *.
  - rewrite <- H; auto. intros ? [].
  - destruct E as (h & E1 & E2). exists h. split; [|exact E2]. intros x Hx. apply (IH (fun l => f (x :: l))); [|auto].
    intros l Hl Hi. apply H; [simpl; auto|]. intros y [<-|Hy]; auto.
Qed.

Lemma expected_by_sum : forall n h m, I (fun x => w x * h x) m -> forall c, expected_by D I w n (fun l => c + sumR (map h l)) (c + INR n * m).
Proof.
  induction n as [|n IH]; intros h m Hm c; simpl expected_by; [simpl; lra|].
  exists (fun x => (c + h x) + INR n * m). split.
  - intros x _. apply (expected_by_ext n (fun l => (c + h x) + sumR (map h l))); [intros; simpl; lra|]. apply IH. exact Hm.
  - assert (E : c + INR (S n) * m = (c + INR n * m) * 1 + m) by (rewrite S_INR; ring).
    change (match n with O => 1 | S _ => INR n + 1 end) with (INR (S n)). rewrite E.
    apply (int_ext _ _ HI (fun x => (c + INR n * m) * w x + w x * h x)); [intros; lra|].
    apply (int_add _ _ HI (fun x => (c + INR n * m) * w x) (fun x => w x * h x) ((c + INR n * m) * 1) m); [apply (int_scal _ _ HI); exact total|exact Hm].
Qed.

Lemma expected_by_average : forall n h m c, (0 < n)%nat -> I (fun x => w x * h x) m ->
  expected_by D I w n (fun l => c + average (map h l)) (c + m).
Proof.
  intros n h m c Hn Hm. assert (Hne : INR n <> 0) by (apply not_0_INR; lia).
  apply (expected_by_ext n (fun l => c + sumR (map (fun a => / INR n * h a) l))).
  - intros l Hl _. unfold average. rewrite map_length, Hl, sumR_map_scal. unfold Rdiv. lra.
  - replace (c + m) with (c + INR n * (/ INR n * m)) by (field; auto). apply expected_by_sum.
    apply (int_ext _ _ HI (fun x => / INR n * (w x * h x))); [intros; ring|]. apply (int_scal _ _ HI). exact Hm.
Qed.

Lemma expected_by_unique : forall n f a b, expected_by D I w n f a -> expected_by D I w n f b -> a = b.
Proof.
  induction n as [|n IH]; intros f a b Ea Eb; simpl in *; [congruence|].
  destruct Ea as (h & A1 & A2), Eb as (k & B1 & B2). apply (int_unique _ _ HI (fun x => w x * h x)); [exact A2|].
  apply (int_ext _ _ HI (fun x => w x * k x)); [|exact B2]. intros x Hx. f_equal. symmetry. eapply IH; [apply A1|apply B1]; auto.
Qed.
End E.

(** On a finite space this is the expected value of [VISpec]. *)
Lemma expected_by_finite : forall {A} (space : list A) w n f, expected_by (fun a => In a space) (by_sum space) w n f (expected space w n f).
Proof.
  intros A space w. induction n as [|n IH]; intros f; simpl; [reflexivity|].
  exists (fun x => expected space w n (fun l => f (x :: l))). split; [intros; apply IH|reflexivity].
Qed.

Section P.
Context {V A : Type}.
Notation dict := (list (nat * V)).
Variable log_prob : params -> nat -> dict -> V -> list R.
Variable q_log_prob : params -> nat -> (nat -> V) -> V -> list R.
Variable latent : list (nat * nat).
Variable scale : list (nat * R).
Variable reg : params -> list R.
Variable kl : params -> nat -> nat -> (nat -> V) -> list R.
Variable kl_scaling : list (nat * R).
Variable entropy : params -> nat -> (nat -> V) -> list R.
Variable D : A -> Prop.
Variable I : (A -> R) -> R -> Prop.
Hypothesis HI : integral D I.
Variable draw : A -> sample V.
Variable base : sample V -> R.
Variable th : params.
Variable v : nat.
Variable n : nat.
Let dens (t : params) (x : A) : R := draw_density q_log_prob latent base t (draw x).
Hypothesis Hn : (0 < n)%nat.
Hypothesis Hu : forall zq, In zq latent -> factor scale (fst zq) = 1.
Hypothesis Hp : forall x, D x -> posed latent (draw x).
Hypothesis Hq : forall x, D x -> differentiable (fun t => log_q q_log_prob latent [] t (draw x)) th v.
Hypothesis Hr : differentiable (penalty reg) th v.
Hypothesis Hone : nearby (fun t => I (dens t) 1) th v.
Hypothesis Hswap : interchange I dens th v.

Let f (x : A) (y : R) : R := log_q q_log_prob latent [] (set_param th v y) (draw x).
Let r (y : R) : R := penalty reg (set_param th v y).

Lemma now : I (dens th) 1.
Proof. apply locally_singleton in Hone. rewrite set_same in Hone. exact Hone. Qed.
Lemma dens_now : forall x, dens th x = base (draw x) * exp (f x (th v)).
Proof. intros x. unfold dens, f. rewrite set_same. reflexivity. Qed.

Lemma dens_derive : forall x, D x -> is_derive (fun y => dens (set_param th v y) x) (th v) (dens th x * Derive (f x) (th v)).
Proof.
  intros x Hx. rewrite dens_now. unfold dens, draw_density.
  replace (base (draw x) * exp (f x (th v)) * Derive (f x) (th v)) with (base (draw x) * (Derive (f x) (th v) * exp (f x (th v)))) by ring.
  apply (is_derive_scal (fun y => exp (f x y)) (th v) (base (draw x))).
  apply (is_derive_comp exp (f x) (th v) (exp (f x (th v))) (Derive (f x) (th v))); [apply is_derive_exp|apply derive_of; apply Hq; exact Hx].
Qed.

(** The expected score is zero. *)
Lemma zero_score : I (fun x => dens th x * Derive (f x) (th v)) 0.
Proof.
  destruct Hswap as (L & d & N & DL & ID).
  assert (E : d = 0).
  { apply is_derive_unique in DL. rewrite <- DL. rewrite (Derive_ext_loc _ (fun _ => 1)); [apply Derive_const|].
    eapply filter_imp; [|apply (filter_and _ _ N Hone)]. intros y [A1 A2]. exact (int_unique _ _ HI _ _ _ A1 A2). }
  rewrite E in ID. apply (int_ext _ _ HI (fun x => partial (fun t => dens t x) th v)); [|exact ID].
  intros x Hx. apply is_derive_unique. apply dens_derive. exact Hx.
Qed.

(** The gradient of an integral whose integrand is [h - alpha log q]. *)
Lemma integral_gradient : forall (h : A -> R) alpha (F : params -> A -> R) (L : params -> R),
  (forall y x, D x -> F (set_param th v y) x = dens (set_param th v y) x * (h x - alpha * f x y)) ->
  interchange I F th v -> nearby (fun t => I (F t) (L t)) th v ->
  exists d, is_derive (fun y => L (set_param th v y)) (th v) d /\
    I (fun x => dens th x * (Derive (f x) (th v) * (h x - alpha * f x (th v)))) d.
Proof.
  intros h alpha F L EF (L' & d & N & DL & ID) NL. exists d. split.
  - apply (is_derive_ext_loc (fun y => L' (set_param th v y))); [|exact DL].
    eapply filter_imp; [|apply (filter_and _ _ N NL)]. intros y [A1 A2]. exact (int_unique _ _ HI _ _ _ A1 A2).
  - replace d with (d + alpha * 0) by ring.
    apply (int_ext _ _ HI (fun x => partial (fun t => F t x) th v + alpha * (dens th x * Derive (f x) (th v)))).
    + intros x Hx.
      assert (P : partial (fun t => F t x) th v = dens th x * Derive (f x) (th v) * (h x - alpha * f x (th v)) + dens th x * (- (alpha * Derive (f x) (th v)))).
      { unfold partial. apply is_derive_unique. apply (is_derive_ext (fun y => dens (set_param th v y) x * (h x - alpha * f x y))).
        - intros y. symmetry. apply EF. exact Hx.
        - assert (DH : is_derive (fun y => h x - alpha * f x y) (th v) (- (alpha * Derive (f x) (th v)))).
          { replace (- (alpha * Derive (f x) (th v))) with (minus 0 (alpha * Derive (f x) (th v))) by (unfold minus, plus, opp; simpl; lra).
            apply (is_derive_minus (K := R_AbsRing) (V := R_NormedModule) (fun _ => h x)).
            - apply (is_derive_const (K := R_AbsRing) (V := R_NormedModule)).
            - apply is_derive_scal, derive_of, Hq; auto. }
          pose proof (is_derive_mult (fun y => dens (set_param th v y) x) (fun y => h x - alpha * f x y) (th v) _ _ (dens_derive x Hx) DH ltac:(intros; apply Rmult_comm)) as M.
          cbv beta in M. rewrite set_same in M. exact M. }
      rewrite P. ring.
    + apply (int_add _ _ HI); [exact ID|]. apply (int_scal _ _ HI). exact zero_score.
Qed.

Lemma score_gradient_by : forall (obj : params -> R) (c : A -> R) (e : R -> R) l,
  (forall x, In x l -> D x) -> ex_derive e (th v) ->
  (forall y, obj (set_param th v y) = e y - average (map (fun x => f x y * c x) l)) ->
  gradient obj th v = Derive e (th v) + average (map (fun x => - (Derive (f x) (th v) * c x)) l).
Proof.
  intros obj c e l Hl He Ho. unfold gradient. apply is_derive_unique.
  apply (is_derive_ext (fun y => e y - average (map (fun x => f x y * c x) l))); [intros; rewrite Ho; auto|].
  replace (average (map (fun x => - (Derive (f x) (th v) * c x)) l)) with (- average (map (fun x => Derive (f x) (th v) * c x) l)).
  - apply (is_derive_minus (K := R_AbsRing) (V := R_NormedModule) e); [apply derive_of; auto|].
    apply (is_derive_average l (fun x y => f x y * c x)). intros x Hx.
    apply (is_derive_ext (fun y => c x * f x y)); [intros; apply Rmult_comm|]. rewrite Rmult_comm.
    apply is_derive_scal. apply derive_of. apply Hq. auto.
  - unfold average. rewrite !map_length. rewrite (sumR_map_ext l (fun x => - (Derive (f x) (th v) * c x)) (fun x => -1 * (Derive (f x) (th v) * c x))) by (intros; lra).
    rewrite sumR_map_scal. unfold Rdiv. lra.
Qed.

Lemma expected_by_score : forall (obj : list A -> params -> R) (h : A -> R) alpha (e : R -> R) (F : params -> A -> R) (L : params -> R),
  ex_derive e (th v) ->
  (forall l y, (forall x, In x l -> D x) -> obj l (set_param th v y) = e y - average (map (fun x => f x y * (h x - alpha * f x (th v))) l)) ->
  (forall y x, D x -> F (set_param th v y) x = dens (set_param th v y) x * (h x - alpha * f x y)) ->
  interchange I F th v -> nearby (fun t => I (F t) (L t)) th v ->
  ex_derive (fun y => L (set_param th v y)) (th v) /\
  expected_by D I (dens th) n (fun l => gradient (obj l) th v) (Derive (fun y => - L (set_param th v y) + e y) (th v)).
Proof.
  intros obj h alpha e F L He Ho EF S NL. destruct (integral_gradient h alpha F L EF S NL) as (d & DL & ID). split; [exists d; exact DL|].
  apply (expected_by_ext D I (dens th) n (fun l => Derive e (th v) + average (map (fun x => - (Derive (f x) (th v) * (h x - alpha * f x (th v)))) l))).
  - intros l _ Hl. symmetry. apply (score_gradient_by (obj l) (fun x => h x - alpha * f x (th v)) e); auto.
  - replace (Derive (fun y => - L (set_param th v y) + e y) (th v)) with (Derive e (th v) + (-1 * d)).
    + apply (expected_by_average D I HI (dens th) now n); [exact Hn|].
      apply (int_ext _ _ HI (fun x => -1 * (dens th x * (Derive (f x) (th v) * (h x - alpha * f x (th v)))))); [intros; ring|].
      apply (int_scal _ _ HI). exact ID.
    + symmetry. apply is_derive_unique. replace (Derive e (th v) + -1 * d) with (plus (opp d) (Derive e (th v))) by (unfold plus, opp; simpl; ring).
      apply (is_derive_plus (K := R_AbsRing) (V := R_NormedModule) (fun y => - L (set_param th v y)) e); [|apply derive_of; exact He].
      apply (is_derive_opp (K := R_AbsRing) (V := R_NormedModule) (fun y => L (set_param th v y))). exact DL.
Qed.

Lemma fixed_draws_map : forall {B} (F : (params -> sample V) -> B) l, map F (fixed_draws (map draw l)) = map (fun x => F (fun _ => draw x)) l.
Proof. intros B F l. unfold fixed_draws. rewrite !map_map. auto. Qed.

Lemma log_q_unit : forall t d, log_q q_log_prob latent scale t d = log_q q_log_prob latent [] t d.
Proof. intros t d. apply log_q_unscaled. exact Hu. Qed.

Lemma score_unbiased_by : forall L,
  (forall x, D x -> independent (fun t => log_joint log_prob latent scale t (draw x)) th v) ->
  let F := fun t x => dens t x * (log_joint log_prob latent scale t (draw x) - log_q q_log_prob latent scale t (draw x)) in
  interchange I F th v -> nearby (fun t => I (F t) (L t)) th v ->
  differentiable L th v /\
  expected_by D I (dens th) n (fun l => gradient (score_objective log_prob q_log_prob latent scale reg (fixed_draws (map draw l)) th) th v)
    (partial (fun t => - L t + penalty reg t) th v).
Proof.
  intros L Hi F S NL.
  apply (expected_by_score (fun l => score_objective log_prob q_log_prob latent scale reg (fixed_draws (map draw l)) th)
    (fun x => log_joint log_prob latent scale th (draw x)) 1 r F L Hr); [| |exact S|exact NL].
  - intros l y Hl. unfold score_objective. rewrite fixed_draws_map.
    rewrite (mean_average l _ (fun x => f x y * (log_joint log_prob latent scale th (draw x) - 1 * f x (th v)))).
    + unfold r, penalty, reg_penalty. lra.
    + intros x Hx. rewrite !q_total_spec, p_total_spec, !log_q_unit by auto. unfold f. rewrite set_same. lra.
  - intros y x Hx. unfold F. rewrite (Hi x Hx y), log_q_unit. unfold f. lra.
Qed.

Lemma score_kl_unbiased_by : forall own L, differentiable (fun t => kl_penalty latent kl kl_scaling own t) th v ->
  (forall x, D x -> independent (fun t => log_lik log_prob latent scale t (draw x)) th v) ->
  let F := fun t x => dens t x * log_lik log_prob latent scale t (draw x) in
  interchange I F th v -> nearby (fun t => I (F t) (L t)) th v ->
  differentiable L th v /\
  expected_by D I (dens th) n
    (fun l => gradient (score_kl_objective log_prob q_log_prob latent scale reg kl kl_scaling own (fixed_draws (map draw l)) th) th v)
    (partial (fun t => - L t + sumR (map (fun zq => factor kl_scaling (fst zq) * sumR (kl t (fst zq) (snd zq) own)) latent) + penalty reg t) th v).
Proof.
  intros own L Hk Hi F S NL.
  assert (He : ex_derive (fun y => kl_penalty latent kl kl_scaling own (set_param th v y) + r y) (th v)).
  { apply (ex_derive_plus (K := R_AbsRing) (V := R_NormedModule) (fun y => kl_penalty latent kl kl_scaling own (set_param th v y)) r); auto. }
  destruct (expected_by_score (fun l => score_kl_objective log_prob q_log_prob latent scale reg kl kl_scaling own (fixed_draws (map draw l)) th)
    (fun x => log_lik log_prob latent scale th (draw x)) 0 _ F L He) as [A1 A2]; [| |exact S|exact NL|].
  - intros l y Hl. unfold score_kl_objective. rewrite fixed_draws_map.
    rewrite (mean_average l _ (fun x => f x y * (log_lik log_prob latent scale th (draw x) - 0 * f x (th v)))).
    + unfold r, penalty, reg_penalty. lra.
    + intros x Hx. rewrite !q_total_spec, p_lik_spec, !log_q_unit by auto. unfold f. lra.
  - intros y x Hx. unfold F. rewrite (Hi x Hx y). lra.
  - split; [exact A1|]. unfold partial.
    rewrite (Derive_ext _ (fun y => - L (set_param th v y) + (kl_penalty latent kl kl_scaling own (set_param th v y) + r y))); [exact A2|].
    intros y. rewrite kl_spec, Rplus_assoc. reflexivity.
Qed.

Lemma score_entropy_unbiased_by : forall own L, differentiable (fun t => q_entropy latent entropy own t) th v ->
  (forall x, D x -> independent (fun t => log_joint log_prob latent scale t (draw x)) th v) ->
  let F := fun t x => dens t x * log_joint log_prob latent scale t (draw x) in
  interchange I F th v -> nearby (fun t => I (F t) (L t)) th v ->
  differentiable L th v /\
  expected_by D I (dens th) n
    (fun l => gradient (score_entropy_objective log_prob q_log_prob latent scale reg entropy own (fixed_draws (map draw l)) th) th v)
    (partial (fun t => - L t - sumR (map (fun zq => sumR (entropy t (snd zq) own)) latent) + penalty reg t) th v).
Proof.
  intros own L Hk Hi F S NL.
  assert (He : ex_derive (fun y => - q_entropy latent entropy own (set_param th v y) + r y) (th v)).
  { apply (ex_derive_plus (K := R_AbsRing) (V := R_NormedModule) (fun y => - q_entropy latent entropy own (set_param th v y)) r); auto.
    apply (ex_derive_opp (K := R_AbsRing) (V := R_NormedModule) (fun y => q_entropy latent entropy own (set_param th v y))). auto. }
  destruct (expected_by_score (fun l => score_entropy_objective log_prob q_log_prob latent scale reg entropy own (fixed_draws (map draw l)) th)
    (fun x => log_joint log_prob latent scale th (draw x)) 0 _ F L He) as [A1 A2]; [| |exact S|exact NL|].
  - intros l y Hl. unfold score_entropy_objective. rewrite fixed_draws_map.
    rewrite (mean_average l _ (fun x => f x y * (log_joint log_prob latent scale th (draw x) - 0 * f x (th v)))).
    + unfold r, penalty, reg_penalty. lra.
    + intros x Hx. rewrite !q_total_spec, p_total_spec, !log_q_unit by auto. unfold f. lra.
  - intros y x Hx. unfold F. rewrite (Hi x Hx y). lra.
  - split; [exact A1|]. unfold partial.
    rewrite (Derive_ext _ (fun y => - L (set_param th v y) + (- q_entropy latent entropy own (set_param th v y) + r y))); [exact A2|].
    intros y. unfold q_entropy, Rminus. rewrite Rplus_assoc. reflexivity.
Qed.
End P.

(** ** When the interchange holds *)

(** Finite sums of differentiable terms. *)
Lemma interchange_sum : forall {A} (space : list A) (F : params -> A -> R) th v,
  (forall a, In a space -> differentiable (fun t => F t a) th v) -> interchange (by_sum space) F th v.
Proof.
  intros A space F th v H. exists (fun t => sumR (map (F t) space)), (sumR (map (fun a => partial (fun t => F t a) th v) space)).
  split; [|split].
  - unfold nearby. apply filter_forall. intros y. reflexivity.
  - apply (is_derive_sumR space (fun a y => F (set_param th v y) a)). intros a Ha. apply derive_of. apply H. exact Ha.
  - reflexivity.
Qed.

(** Integrals over an interval of functions with a jointly continuous derivative. *)
Lemma interchange_RInt : forall lo hi (F : params -> R -> R) th v, lo <= hi ->
  nearby (fun t => ex_RInt (F t) lo hi) th v ->
  locally (th v) (fun y => forall x, lo <= x <= hi -> ex_derive (fun u => F (set_param th v u) x) y) ->
  (forall x, lo <= x <= hi -> continuity_2d_pt (fun u z => Derive (fun y => F (set_param th v y) z) u) (th v) x) ->
  interchange (by_RInt lo hi) F th v.
Proof.
  intros lo hi F th v Hl H1 H2 H3. exists (fun t => RInt (F t) lo hi), (RInt (fun x => Derive (fun y => F (set_param th v y) x) (th v)) lo hi).
  split; [|split].
  - unfold nearby in *. eapply filter_imp; [|exact H1]. intros y Hy. apply (RInt_correct (F (set_param th v y))). exact Hy.
  - apply (is_derive_RInt_param (fun y x => F (set_param th v y) x)).
    + eapply filter_imp; [|exact H2]. intros y Hy x Hx. rewrite Rmin_left, Rmax_right in Hx by lra. auto.
    + intros x Hx. rewrite Rmin_left, Rmax_right in Hx by lra. auto.
    + exact H1.
  - unfold by_RInt, partial. apply (RInt_correct (fun x => Derive (fun y => F (set_param th v y) x) (th v))).
    apply (ex_RInt_continuous (V := R_CompleteNormedModule)). intros x Hx. rewrite Rmin_left, Rmax_right in Hx by lra.
    specialize (H3 x Hx). apply continuity_2d_pt_filterlim in H3.
    unfold continuous. apply (filterlim_comp _ _ _ (fun z => (th v, z)) (fun p : R * R => Derive (fun y => F (set_param th v y) (snd p)) (fst p))
      (locally x) (locally (th v, x)) (locally (Derive (fun y => F (set_param th v y) x) (th v)))); [|exact H3].
    intros P [e He]. exists e. intros z Hz. apply He. split; [apply ball_center|exact Hz].
Qed.

(** ** Gradients of averages of differentiable terms *)
Lemma pathwise_by : forall {A} (D : A -> Prop) (I : (A -> R) -> R -> Prop) (w : A -> R) n th v (F : A -> params -> R) (r L : params -> R),
  integral D I -> (0 < n)%nat -> I w 1 -> (forall a, D a -> differentiable (F a) th v) -> differentiable r th v ->
  interchange I (fun t a => w a * F a t) th v -> nearby (fun t => I (fun a => w a * F a t) (L t)) th v ->
  differentiable L th v /\
  expected_by D I w n (fun l => gradient (fun t => - average (map (fun a => F a t) l) + r t) th v) (partial (fun t => - L t + r t) th v).
Proof.
  intros A D I w n th v F r L HI Hn Hw HF Hr (L' & d & N & DL & ID) NL.
  assert (DL' : is_derive (fun y => L (set_param th v y)) (th v) d).
  { apply (is_derive_ext_loc (fun y => L' (set_param th v y))); [|exact DL].
    eapply filter_imp; [|apply (filter_and _ _ N NL)]. intros y [A1 A2]. exact (int_unique _ _ HI _ _ _ A1 A2). }
  split; [exists d; exact DL'|].
  assert (G : forall l, (forall a, In a l -> D a) -> gradient (fun t => - average (map (fun a => F a t) l) + r t) th v =
    partial r th v + average (map (fun a => - partial (F a) th v) l)).
  { intros l Hl. unfold gradient. apply is_derive_unique.
    replace (partial r th v + average (map (fun a => - partial (F a) th v) l)) with
      (plus (opp (average (map (fun a => partial (F a) th v) l))) (partial r th v)).
    - apply (is_derive_plus (K := R_AbsRing) (V := R_NormedModule) (fun x => - average (map (fun a => F a (set_param th v x)) l)) (fun x => r (set_param th v x)));
        [|apply derive_of; auto].
      apply (is_derive_opp (K := R_AbsRing) (V := R_NormedModule) (fun x => average (map (fun a => F a (set_param th v x)) l))).
      apply (is_derive_average l (fun a x => F a (set_param th v x))). intros a Ha. apply derive_of. apply HF. auto.
    - unfold plus, opp; simpl. unfold average. rewrite !map_length.
      rewrite (sumR_map_ext l (fun a => - partial (F a) th v) (fun a => -1 * partial (F a) th v)) by (intros; lra). rewrite sumR_map_scal. unfold Rdiv. lra. }
  apply (expected_by_ext D I w n (fun l => partial r th v + average (map (fun a => - partial (F a) th v) l))); [intros; symmetry; apply G; auto|].
  replace (partial (fun t => - L t + r t) th v) with (partial r th v + -1 * d).
  - apply (expected_by_average D I HI w Hw n); [exact Hn|].
    apply (int_ext _ _ HI (fun x => -1 * partial (fun t => w x * F x t) th v)); [|apply (int_scal _ _ HI); exact ID].
    intros x Hx. unfold partial at 1. rewrite Derive_scal. unfold partial. ring.
  - symmetry. unfold partial at 1. apply is_derive_unique. replace (partial r th v + -1 * d) with (plus (opp d) (partial r th v)) by (unfold plus, opp; simpl; ring).
    apply (is_derive_plus (K := R_AbsRing) (V := R_NormedModule) (fun y => - L (set_param th v y)) (fun y => r (set_param th v y))); [|apply derive_of; exact Hr].
    apply (is_derive_opp (K := R_AbsRing) (V := R_NormedModule) (fun y => L (set_param th v y))). exact DL'.
Qed.

Lemma gradient_ext : forall f g th v, (forall x, f (set_param th v x) = g (set_param th v x)) -> gradient f th v = gradient g th v.
Proof. intros f g th v H. unfold gradient. apply Derive_ext. exact H. Qed.

Section R.
Context {V A : Type}.
Notation dict := (list (nat * V)).
Variable log_prob : params -> nat -> dict -> V -> list R.
Variable q_log_prob : params -> nat -> (nat -> V) -> V -> list R.
Variable latent : list (nat * nat).
Variable scale : list (nat * R).
Variable reg : params -> list R.
Variable D : A -> Prop.
Variable I : (A -> R) -> R -> Prop.
Hypothesis HI : integral D I.

Lemma reparam_unbiased_by : forall (w : A -> R) (draw : A -> params -> sample V) n th v L, (0 < n)%nat -> I w 1 ->
  (forall e t, D e -> posed latent (draw e t)) ->
  (forall e, D e -> differentiable (fun t => log_joint log_prob latent scale t (draw e t) - log_q q_log_prob latent scale t (draw e t)) th v) ->
  differentiable (penalty reg) th v ->
  let F := fun t e => w e * (log_joint log_prob latent scale t (draw e t) - log_q q_log_prob latent scale t (draw e t)) in
  interchange I F th v -> nearby (fun t => I (F t) (L t)) th v ->
  differentiable L th v /\
  expected_by D I w n (fun l => gradient (reparam_loss log_prob q_log_prob latent scale reg (map draw l)) th v)
    (partial (fun t => - L t + penalty reg t) th v).
Proof.
  intros w draw n th v L Hn Hw Hp Hd Hr F S NL.
  destruct (pathwise_by D I w n th v (fun e t => log_joint log_prob latent scale t (draw e t) - log_q q_log_prob latent scale t (draw e t)) (penalty reg) L HI Hn Hw Hd Hr S NL) as [A1 A2].
  split; [exact A1|]. eapply (expected_by_ext D I w n); [|exact A2]. intros l Hlen Hl. apply gradient_ext. intros x.
  assert (Hne : l <> []) by (intros ->; simpl in Hlen; lia).
  rewrite (@reparam_spec V log_prob q_log_prob latent scale reg).
  - rewrite map_map. reflexivity.
  - intros d Hi. apply in_map_iff in Hi. destruct Hi as (e & <- & He). apply Hp. auto.
Qed.

Lemma model_unbiased_by : forall (draw : A -> sample V) (base : sample V -> R) n th v L, (0 < n)%nat ->
  (forall x, D x -> posed latent (draw x)) ->
  (forall x, D x -> independent (fun t => log_q q_log_prob latent scale t (draw x)) th v /\ independent (fun t => log_q q_log_prob latent [] t (draw x)) th v) ->
  (forall x, D x -> differentiable (fun t => log_joint log_prob latent scale t (draw x)) th v) ->
  differentiable (penalty reg) th v ->
  let dens := fun t x => draw_density q_log_prob latent base t (draw x) in
  I (dens th) 1 ->
  let F := fun t x => dens t x * (log_joint log_prob latent scale t (draw x) - log_q q_log_prob latent scale t (draw x)) in
  interchange I F th v -> nearby (fun t => I (F t) (L t)) th v ->
  differentiable L th v /\
  expected_by D I (dens th) n (fun l => gradient (score_loss log_prob q_log_prob latent scale reg (fixed_draws (map draw l))) th v)
    (partial (fun t => - L t + penalty reg t) th v).
Proof.
  intros draw base n th v L Hn Hp Hi Hd Hr dens Hw F (L' & d & N & DL & ID) NL.
  assert (E : forall t' x, D x -> dens (set_param th v t') x = dens th x).
  { intros y x Hx. unfold dens, draw_density. f_equal. f_equal. exact (proj2 (Hi x Hx) y). }
  set (G := fun (x : A) (t : params) => log_joint log_prob latent scale t (draw x) - log_q q_log_prob latent scale t (draw x)).
  assert (EF : forall y x, D x -> dens th x * G x (set_param th v y) = F (set_param th v y) x) by (intros y x Hx; unfold F, G; rewrite E by exact Hx; reflexivity).
  destruct (pathwise_by D I (dens th) n th v G (penalty reg) L HI Hn Hw) as [A1 A2].
  - intros x Hx. unfold G, differentiable.
    apply (ex_derive_ext (fun y => log_joint log_prob latent scale (set_param th v y) (draw x) - log_q q_log_prob latent scale th (draw x))).
    + intros y. f_equal. symmetry. exact (proj1 (Hi x Hx) y).
    + apply (ex_derive_minus (K := R_AbsRing) (V := R_NormedModule)); [apply Hd; exact Hx|apply ex_derive_const].
  - exact Hr.
  - exists L', d. split; [|split; [exact DL|]].
    + unfold nearby in *. eapply filter_imp; [|exact N]. intros y Hy. apply (int_ext _ _ HI (F (set_param th v y))); [|exact Hy]. intros x Hx. symmetry. apply EF. exact Hx.
    + apply (int_ext _ _ HI (fun x => partial (fun t => F t x) th v)); [|exact ID]. intros x Hx. unfold partial. apply Derive_ext. intros y. symmetry. apply EF. exact Hx.
  - unfold nearby in *. eapply filter_imp; [|exact NL]. intros y Hy. apply (int_ext _ _ HI (F (set_param th v y))); [|exact Hy]. intros x Hx. symmetry. apply EF. exact Hx.
  - split; [exact A1|]. eapply (expected_by_ext D I (dens th) n); [|exact A2]. intros l Hlen Hl. apply gradient_ext. intros y.
    rewrite (@score_spec V log_prob q_log_prob latent scale reg).
    + unfold fixed_draws. rewrite !map_map. reflexivity.
    + intros f Hf. unfold fixed_draws in Hf. rewrite map_map in Hf. apply in_map_iff in Hf. destruct Hf as (x & <- & Hx). apply Hp. auto.
Qed.
End R.

(** ** An approximation with uncountably many values: density
    1 + theta (2 z - 1) on the unit interval, log p = z *)
Definition slope_q (th : params) (q : nat) (e : nat -> R) (u : R) : list R := [ln (1 + th 0%nat * (2 * u - 1))].
Definition slope_p (th : params) (k : nat) (d : list (nat * R)) (u : R) : list R := [u].
Definition slope_draw (z : R) : sample R := mksample (fun _ => z) [] (fun _ => 0).
Definition slope_base (d : sample R) : R := 1.

Lemma slope_log_q : forall scale t z, factor scale 0 = 1 ->
  log_q slope_q [(0%nat, 1%nat)] scale t (slope_draw z) = ln (1 + t 0%nat * (2 * z - 1)).
Proof. intros scale t z E. unfold log_q, slope_q. simpl. rewrite E. ring. Qed.
Lemma slope_joint : forall scale t z, factor scale 0 = 1 -> log_joint slope_p [(0%nat, 1%nat)] scale t (slope_draw z) = z.
Proof. intros scale t z E. unfold log_joint, scaled_sum, latent_values, bindings, slope_p. simpl. rewrite E. ring. Qed.
Lemma slope_pos : forall y z, Rabs y < 1 / 4 -> -1 < z < 2 -> 0 < 1 + y * (2 * z - 1).
Proof.
  intros y z Hy Hz. assert (A : Rabs (y * (2 * z - 1)) < 1).
  { rewrite Rabs_mult. assert (Rabs (2 * z - 1) <= 3) by (apply Rabs_le; lra).
    apply Rle_lt_trans with (Rabs y * 3); [apply Rmult_le_compat_l; [apply Rabs_pos|assumption]|]. pose proof (Rabs_pos y). lra. }
  apply Rabs_def2 in A. lra.
Qed.
Lemma slope_dens : forall t z, Rabs (t 0%nat) < 1 / 4 -> -1 < z < 2 ->
  draw_density slope_q [(0%nat, 1%nat)] slope_base t (slope_draw z) = 1 + t 0%nat * (2 * z - 1).
Proof.
  intros t z Ht Hz. unfold draw_density, slope_base. rewrite slope_log_q by reflexivity. rewrite exp_ln by (apply slope_pos; assumption). ring.
Qed.
Lemma set_zero : forall y, set_param (fun _ => 0) 0 y 0%nat = y.
Proof. reflexivity. Qed.

Lemma near_quarter : forall P : R -> Prop, (forall y, Rabs y < 1 / 4 -> P y) -> locally 0 P.
Proof.
  intros P H. assert (q : 0 < 1 / 4) by lra. exists (mkposreal _ q). intros y Hy. apply H.
  unfold ball in Hy. simpl in Hy. unfold AbsRing_ball, abs, minus, plus, opp in Hy. simpl in Hy. rewrite Ropp_0, Rplus_0_r in Hy. exact Hy.
Qed.
Lemma near_box : forall (P : R -> R -> Prop) x, 0 <= x <= 1 -> (forall y z, Rabs y < 1 / 4 -> -1 < z < 2 -> P y z) -> locally_2d P 0 x.
Proof.
  intros P x Hx H. assert (q : 0 < 1 / 4) by lra. exists (mkposreal _ q). intros y z Hy Hz. simpl in *. rewrite Rminus_0_r in Hy. apply H; [exact Hy|].
  apply Rabs_def2 in Hz. lra.
Qed.
Lemma triangle : forall u y : R, Rabs u <= Rabs (u + - y) + Rabs y.
Proof. intros u y. eapply Rle_trans; [|apply Rabs_triang]. right. f_equal. ring. Qed.
Lemma near_point : forall y, Rabs y < 1 / 4 -> locally y (fun u => Rabs u < 1 / 4).
Proof.
  intros y Hy. assert (q : 0 < 1 / 4 - Rabs y) by lra. exists (mkposreal _ q). intros u Hu.
  unfold ball in Hu. simpl in Hu. unfold AbsRing_ball, abs, minus, plus, opp in Hu. simpl in Hu.
  pose proof (triangle u y). lra.
Qed.

Section Slope.
Notation dens := (fun t z => draw_density slope_q [(0%nat, 1%nat)] slope_base t (slope_draw z)).
Notation th0 := (fun _ : nat => 0).
Notation integrand := (fun t z => draw_density slope_q [(0%nat, 1%nat)] slope_base t (slope_draw z) *
  (log_joint slope_p [(0%nat, 1%nat)] [] t (slope_draw z) - log_q slope_q [(0%nat, 1%nat)] [] t (slope_draw z))).

Lemma slope_integrand : forall y z, Rabs y < 1 / 4 -> -1 < z < 2 ->
  integrand (set_param th0 0 y) z = (1 + y * (2 * z - 1)) * (z - ln (1 + y * (2 * z - 1))).
Proof. intros y z Hy Hz. cbv beta. rewrite slope_dens, slope_joint, slope_log_q; auto. Qed.

Lemma slope_total : nearby (fun t => by_RInt 0 1 (dens t) 1) th0 0.
Proof.
  apply near_quarter. intros y Hy. unfold by_RInt.
  apply (is_RInt_ext (fun z => 1 + y * (2 * z - 1))).
  - intros z Hz. rewrite Rmin_left, Rmax_right in Hz by lra. cbv beta. rewrite slope_dens; [rewrite set_zero; reflexivity|rewrite set_zero; exact Hy|lra].
  - replace 1 with (minus (1 + y * (1 * 1 - 1)) (0 + y * (0 * 0 - 0))) at 2 by (unfold minus, plus, opp; simpl; ring).
    apply (is_RInt_derive (fun z => z + y * (z * z - z)) (fun z => 1 + y * (2 * z - 1))).
    + intros z _. auto_derive; [exact I|]. ring.
    + intros z _. apply (ex_derive_continuous (K := R_AbsRing) (V := R_NormedModule)). auto_derive. exact I.
Qed.

Lemma dens_Derive : forall y z, Rabs y < 1 / 4 -> -1 < z < 2 -> is_derive (fun u => dens (set_param th0 0 u) z) y (2 * z - 1).
Proof.
  intros y z Hy Hz. apply (is_derive_ext_loc (fun u => 1 + u * (2 * z - 1))).
  - eapply filter_imp; [|apply (near_point y Hy)]. intros u Hu. cbv beta. rewrite slope_dens; [rewrite set_zero; reflexivity|rewrite set_zero; exact Hu|exact Hz].
  - auto_derive; [exact I|]. ring.
Qed.
Lemma integrand_Derive : forall y z, Rabs y < 1 / 4 -> -1 < z < 2 ->
  is_derive (fun u => integrand (set_param th0 0 u) z) y ((2 * z - 1) * (z - ln (1 + y * (2 * z - 1))) - (2 * z - 1)).
Proof.
  intros y z Hy Hz. apply (is_derive_ext_loc (fun u => (1 + u * (2 * z - 1)) * (z - ln (1 + u * (2 * z - 1))))).
  - eapply filter_imp; [|apply (near_point y Hy)]. intros u Hu. symmetry. apply slope_integrand; assumption.
  - pose proof (slope_pos y z Hy Hz) as P. auto_derive; [exact P|]. field. lra.
Qed.

Lemma slope_swap_dens : interchange (by_RInt 0 1) dens th0 0.
Proof.
  apply interchange_RInt; [lra| | |].
  - pose proof slope_total as T. unfold nearby in *. eapply filter_imp; [|exact T]. intros y Hy. exists 1. exact Hy.
  - apply near_quarter. intros y Hy z Hz. exists (2 * z - 1). apply dens_Derive; [exact Hy|lra].
  - intros x Hx. apply (continuity_2d_pt_ext_loc (fun u z => 2 * z - 1)).
    + apply near_box; [exact Hx|]. intros y z Hy Hz. symmetry. apply is_derive_unique. apply dens_Derive; assumption.
    + apply continuity_2d_pt_minus; [|apply continuity_2d_pt_const]. apply continuity_2d_pt_mult; [apply continuity_2d_pt_const|apply continuity_2d_pt_id2].
Qed.

Lemma slope_ex : forall y, Rabs y < 1 / 4 -> ex_RInt (integrand (set_param th0 0 y)) 0 1.
Proof.
  intros y Hy. apply (ex_RInt_ext (fun z => (1 + y * (2 * z - 1)) * (z - ln (1 + y * (2 * z - 1))))).
  - intros z Hz. rewrite Rmin_left, Rmax_right in Hz by lra. symmetry. apply slope_integrand; [exact Hy|lra].
  - apply (ex_RInt_continuous (V := R_CompleteNormedModule)). intros z Hz. rewrite Rmin_left, Rmax_right in Hz by lra.
    apply (ex_derive_continuous (K := R_AbsRing) (V := R_NormedModule)). auto_derive. apply slope_pos; [exact Hy|lra].
Qed.

Lemma slope_swap_integrand : interchange (by_RInt 0 1) integrand th0 0.
Proof.
  apply interchange_RInt; [lra| | |].
  - apply near_quarter. intros y Hy. apply slope_ex. exact Hy.
  - apply near_quarter. intros y Hy z Hz. eexists. apply integrand_Derive; [exact Hy|lra].
  - intros x Hx. apply (continuity_2d_pt_ext_loc (fun u z => (2 * z - 1) * (z - ln (1 + u * (2 * z - 1))) - (2 * z - 1))).
    + apply near_box; [exact Hx|]. intros y z Hy Hz. symmetry. apply is_derive_unique. apply integrand_Derive; assumption.
    + assert (C1 : continuity_2d_pt (fun _ z => 2 * z - 1) 0 x).
      { apply continuity_2d_pt_minus; [|apply continuity_2d_pt_const]. apply continuity_2d_pt_mult; [apply continuity_2d_pt_const|apply continuity_2d_pt_id2]. }
      assert (C2 : continuity_2d_pt (fun u z => 1 + u * (2 * z - 1)) 0 x).
      { apply continuity_2d_pt_plus; [apply continuity_2d_pt_const|]. apply continuity_2d_pt_mult; [apply continuity_2d_pt_id1|exact C1]. }
      apply continuity_2d_pt_minus; [|exact C1]. apply continuity_2d_pt_mult; [exact C1|].
      apply continuity_2d_pt_minus; [apply continuity_2d_pt_id2|].
      apply (continuity_1d_2d_pt_comp ln (fun u z => 1 + u * (2 * z - 1)) 0 x); [|exact C2].
      apply derivable_continuous_pt. exists (/ (1 + 0 * (2 * x - 1))). apply derivable_pt_lim_ln. lra.
Qed.

Lemma slope_hypotheses :
  integral (fun z => 0 < z < 1) (by_RInt 0 1) /\
  (forall z, 0 < z < 1 -> posed [(0%nat, 1%nat)] (slope_draw z)) /\
  (forall z, 0 < z < 1 -> differentiable (fun t => log_q slope_q [(0%nat, 1%nat)] [] t (slope_draw z)) th0 0) /\
  nearby (fun t => by_RInt 0 1 (dens t) 1) th0 0 /\ interchange (by_RInt 0 1) dens th0 0 /\
  (forall z, 0 < z < 1 -> independent (fun t => log_joint slope_p [(0%nat, 1%nat)] [] t (slope_draw z)) th0 0) /\
  interchange (by_RInt 0 1) integrand th0 0 /\
  nearby (fun t => by_RInt 0 1 (integrand t) (RInt (integrand t) 0 1)) th0 0.
Proof.
  split; [apply RInt_integral; lra|]. split.
  { intros z _. split; [constructor; [simpl; tauto|constructor]|]. split; [constructor|]. simpl. tauto. }
  split.
  { intros z Hz. unfold differentiable. apply (ex_derive_ext (fun y => ln (1 + y * (2 * z - 1)))).
    - intros y. rewrite slope_log_q by reflexivity. reflexivity.
    - auto_derive. lra. }
  split; [exact slope_total|]. split; [exact slope_swap_dens|]. split.
  { intros z _ y. rewrite !slope_joint by reflexivity. reflexivity. }
  split; [exact slope_swap_integrand|]. apply near_quarter. intros y Hy. apply (RInt_correct (integrand (set_param th0 0 y))). apply slope_ex. exact Hy.
Qed.
End Slope.
