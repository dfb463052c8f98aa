(** * Proofs for C90. *)
From Coquelicot Require Import Coquelicot.
From Coq Require Import Reals List Arith Bool Lia Lra.
From Verif Require Import Feed Transform VI VISpec VIProofs VIGradProofs VIIntegralSpec VIIntegralProofs.
From Verif Require Import ForgetSpec.
From Verif Require Import ElboSpec.
Import ListNotations.
Local Open Scope R_scope.
Set Bullet Behavior "Strict Subproofs".

Lemma tangent_nonneg : forall d, 0 <= above_tangent d.
Proof. intros d. unfold above_tangent. pose proof (exp_ineq1_le d). lra. Qed.
Lemma tangent_zero : forall d, above_tangent d = 0 -> d = 0.
Proof. intros d H. destruct (Req_dec d 0) as [E|E]; [exact E|]. pose proof (exp_ineq1 d E). unfold above_tangent in H. lra. Qed.

Lemma factor_all : forall {V} (q_log_prob : params -> nat -> (nat -> V) -> V -> list R) latent scale, (forall zq, In zq latent -> factor scale (fst zq) = 1) ->
  forall th d, log_q q_log_prob latent scale th d = log_q q_log_prob latent [] th d.
Proof. intros V q latent scale H th d. unfold log_q. f_equal. apply map_ext_in. intros zq Hz. rewrite (H zq Hz). reflexivity. Qed.

Lemma fixed_map : forall {V A B} (draw : A -> sample V) (th : params) (F : sample V -> B) l, map (fun d : params -> sample V => F (d th)) (fixed_draws (map draw l)) = map (fun x => F (draw x)) l.
Proof. intros V A B draw th F l. unfold fixed_draws. rewrite !map_map. reflexivity. Qed.
Lemma fixed_posed : forall {V A} (D : A -> Prop) latent (draw : A -> sample V) (th : params) l, (forall x, D x -> posed latent (draw x)) -> (forall x, In x l -> D x) ->
  forall d : params -> sample V, In d (fixed_draws (map draw l)) -> posed latent (d th).
Proof.
  intros V A D latent draw th l Hd Hl d Hi. unfold fixed_draws in Hi. rewrite map_map in Hi. apply in_map_iff in Hi. destruct Hi as [x [E Hx]]. subst d. apply Hd, Hl, Hx.
Qed.

Section Bound.
Context {V A : Type} (log_prob : params -> nat -> list (nat * V) -> V -> list R) (q_log_prob : params -> nat -> (nat -> V) -> V -> list R).
Variable latent : list (nat * nat).
Variable scale : list (nat * R).
Variable reg : params -> list R.
Variable D : A -> Prop.
Variable I : (A -> R) -> R -> Prop.
Hypothesis HI : integral D I.
Hypothesis HP : positive_integral D I.
Variable draw : A -> sample V.
Hypothesis Hd : forall x, D x -> posed latent (draw x).
Hypothesis Hs : forall zq, In zq latent -> factor scale (fst zq) = 1.
Variable th : params.
Notation dens x := (draw_density q_log_prob latent (fun _ => 1) th (draw x)).
Notation lj x := (log_joint log_prob latent scale th (draw x)).
Notation lq x := (log_q q_log_prob latent scale th (draw x)).
Hypothesis H1 : I (fun x => dens x) 1.
Variable Z : R.
Hypothesis HZ : I (fun x => exp (lj x)) Z.
Hypothesis Z0 : 0 < Z.

Lemma dens_q : forall x, dens x = exp (lq x).
Proof. intros x. unfold draw_density. rewrite (factor_all _ _ _ Hs). ring. Qed.

(** The gap. *)
Lemma gap : forall L, I (fun x => dens x * (lj x - lq x)) L ->
  I (fun x => dens x * above_tangent (lj x - lq x - ln Z)) (ln Z - L).
Proof.
  intros L HL.
  assert (Q : I (fun x => / Z * exp (lj x) + ((-1 + ln Z) * dens x + -1 * (dens x * (lj x - lq x)))) (/ Z * Z + ((-1 + ln Z) * 1 + -1 * L))).
  { apply (int_add _ _ HI); [apply (int_scal _ _ HI); exact HZ|]. apply (int_add _ _ HI); apply (int_scal _ _ HI); [exact H1|exact HL]. }
  replace (/ Z * Z + ((-1 + ln Z) * 1 + -1 * L)) with (ln Z - L) in Q by (field; lra).
  apply (int_ext _ _ HI) with (2 := Q). intros x _. unfold above_tangent.
  replace (exp (lj x - lq x - ln Z)) with (exp (lj x) * / exp (lq x) * / Z)
    by (rewrite <- (exp_ln Z Z0) at 1; rewrite <- !exp_Ropp, <- !exp_plus; f_equal; ring).
  rewrite dens_q. pose proof (exp_pos (lq x)). field. split; lra.
Qed.
Lemma gap_nonneg : forall x, 0 <= dens x * above_tangent (lj x - lq x - ln Z).
Proof. intros x. apply Rmult_le_pos; [rewrite dens_q; left; apply exp_pos|apply tangent_nonneg]. Qed.
Lemma below : forall L, I (fun x => dens x * (lj x - lq x)) L -> L <= ln Z.
Proof. intros L HL. assert (0 <= ln Z - L); [|lra]. exact (HP _ _ (fun x _ => gap_nonneg x) (gap L HL)). Qed.
Lemma zero_gap : forall good L, faithful D I good -> good (fun x => dens x * above_tangent (lj x - lq x - ln Z)) ->
  I (fun x => dens x * (lj x - lq x)) L -> L = ln Z -> forall x, D x -> exp (lq x) = exp (lj x) / Z.
Proof.
  intros good L F G HL E x Hx. pose proof (gap L HL) as Q. rewrite E, Rminus_eq_0 in Q.
  pose proof (F _ G (fun x _ => gap_nonneg x) Q x Hx) as Q'. cbv beta in Q'.
  apply Rmult_integral in Q'. destruct Q' as [Q'|Q']; [rewrite dens_q in Q'; pose proof (exp_pos (lq x)); lra|].
  apply tangent_zero in Q'. replace (lq x) with (lj x - ln Z) by lra. unfold Rminus. rewrite exp_plus, exp_Ropp, exp_ln by exact Z0. reflexivity.
Qed.

Lemma expected_loss : forall (loss : list A -> R) n h m, (0 < n)%nat ->
  (forall l, length l = n -> (forall x, In x l -> D x) -> loss l = - average (map h l) + penalty reg th) ->
  I (fun x => dens x * h x) m -> expected_by D I (fun x => dens x) n loss (- m + penalty reg th).
Proof.
  intros loss n h m Hn Hl Hm.
  assert (Hm' : I (fun x => dens x * (-1 * h x)) (-1 * m)).
  { apply (int_ext _ _ HI (fun x => -1 * (dens x * h x))); [intros; ring|]. apply (int_scal _ _ HI). exact Hm. }
  pose proof (expected_by_average D I HI (fun x => dens x) H1 n _ _ (penalty reg th) Hn Hm') as Q.
  replace (- m + penalty reg th) with (penalty reg th + -1 * m) by ring.
  apply (expected_by_ext D I (fun x => dens x)) with (2 := Q). intros l L Dl. rewrite (Hl l L Dl). unfold average. rewrite !map_length.
  rewrite <- (map_map h (Rmult (-1))).
  assert (E : forall k, sumR (map (Rmult (-1)) k) = - sumR k) by (induction k as [|y k IH]; cbn [map sumR]; [ring|rewrite IH; ring]). rewrite E. unfold Rdiv. ring.
Qed.

Notation draws l := (fixed_draws (map draw l)).
Lemma loss_bound : forall n L, (0 < n)%nat -> I (fun x => dens x * (lj x - lq x)) L ->
  expected_by D I (fun x => dens x) n (fun l => reparam_loss log_prob q_log_prob latent scale reg (draws l) th) (- L + penalty reg th) /\
  expected_by D I (fun x => dens x) n (fun l => score_loss log_prob q_log_prob latent scale reg (draws l) th) (- L + penalty reg th) /\
  - ln Z + penalty reg th <= - L + penalty reg th /\
  I (fun x => dens x * above_tangent (lj x - lq x - ln Z)) (ln Z - L).
Proof.
  intros n L Hn HL. split; [|split; [|split]].
  - apply (expected_loss _ n (fun x => lj x - lq x)); [exact Hn| |exact HL]. intros l _ Dl.
    rewrite (reparam_spec log_prob q_log_prob latent scale reg _ th (fixed_posed D latent draw th l Hd Dl)), (fixed_map draw th (fun d => log_joint log_prob latent scale th d - log_q q_log_prob latent scale th d)). reflexivity.
  - apply (expected_loss _ n (fun x => lj x - lq x)); [exact Hn| |exact HL]. intros l _ Dl.
    rewrite (score_spec log_prob q_log_prob latent scale reg _ th (fixed_posed D latent draw th l Hd Dl)), (fixed_map draw th (fun d => log_joint log_prob latent scale th d - log_q q_log_prob latent scale th d)). reflexivity.
  - pose proof (below L HL). lra.
  - exact (gap L HL).
Qed.

(** The last of the draws. *)
Lemma expected_last : forall n (f : list A -> R) h m c, (forall l x, (forall y, In y l -> D y) -> D x -> length l = n -> f (l ++ [x]) = - h x + c) -> I (fun x => dens x * h x) m -> expected_by D I (fun x => dens x) (S n) f (- m + c).
Proof.
  induction n as [|n IH]; intros f h m c Hf Hm.
  - exists (fun x => - h x + c). split; [intros x Hx; cbn [expected_by]; apply (Hf [] x); [intros y []|exact Hx|reflexivity]|].
    replace (- m + c) with (-1 * m + c * 1) by ring.
    apply (int_ext _ _ HI (fun x => -1 * (dens x * h x) + c * dens x)); [intros; ring|]. apply (int_add _ _ HI); apply (int_scal _ _ HI); [exact Hm|exact H1].
  - exists (fun _ => - m + c). split.
    + intros x Hx. apply (IH _ h m c); [|exact Hm]. intros l y Hl Hy L. rewrite app_comm_cons. apply Hf; [|exact Hy|cbn [length]; lia].
      intros w [<-|Hw]; [exact Hx|apply Hl; exact Hw].
    + pose proof (int_scal _ _ HI (- m + c) _ _ H1) as Q. rewrite Rmult_1_r in Q. apply (int_ext _ _ HI) with (2 := Q). intros; ring.
Qed.
Lemma rb_bound : forall data n L, (0 < n)%nat -> NoDup (map fst latent ++ data) /\ NoDup (map snd latent) -> (forall x, D x -> map fst (s_data (draw x)) = data) ->
  I (fun x => dens x * (lj x - lq x)) L ->
  expected_by D I (fun x => dens x) n (fun l => rb_loss log_prob q_log_prob latent scale reg data (draws l) th) (- L + penalty reg th) /\
  - ln Z + penalty reg th <= - L + penalty reg th.
Proof.
  intros data n L Hn ND Hdata HL. split; [|pose proof (below L HL); lra]. destruct n as [|n]; [lia|].
  apply (expected_last n _ (fun x => lj x - lq x)); [|exact HL]. intros l x Hl Hx _. unfold fixed_draws. rewrite !map_app. cbn [map].
  rewrite (rb_spec log_prob q_log_prob latent scale reg data _ _ th ND (Hd x Hx) (Hdata x Hx)). reflexivity.
Qed.

(** Analytic entropies and divergences. *)
Lemma int_sum : forall {B} (l : list B) (F : B -> A -> R) (m : B -> R), (forall b, In b l -> I (F b) (m b)) -> I (fun x => sumR (map (fun b => F b x) l)) (sumR (map m l)).
Proof.
  intros B. induction l as [|b l IH]; intros F m H; cbn [map sumR].
  - pose proof (int_scal _ _ HI 0 _ _ H1) as Q. rewrite Rmult_0_l in Q. apply (int_ext _ _ HI) with (2 := Q). intros; ring.
  - apply (int_add _ _ HI); [apply H; left; reflexivity|apply IH; intros; apply H; right; assumption].
Qed.
Lemma log_q_sum : forall x, lq x = sumR (map (log_q_of q_log_prob th (draw x)) latent).
Proof. intros x. unfold log_q, log_q_of. f_equal. apply map_ext_in. intros zq Hz. rewrite (Hs zq Hz). ring. Qed.
Lemma log_joint_sum : forall x, lj x = log_lik log_prob latent scale th (draw x) + sumR (map (log_prior_of log_prob latent th (draw x)) latent).
Proof.
  intros x. unfold log_joint, log_lik. rewrite Rplus_comm. f_equal. unfold scaled_sum, latent_values. rewrite map_map. cbn [fst snd]. unfold log_prior_of. f_equal.
  apply map_ext_in. intros zq Hz. rewrite (Hs zq Hz). ring.
Qed.
Lemma sum_scal : forall {B} (l : list B) c (f : B -> R), sumR (map (fun b => c * f b) l) = c * sumR (map f l).
Proof. intros B l c f. induction l as [|b l IH]; cbn [map sumR]; [ring|rewrite IH; ring]. Qed.
Lemma sum_sub : forall {B} (l : list B) (f g : B -> R), sumR (map (fun b => f b - g b) l) = sumR (map f l) - sumR (map g l).
Proof. intros B l f g. induction l as [|b l IH]; cbn [map sumR]; [ring|rewrite IH; ring]. Qed.
Lemma average_shift : forall (l : list R) c, l <> [] -> average (map (fun x => x + c) l) = average l + c.
Proof.
  intros l c Hl. unfold average. rewrite map_length.
  assert (E : sumR (map (fun x => x + c) l) = sumR l + INR (length l) * c).
  { clear Hl. induction l as [|x l IH]; [cbn; ring|]. cbn [map sumR length]. rewrite IH, S_INR. ring. }
  rewrite E. field. apply not_0_INR. destruct l; [contradiction|discriminate].
Qed.

Section Entropy.
Variable entropy : params -> nat -> (nat -> V) -> list R.
Variable own : nat -> V.
Hypothesis HE : forall zq, In zq latent -> I (fun x => dens x * - log_q_of q_log_prob th (draw x) zq) (sumR (entropy th (snd zq) own)).
Lemma entropy_bound : forall n M, (0 < n)%nat -> I (fun x => dens x * lj x) M ->
  exists L, I (fun x => dens x * (lj x - lq x)) L /\
  expected_by D I (fun x => dens x) n (fun l => reparam_entropy_loss log_prob latent scale reg entropy own (draws l) th) (- L + penalty reg th) /\
  expected_by D I (fun x => dens x) n (fun l => score_entropy_loss log_prob latent scale reg entropy own (draws l) th) (- L + penalty reg th) /\
  - ln Z + penalty reg th <= - L + penalty reg th.
Proof.
  intros n M Hn HM. set (H := sumR (map (fun zq => sumR (entropy th (snd zq) own)) latent)).
  assert (HL : I (fun x => dens x * (lj x - lq x)) (M + H)).
  { apply (int_ext _ _ HI (fun x => dens x * lj x + sumR (map (fun zq => dens x * - log_q_of q_log_prob th (draw x) zq) latent))).
    - intros x _. rewrite sum_scal, log_q_sum.
      assert (E : forall k, sumR (map (fun zq => - log_q_of q_log_prob th (draw x) zq) k) = - sumR (map (log_q_of q_log_prob th (draw x)) k)) by (induction k as [|b k IHk]; cbn [map sumR]; [ring|rewrite IHk; ring]).
      rewrite E. ring.
    - apply (int_add _ _ HI); [exact HM|]. apply int_sum. exact HE. }
  assert (Q : expected_by D I (fun x => dens x) n (fun l => reparam_entropy_loss log_prob latent scale reg entropy own (draws l) th) (- (M + H) + penalty reg th)).
  { apply (expected_loss _ n (fun x => lj x + H)); [exact Hn| |].
    - intros l Ll Dl. rewrite (entropy_spec log_prob latent scale reg entropy own _ th (fixed_posed D latent draw th l Hd Dl)), (fixed_map draw th (fun d => log_joint log_prob latent scale th d)).
      rewrite <- (map_map (fun x => lj x) (fun r => r + H)), average_shift by (destruct l; [cbn in Ll; lia|discriminate]). fold H. ring.
    - apply (int_ext _ _ HI (fun x => dens x * lj x + H * dens x)); [intros; ring|]. replace (M + H) with (M + H * 1) by ring.
      apply (int_add _ _ HI); [exact HM|]. apply (int_scal _ _ HI). exact H1. }
  exists (M + H). split; [exact HL|]. split; [exact Q|]. split; [exact Q|]. pose proof (below _ HL). lra.
Qed.
End Entropy.

Section Divergence.
Variable kl : params -> nat -> nat -> (nat -> V) -> list R.
Variable own : nat -> V.
Hypothesis HK : forall zq, In zq latent -> I (fun x => dens x * (log_q_of q_log_prob th (draw x) zq - log_prior_of log_prob latent th (draw x) zq)) (sumR (kl th (fst zq) (snd zq) own)).
Lemma kl_bound : forall kl_scaling n M, (0 < n)%nat -> (forall zq, In zq latent -> factor kl_scaling (fst zq) = 1) -> I (fun x => dens x * log_lik log_prob latent scale th (draw x)) M ->
  exists L, I (fun x => dens x * (lj x - lq x)) L /\
  expected_by D I (fun x => dens x) n (fun l => reparam_kl_loss log_prob latent scale reg kl kl_scaling own (draws l) th) (- L + penalty reg th) /\
  expected_by D I (fun x => dens x) n (fun l => score_kl_loss log_prob latent scale reg kl kl_scaling own (draws l) th) (- L + penalty reg th) /\
  - ln Z + penalty reg th <= - L + penalty reg th.
Proof.
  intros kls n M Hn Hk HM. set (H := sumR (map (fun zq => sumR (kl th (fst zq) (snd zq) own)) latent)).
  assert (HL : I (fun x => dens x * (lj x - lq x)) (M - H)).
  { apply (int_ext _ _ HI (fun x => dens x * log_lik log_prob latent scale th (draw x) + -1 * sumR (map (fun zq => dens x * (log_q_of q_log_prob th (draw x) zq - log_prior_of log_prob latent th (draw x) zq)) latent))).
    - intros x _. rewrite sum_scal, sum_sub, log_q_sum, log_joint_sum. ring.
    - replace (M - H) with (M + -1 * H) by ring. apply (int_add _ _ HI); [exact HM|]. apply (int_scal _ _ HI). apply int_sum. exact HK. }
  assert (EH : sumR (map (fun zq => factor kls (fst zq) * sumR (kl th (fst zq) (snd zq) own)) latent) = H).
  { unfold H. f_equal. apply map_ext_in. intros zq Hz. rewrite (Hk zq Hz). ring. }
  assert (Q : expected_by D I (fun x => dens x) n (fun l => reparam_kl_loss log_prob latent scale reg kl kls own (draws l) th) (- (M - H) + penalty reg th)).
  { apply (expected_loss _ n (fun x => log_lik log_prob latent scale th (draw x) + - H)); [exact Hn| |].
    - intros l Ll Dl. rewrite (reparam_kl_spec log_prob latent scale reg kl kls own _ th (fixed_posed D latent draw th l Hd Dl)), (fixed_map draw th (fun d => log_lik log_prob latent scale th d)).
      rewrite <- (map_map (fun x => log_lik log_prob latent scale th (draw x)) (fun r => r + - H)), average_shift by (destruct l; [cbn in Ll; lia|discriminate]). rewrite EH. ring.
    - apply (int_ext _ _ HI (fun x => dens x * log_lik log_prob latent scale th (draw x) + - H * dens x)); [intros; ring|]. replace (M - H) with (M + - H * 1) by ring.
      apply (int_add _ _ HI); [exact HM|]. apply (int_scal _ _ HI). exact H1. }
  exists (M - H). split; [exact HL|]. split; [exact Q|]. split; [exact Q|]. pose proof (below _ HL). lra.
Qed.
End Divergence.
End Bound.

(** At the posterior every draw gives the same loss. *)
Lemma average_const : forall (l : list R) c, l <> [] -> (forall x, In x l -> x = c) -> average l = c.
Proof.
  intros l c Hl H. assert (E : sumR l = INR (length l) * c).
  { clear Hl. induction l as [|x l IH]; [cbn; ring|]. cbn [sumR length]. rewrite IH by (intros; apply H; right; assumption). rewrite (H x) by (left; reflexivity). rewrite S_INR. ring. }
  unfold average. rewrite E. field. apply not_0_INR. destruct l; [contradiction|discriminate].
Qed.
Lemma at_posterior : forall {V} (log_prob : params -> nat -> list (nat * V) -> V -> list R) q_log_prob latent scale reg th (ds : list (params -> sample V)) c,
  ds <> [] -> (forall d, In d ds -> posed latent (d th)) ->
  (forall d, In d ds -> log_q q_log_prob latent scale th (d th) = log_joint log_prob latent scale th (d th) - c) ->
  reparam_loss log_prob q_log_prob latent scale reg ds th = - c + penalty reg th /\ score_loss log_prob q_log_prob latent scale reg ds th = - c + penalty reg th.
Proof.
  intros V log_prob q_log_prob latent scale reg th ds c Hn Hd Hq. rewrite (reparam_spec _ _ _ _ _ _ _ Hd), (score_spec _ _ _ _ _ _ _ Hd).
  rewrite (average_const _ c); [split; reflexivity| |].
  - destruct ds; [contradiction|discriminate].
  - intros x Hx. apply in_map_iff in Hx. destruct Hx as [d [<- Hx]]. rewrite (Hq d Hx). ring.
Qed.

(** Sums and series. *)
Lemma sum_zero : forall {A} (l : list A) (f : A -> R), (forall x, In x l -> 0 <= f x) -> sumR (map f l) = 0 -> forall x, In x l -> f x = 0.
Proof.
  intros A. induction l as [|a l IH]; intros f H E x Hx; [destruct Hx|]. cbn [map sumR] in E.
  assert (P : 0 <= sumR (map f l)).
  { clear -H. assert (Q : forall x, In x l -> 0 <= f x) by (intros; apply H; right; assumption). clear H. induction l as [|b l IH]; cbn [map sumR]; [lra|]. pose proof (Q b (or_introl eq_refl)). specialize (IH (fun x h => Q x (or_intror h))). lra. }
  pose proof (H a (or_introl eq_refl)). destruct Hx as [<-|Hx]; [lra|]. apply (IH f); [intros; apply H; right; assumption|lra|exact Hx].
Qed.
Lemma faithful_sum : forall {A} (space : list A), faithful (fun x => In x space) (by_sum space) (fun _ => True).
Proof. intros A space f _ H E x Hx. apply (sum_zero space f H E x Hx). Qed.
Lemma faithful_series : faithful (fun _ => True) by_series (fun _ => True).
Proof.
  intros f _ H E n _. assert (Hf : forall k, 0 <= f k) by (intros k; apply H; exact Logic.I).
  assert (L : is_lim_seq (sum_n f) 0) by exact E.
  assert (Hi : forall k, sum_n f k <= sum_n f (S k)) by (intros k; rewrite sum_Sn; change (sum_n f k <= sum_n f k + f (S k)); specialize (Hf (S k)); lra).
  pose proof (is_lim_seq_incr_compare (sum_n f) 0 L Hi n) as Q.
  assert (P : f n <= sum_n f n).
  { destruct n as [|n]; [rewrite sum_O; lra|]. rewrite sum_Sn. change (f (S n) <= sum_n f n + f (S n)).
    assert (0 <= sum_n f n); [|lra]. clear -Hf. induction n as [|n IH]; [rewrite sum_O; apply Hf|]. rewrite sum_Sn. change (0 <= sum_n f n + f (S n)). specialize (Hf (S n)). lra. }
  specialize (Hf n). lra.
Qed.
Lemma series_positive : positive_integral (fun _ => True) by_series.
Proof.
  intros f a H E. assert (Hf : forall k, 0 <= f k) by (intros k; apply H; exact Logic.I).
  assert (L : is_lim_seq (sum_n f) a) by exact E.
  assert (P : forall n, 0 <= sum_n f n).
  { induction n as [|n IH]; [rewrite sum_O; apply Hf|]. rewrite sum_Sn. change (0 <= sum_n f n + f (S n)). specialize (Hf (S n)). lra. }
  pose proof (is_lim_seq_le (fun _ => 0) (sum_n f) 0 a P (is_lim_seq_const 0) L) as Q. exact Q.
Qed.
Lemma opp_inj : forall a b, - a = - b -> a = b.
Proof. intros; lra. Qed.
