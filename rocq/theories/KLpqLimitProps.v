(** * C91: KLpq's gradients are, on average, those of KL(p || q).

    [I f a]: [a] is the integral of [f] over the draws; [dens] is the density of the
    approximation, [lj] the log joint density of a draw with the data, [Z] the
    evidence; exp(lj) / Z is the posterior density. *)
From Coquelicot Require Import Coquelicot.
From Coq Require Import Reals List Arith Bool.
From Verif Require Import Feed Transform VI VISpec VIIntegralSpec ForgetSpec.
From Verif Require Import KLpqLimitProofs.
Import ListNotations.
Local Open Scope R_scope.

(** With one sample, the default: whatever the model and the data, the expected
    gradient for variables of the approximation is that of the penalty. *)
Theorem C91_one_sample : forall {V A} (log_prob : params -> nat -> list (nat * V) -> V -> list R) q_log_prob latent reg
  (D : A -> Prop) I (draw : A -> sample V) th v,
  let dens := fun t x => draw_density q_log_prob latent (fun _ => 1) t (draw x) in
  integral D I -> (forall x, D x -> posed latent (draw x)) ->
  (forall x, D x -> differentiable (fun t => log_q q_log_prob latent [] t (draw x)) th v) -> differentiable (penalty reg) th v ->
  nearby (fun t => I (dens t) 1) th v -> interchange I dens th v ->
  expected_by D I (dens th) 1 (fun l => gradient (pq_objective log_prob q_log_prob latent reg (fixed_draws (map draw l)) th) th v)
    (partial (penalty reg) th v).
Proof.
  exact (fun V A lp ql lat reg D I dr th v HI Hp Hq Hr H1 H2 =>
    flat_gradient lp ql lat reg D I HI dr th v Hp Hq Hr 1 0 Nat.lt_0_1 (or_introl eq_refl) H1 H2).
Qed.
Print Assumptions C91_one_sample.

(** It is not the gradient of the divergence: here 0 instead of -1.  (A fair coin
    and an observation that makes its posterior 3/4, with an approximation that is at
    1/2.) *)
Theorem C91_default_refuted : exists (log_prob : params -> nat -> list (nat * bool) -> bool -> list R) q_log_prob latent (space : list bool) draw th v,
  let dens := fun x => draw_density q_log_prob latent (fun _ => 1) th (draw x) in
  let lj := fun x => log_joint log_prob latent [] th (draw x) in
  let lq := fun t x => log_q q_log_prob latent [] t (draw x) in
  let Z := sumR (map (fun x => exp (lj x)) space) in
  let KL := fun t => sumR (map (fun x => exp (lj x) / Z * (ln (exp (lj x) / Z) - lq t x)) space) in
  (forall x, In x space -> posed latent (draw x)) /\ (forall x, In x space -> differentiable (fun t => lq t x) th v) /\
  sumR (map dens space) = 1 /\
  expected space dens 1 (fun l => gradient (pq_objective log_prob q_log_prob latent (fun _ => []) (fixed_draws (map draw l)) th) th v) = 0 /\
  partial KL th v = -1.
Proof. exact one_sample_refuted. Qed.
Print Assumptions C91_default_refuted.

(** With any number of samples, at the posterior: the expected gradient is that of
    the penalty, so KLpq stays there on average. *)
Theorem C91_posterior : forall {V A} (log_prob : params -> nat -> list (nat * V) -> V -> list R) q_log_prob latent reg
  (D : A -> Prop) I (draw : A -> sample V) th v n Z,
  let dens := fun t x => draw_density q_log_prob latent (fun _ => 1) t (draw x) in
  integral D I -> (0 < n)%nat -> (forall x, D x -> posed latent (draw x)) ->
  (forall x, D x -> differentiable (fun t => log_q q_log_prob latent [] t (draw x)) th v) -> differentiable (penalty reg) th v ->
  nearby (fun t => I (dens t) 1) th v -> interchange I dens th v ->
  (forall x, D x -> log_q q_log_prob latent [] th (draw x) = log_joint log_prob latent [] th (draw x) - ln Z) ->
  expected_by D I (dens th) n (fun l => gradient (pq_objective log_prob q_log_prob latent reg (fixed_draws (map draw l)) th) th v)
    (partial (penalty reg) th v).
Proof.
  exact (fun V A lp ql lat reg D I dr th v n Z HI Hn Hp Hq Hr H1 H2 HZ =>
    flat_gradient lp ql lat reg D I HI dr th v Hp Hq Hr n (ln Z) Hn (or_intror HZ) H1 H2).
Qed.
Print Assumptions C91_posterior.

(** With more and more samples, where the importance weights are bounded below and
    have second moments: the expected gradient tends to that of the divergence from
    the posterior, which is [KL t] for the values [t] of the variables, plus the
    penalty. *)
Theorem C91_limit : forall {V A} (log_prob : params -> nat -> list (nat * V) -> V -> list R) q_log_prob latent reg
  (D : A -> Prop) I (draw : A -> sample V) th v Z low KL m e,
  let dens := fun x => draw_density q_log_prob latent (fun _ => 1) th (draw x) in
  let lj := fun x => log_joint log_prob latent [] th (draw x) in
  let lq := fun t x => log_q q_log_prob latent [] t (draw x) in
  let F := fun t x => exp (lj x) / Z * (lj x - ln Z - lq t x) in
  integral D I -> positive_integral D I -> (forall x, D x -> posed latent (draw x)) ->
  (forall x, D x -> differentiable (fun t => lq t x) th v) -> differentiable (penalty reg) th v ->
  I dens 1 -> I (fun x => exp (lj x)) Z -> 0 < low -> (forall x, D x -> low <= exp (lj x - lq th x)) ->
  interchange I F th v -> nearby (fun t => I (F t) (KL t)) th v ->
  I (fun x => dens x * Rsqr (exp (lj x - lq th x) * (partial (fun t => lq t x) th v + partial KL th v))) m ->
  (forall n, expected_by D I dens (S n) (fun l => gradient (pq_objective log_prob q_log_prob latent reg (fixed_draws (map draw l)) th) th v) (e n)) ->
  differentiable KL th v /\ Un_cv e (partial (fun t => KL t + penalty reg t) th v).
Proof.
  exact (fun V A lp ql lat reg D I dr th v Z low KL m e HI HP Hp Hq Hr H1 HZ Pl Hl =>
    gradient_limit lp ql lat reg D I HI dr th v Hp Hq Hr HP H1 Z low HZ Pl Hl KL m e).
Qed.
Print Assumptions C91_limit.

(** The expected loss tends to the divergence plus the log evidence minus the penalty
    (on the sign of which see C38). *)
Theorem C91_loss : forall {V A} (log_prob : params -> nat -> list (nat * V) -> V -> list R) q_log_prob latent reg
  (D : A -> Prop) I (draw : A -> sample V) th Z low KL m e,
  let dens := fun x => draw_density q_log_prob latent (fun _ => 1) th (draw x) in
  let lj := fun x => log_joint log_prob latent [] th (draw x) in
  let lq := fun x => log_q q_log_prob latent [] th (draw x) in
  integral D I -> positive_integral D I -> (forall x, D x -> posed latent (draw x)) ->
  I dens 1 -> I (fun x => exp (lj x)) Z -> 0 < low -> (forall x, D x -> low <= exp (lj x - lq x)) ->
  I (fun x => exp (lj x) / Z * (lj x - ln Z - lq x)) KL ->
  I (fun x => dens x * Rsqr (exp (lj x - lq x) * (lj x - lq x - (KL + ln Z)))) m ->
  (forall n, expected_by D I dens (S n) (fun l => pq_loss log_prob q_log_prob latent reg (fixed_draws (map draw l)) th) (e n)) ->
  Un_cv e (KL + ln Z - penalty reg th).
Proof.
  exact (fun V A lp ql lat reg D I dr th Z low KL m e HI HP Hp H1 HZ Pl Hl =>
    loss_limit lp ql lat reg D I HI dr th Hp HP H1 Z low HZ Pl Hl KL m e).
Qed.
Print Assumptions C91_loss.

(** On finite spaces all that is needed is given. *)
Theorem C91_finite : forall {V A} (log_prob : params -> nat -> list (nat * V) -> V -> list R) q_log_prob latent reg (space : list A) (draw : A -> sample V) th v,
  let dens := fun x => draw_density q_log_prob latent (fun _ => 1) th (draw x) in
  let lj := fun x => log_joint log_prob latent [] th (draw x) in
  let lq := fun t x => log_q q_log_prob latent [] t (draw x) in
  let Z := sumR (map (fun x => exp (lj x)) space) in
  let KL := fun t => sumR (map (fun x => exp (lj x) / Z * (ln (exp (lj x) / Z) - lq t x)) space) in
  (forall x, In x space -> posed latent (draw x)) -> (forall x, In x space -> differentiable (fun t => lq t x) th v) ->
  differentiable (penalty reg) th v -> sumR (map dens space) = 1 ->
  Un_cv (fun n => expected space dens (S n) (fun l => gradient (pq_objective log_prob q_log_prob latent reg (fixed_draws (map draw l)) th) th v))
    (partial (fun t => KL t + penalty reg t) th v) /\
  Un_cv (fun n => expected space dens (S n) (fun l => pq_loss log_prob q_log_prob latent reg (fixed_draws (map draw l)) th))
    (KL th + ln Z - penalty reg th).
Proof. exact @finite_limit. Qed.
Print Assumptions C91_finite.

(** The coin of [C91_default_refuted] meets the hypotheses of [C91_one_sample] and
    [C91_finite], so with more samples it is pulled to 3/4. *)
Example C91_met :
  (forall b, In b coin -> posed clat (cdraw b)) /\ (forall b, In b coin -> differentiable (fun t => log_q cq clat [] t (cdraw b)) cth 0) /\
  differentiable (penalty (fun _ => [])) cth 0 /\
  nearby (fun t => by_sum coin (fun b => draw_density cq clat (fun _ => 1) t (cdraw b)) 1) cth 0 /\
  sumR (map (fun b => draw_density cq clat (fun _ => 1) cth (cdraw b)) coin) = 1.
Proof. exact (conj (fun b _ => cposed b) (conj (fun b _ => cdiff b) (conj (proj1 (no_penalty_diff cth 0)) (conj cnear ctotal)))). Qed.
(** At 3/4 it is the posterior: [C91_posterior] applies with [Z] = 1/2. *)
Example C91_posterior_met : forall b, log_q cq clat [] (fun _ => 3 / 4) (cdraw b) = log_joint cp clat [] cth (cdraw b) - ln (1 / 2).
Proof. exact coin_posterior. Qed.
