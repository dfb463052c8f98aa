(** * Proofs for C38: the gradient for variables of the model. *)
From Coquelicot Require Import Coquelicot.
From Coq Require Import Reals List Arith Bool Lia Lra FunctionalExtensionality.
From Verif Require Import Graph GraphSpec Feed Transform TransformProofs VI VISpec VIProofs VIGradProofs VIRefuteProofs.
Import ListNotations.
Local Open Scope R_scope.

Lemma sum_exp_pos : forall {A} (l : list A) (f : A -> R), l <> [] -> 0 < sumR (map (fun a => exp (f a)) l).
Proof.
  intros A l f H. destruct l as [|a l]; [congruence|]. simpl. pose proof (exp_pos (f a)).
  assert (0 <= sumR (map (fun a => exp (f a)) l)); [|lra]. clear. induction l as [|b l IH]; simpl; [lra|]. pose proof (exp_pos (f b)). lra.
Qed.

(** The derivative of a sum of numbers weighted by the normalised exponentials
    of the same numbers. *)
Lemma weighted_derive : forall {A} (l : list A) (f : A -> R -> R) (f' : A -> R) t, l <> [] ->
  (forall a, In a l -> is_derive (f a) t (f' a)) ->
  let w := fun a => exp (f a t) / sumR (map (fun e => exp (f e t)) l) in
  is_derive (fun x => sumR (map (fun a => exp (f a x) / sumR (map (fun e => exp (f e x)) l) * f a x) l)) t
    (sumR (map (fun a => w a * (f' a * (1 + f a t - sumR (map (fun e => w e * f e t) l)))) l)).
Proof.
  intros A l f f' t Hne Hd w.
  set (S := fun x => sumR (map (fun e => exp (f e x)) l)). set (N := fun x => sumR (map (fun a => exp (f a x) * f a x) l)).
  assert (Sp : forall x, 0 < S x) by (intros x; apply (sum_exp_pos l (fun a => f a x)); exact Hne).
  assert (D1 : forall a, In a l -> is_derive (fun x => exp (f a x)) t (f' a * exp (f a t))).
  { intros a Ha. apply (is_derive_comp exp (f a) t (exp (f a t)) (f' a)); [apply is_derive_exp|auto]. }
  assert (DS : is_derive S t (sumR (map (fun a => f' a * exp (f a t)) l))) by (apply (is_derive_sumR l (fun a x => exp (f a x))); exact D1).
  assert (DN : is_derive N t (sumR (map (fun a => f' a * exp (f a t) * f a t + exp (f a t) * f' a) l))).
  { apply (is_derive_sumR l (fun a x => exp (f a x) * f a x)). intros a Ha.
    apply (is_derive_mult (fun x => exp (f a x)) (f a) t (f' a * exp (f a t)) (f' a)); [auto|auto|intros; apply Rmult_comm]. }
  apply (is_derive_ext (fun x => N x / S x)).
  - intros x. unfold N. unfold Rdiv at 1. rewrite Rmult_comm, <- sumR_map_scal. apply sumR_map_ext. intros a _. unfold S, Rdiv. ring.
  - assert (D : is_derive (fun x => N x / S x) t
      ((sumR (map (fun a => f' a * exp (f a t) * f a t + exp (f a t) * f' a) l) * S t - N t * sumR (map (fun a => f' a * exp (f a t)) l)) / (S t) ^ 2)).
    { apply (is_derive_div N S t); [exact DN|exact DS|]. pose proof (Sp t). lra. }
    replace (sumR (map (fun a => w a * (f' a * (1 + f a t - sumR (map (fun e => w e * f e t) l)))) l)) with
      ((sumR (map (fun a => f' a * exp (f a t) * f a t + exp (f a t) * f' a) l) * S t - N t * sumR (map (fun a => f' a * exp (f a t)) l)) / (S t) ^ 2); [exact D|].
    assert (M : sumR (map (fun e => w e * f e t) l) = N t / S t).
    { unfold N. unfold Rdiv. rewrite Rmult_comm, <- sumR_map_scal. apply sumR_map_ext. intros a _. unfold w. fold (S t). unfold Rdiv. ring. }
    rewrite M.
    rewrite (sumR_map_ext l (fun a => w a * (f' a * (1 + f a t - N t / S t)))
      (fun a => / S t * (f' a * exp (f a t) * f a t + exp (f a t) * f' a) + - (N t / (S t * S t)) * (f' a * exp (f a t)))).
    + rewrite (sumR_map_add l (fun a => / S t * (f' a * exp (f a t) * f a t + exp (f a t) * f' a)) (fun a => - (N t / (S t * S t)) * (f' a * exp (f a t)))).
      rewrite (sumR_map_scal l _ (fun a => f' a * exp (f a t) * f a t + exp (f a t) * f' a)), (sumR_map_scal l _ (fun a => f' a * exp (f a t))).
      pose proof (Sp t). field. lra.
    + intros a _. unfold w. fold (S t). pose proof (Sp t). field. lra.
Qed.

Section Q.
Context {V : Type}.
Notation dict := (list (nat * V)).
Variable log_prob : params -> nat -> dict -> V -> list R.
Variable q_log_prob : params -> nat -> (nat -> V) -> V -> list R.
Variable latent : list (nat * nat).
Variable reg : params -> list R.

Lemma pq_model_gradient : forall l th v, l <> [] -> (forall d, In d l -> posed latent d) ->
  (forall d, In d l -> independent (fun t => log_q q_log_prob latent [] t d) th v) ->
  (forall d, In d l -> differentiable (fun t => log_joint log_prob latent [] t d) th v) -> differentiable (penalty reg) th v ->
  let lw := fun d => log_joint log_prob latent [] th d - log_q q_log_prob latent [] th d in
  let w := fun d => exp (lw d) / sumR (map (fun e => exp (lw e)) l) in
  gradient (pq_model_objective log_prob q_log_prob latent reg (fixed_draws l)) th v =
  - sumR (map (fun d => w d * (partial (fun t => log_joint log_prob latent [] t d) th v *
      (1 + lw d - sumR (map (fun e => w e * lw e) l)))) l) + partial (penalty reg) th v.
Proof.
  intros l th v Hne Hp Hi Hd Hr lw w. unfold gradient. apply is_derive_unique.
  set (f := fun d x => log_joint log_prob latent [] (set_param th v x) d - log_q q_log_prob latent [] (set_param th v x) d).
  assert (Ef : forall d, f d (th v) = lw d) by (intros d; unfold f, lw; rewrite set_same; reflexivity).
  apply (is_derive_ext (fun x => - sumR (map (fun a => exp (f a x) / sumR (map (fun e => exp (f e x)) l) * f a x) l) + penalty reg (set_param th v x))).
  - intros x. unfold pq_model_objective.
    pose proof (@pq_loss_spec V log_prob q_log_prob latent reg (fixed_draws l) (set_param th v x)) as P.
    cbv zeta in P. rewrite P.
    + unfold fixed_draws. rewrite !map_map. rewrite Ropp_minus_distr, Rplus_comm. unfold Rminus. f_equal.
    + unfold fixed_draws. destruct l; [congruence|discriminate].
    + intros d Hin. unfold fixed_draws in Hin. apply in_map_iff in Hin. destruct Hin as (a & <- & Ha). auto.
  - apply (is_derive_plus (K := R_AbsRing) (V := R_NormedModule)
      (fun x => - sumR (map (fun a => exp (f a x) / sumR (map (fun e => exp (f e x)) l) * f a x) l)) (fun x => penalty reg (set_param th v x)));
      [|apply derive_of; auto].
    apply (is_derive_opp (K := R_AbsRing) (V := R_NormedModule)
      (fun x => sumR (map (fun a => exp (f a x) / sumR (map (fun e => exp (f e x)) l) * f a x) l))).
    pose proof (weighted_derive l f (fun d => partial (fun t => log_joint log_prob latent [] t d) th v) (th v) Hne) as W.
    cbv zeta in W.
    replace (fun d => w d * (partial (fun t => log_joint log_prob latent [] t d) th v * (1 + lw d - sumR (map (fun e => w e * lw e) l))))
      with (fun a => exp (f a (th v)) / sumR (map (fun e => exp (f e (th v))) l) * (partial (fun t => log_joint log_prob latent [] t a) th v *
        (1 + f a (th v) - sumR (map (fun e => exp (f e (th v)) / sumR (map (fun e0 => exp (f e0 (th v))) l) * f e (th v)) l)))).
    + apply W. intros d Hin. unfold f.
      apply (is_derive_ext (fun x => log_joint log_prob latent [] (set_param th v x) d - log_q q_log_prob latent [] th d)).
      { intros x. f_equal. symmetry. apply (Hi d Hin). }
      assert (D : is_derive (fun x => minus (log_joint log_prob latent [] (set_param th v x) d) (log_q q_log_prob latent [] th d)) (th v)
        (minus (partial (fun t => log_joint log_prob latent [] t d) th v) zero)).
      { apply (is_derive_minus (K := R_AbsRing) (V := R_NormedModule) (fun x => log_joint log_prob latent [] (set_param th v x) d) (fun _ => log_q q_log_prob latent [] th d)).
        - apply derive_of. apply Hd. auto.
        - apply (is_derive_const (K := R_AbsRing) (V := R_NormedModule)). }
      rewrite minus_zero_r in D. exact D.
    + assert (Eg : (fun d => f d (th v)) = lw) by (apply functional_extensionality; exact Ef).
      apply functional_extensionality. intros d. unfold w.
      rewrite !Ef. rewrite (sumR_map_ext l (fun e => exp (f e (th v))) (fun e => exp (lw e))) by (intros; rewrite Ef; reflexivity).
      f_equal. f_equal. f_equal. apply sumR_map_ext. intros e _. rewrite Ef. reflexivity.
Qed.

(** With one sample, or equal weights, this is the documented gradient. *)
Lemma pq_model_equal : forall l th v, l <> [] -> (forall d, In d l -> posed latent d) ->
  (forall d, In d l -> independent (fun t => log_q q_log_prob latent [] t d) th v) ->
  (forall d, In d l -> differentiable (fun t => log_joint log_prob latent [] t d) th v) -> differentiable (penalty reg) th v ->
  let lw := fun d => log_joint log_prob latent [] th d - log_q q_log_prob latent [] th d in
  (forall d e, In d l -> In e l -> lw d = lw e) ->
  gradient (pq_model_objective log_prob q_log_prob latent reg (fixed_draws l)) th v =
  - sumR (map (fun d => exp (lw d) / sumR (map (fun e => exp (lw e)) l) * partial (fun t => log_joint log_prob latent [] t d) th v) l) + partial (penalty reg) th v.
Proof.
  intros l th v Hne Hp Hi Hd Hr lw He. pose proof (pq_model_gradient l th v Hne Hp Hi Hd Hr) as G. cbv zeta in G. fold lw in G. rewrite G.
  f_equal. f_equal. apply sumR_map_ext. intros d Hin.
  assert (M : sumR (map (fun e => exp (lw e) / sumR (map (fun e0 => exp (lw e0)) l) * lw e) l) = lw d).
  { rewrite (sumR_map_ext l _ (fun e => lw d / sumR (map (fun e0 => exp (lw e0)) l) * exp (lw e))).
    - rewrite sumR_map_scal. pose proof (sum_exp_pos l lw Hne). field. lra.
    - intros e Hin'. rewrite (He e d Hin' Hin). unfold Rdiv. ring. }
  change (fun d0 => log_joint log_prob latent [] th d0 - log_q q_log_prob latent [] th d0) with lw in M.
  unfold lw in M. unfold lw. rewrite M. ring.
Qed.
End Q.

(** log p = theta z, two draws with z = 0 and z = 1. *)
Definition tilt (th : params) (k : nat) (d : list (nat * R)) (u : R) : list R := [th 0%nat * u].
Lemma pq_model_refuted : exists (log_prob : params -> nat -> list (nat * R) -> R -> list R) q_log_prob latent l th v,
  l <> [] /\ (forall d, In d l -> posed latent d) /\
  (forall d, In d l -> independent (fun t => log_q q_log_prob latent [] t d) th v) /\
  (forall d, In d l -> differentiable (fun t => log_joint log_prob latent [] t d) th v) /\
  (let lw := fun d => log_joint log_prob latent [] th d - log_q q_log_prob latent [] th d in
   gradient (pq_model_objective log_prob q_log_prob latent (fun _ => []) (fixed_draws l)) th v <>
   - sumR (map (fun d => exp (lw d) / sumR (map (fun e => exp (lw e)) l) * partial (fun t => log_joint log_prob latent [] t d) th v) l)).
Proof.
  set (z0 := at_value 0 (fun _ => 0)). set (z1 := at_value 1 (fun _ => 0)).
  exists tilt, no_q, [(0%nat, 1%nat)], [z0; z1], (fun _ => 1), 0%nat.
  assert (J : forall (d : sample R) t, s_data d = [] -> log_joint tilt [(0%nat, 1%nat)] [] t d = t 0%nat * s_q d 1%nat).
  { intros d t E. unfold log_joint, scaled_sum, latent_values, bindings, tilt, factor. rewrite E. simpl. ring. }
  assert (Q : forall (d : sample R) t, log_q no_q [(0%nat, 1%nat)] [] t d = 0) by (intros; unfold log_q, no_q, factor; simpl; ring).
  assert (P : forall d, In d [z0; z1] -> posed [(0%nat, 1%nat)] d) by (intros d [<-|[<-|[]]]; apply one_posed).
  assert (E0 : forall d, In d [z0; z1] -> s_data d = []) by (intros d [<-|[<-|[]]]; reflexivity).
  assert (DD : forall d, In d [z0; z1] -> is_derive (fun x => log_joint tilt [(0%nat, 1%nat)] [] (set_param (fun _ => 1) 0 x) d) 1 (s_q d 1%nat)).
  { intros d Hd. apply (is_derive_ext (fun x => s_q d 1%nat * x)).
    - intros x. rewrite J by auto. unfold set_param. simpl. apply Rmult_comm.
    - auto_derive; [exact I|]. ring. }
  assert (I : forall d, In d [z0; z1] -> independent (fun t => log_q no_q [(0%nat, 1%nat)] [] t d) (fun _ => 1) 0) by (intros d _ x; rewrite !Q; reflexivity).
  assert (D : forall d, In d [z0; z1] -> differentiable (fun t => log_joint tilt [(0%nat, 1%nat)] [] t d) (fun _ => 1) 0)
    by (intros d Hd; exists (s_q d 1%nat); apply DD; exact Hd).
  split; [discriminate|]. split; [exact P|]. split; [exact I|]. split; [exact D|]. cbv zeta.
  pose proof (pq_model_gradient tilt no_q [(0%nat, 1%nat)] (fun _ => []) [z0; z1] (fun _ => 1) 0%nat ltac:(discriminate) P I D) as G.
  cbv zeta in G. rewrite G; [clear G|exists 0; apply (is_derive_ext (fun _ => 0)); [reflexivity|apply (is_derive_const (K := R_AbsRing) (V := R_NormedModule))]].
  assert (R0 : partial (penalty (fun _ : params => [])) (fun _ => 1) 0 = 0) by (unfold partial, penalty; simpl; apply Derive_const).
  rewrite R0.
  assert (P0 : partial (fun t => log_joint tilt [(0%nat, 1%nat)] [] t z0) (fun _ => 1) 0 = 0) by (apply is_derive_unique; apply DD; simpl; auto).
  assert (P1 : partial (fun t => log_joint tilt [(0%nat, 1%nat)] [] t z1) (fun _ => 1) 0 = 1) by (apply is_derive_unique; apply DD; simpl; auto).
  cbn [map sumR]. rewrite !J, !Q by reflexivity. simpl. rewrite P0, P1.
  replace (1 * 0 - 0) with 0 by ring. replace (1 * 1 - 0) with 1 by ring. rewrite exp_0. pose proof (exp_pos 1) as E.
  set (e := exp 1) in *. intros H.
  assert (H2 : e / (1 + (e + 0)) * (1 - e / (1 + (e + 0))) = 0) by lra.
  assert (H3 : e / (1 + (e + 0)) * (1 - e / (1 + (e + 0))) = e / ((1 + e) * (1 + e))) by (field; lra).
  rewrite H3 in H2. assert (0 < e / ((1 + e) * (1 + e))) by (apply Rdiv_lt_0_compat; nra). lra.
Qed.
