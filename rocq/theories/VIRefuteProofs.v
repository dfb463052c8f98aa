(** * Counterexamples for C36-C39. *)
From Coquelicot Require Import Coquelicot.
From Coq Require Import Reals List Arith Bool Lia Lra.
From Verif Require Import Ext ExtProofs MH MHSpec MHProofs Graph Feed Transform TransformProofs VI VISpec VIProofs VIGradProofs.
Import ListNotations.
Local Open Scope R_scope.

(** ** C36 *)
Definition flat_log_prob (th : params) (k : nat) (d : list (nat * R)) (v : R) : list R := [v].
Definition no_q {V} (th : params) (q : nat) (e : nat -> V) (v : V) : list R := [0].
Definition at_value {V} (x : V) : params -> sample V := fun _ => mksample (fun _ => x) [] (fun _ => x).

Lemma one_posed : forall {V} (x : V) th, posed [(0%nat, 1%nat)] (at_value x th).
Proof. intros V x th. split; [constructor; [simpl; tauto|constructor]|]. split; [constructor|]. simpl. tauto. Qed.

Lemma rb_refuted : exists (log_prob : params -> nat -> list (nat * R) -> R -> list R) q_log_prob latent (ds : list (params -> sample R)) th,
  (forall d, In d ds -> posed latent (d th)) /\ length ds = 2%nat /\
  rb_loss log_prob q_log_prob latent [] (fun _ => []) [] ds th <>
    - average (map (fun d => log_joint log_prob latent [] th (d th) - log_q q_log_prob latent [] th (d th)) ds) + penalty (fun _ => []) th.
Proof.
  exists flat_log_prob, no_q, [(0%nat, 1%nat)], [at_value 0; at_value 1], (fun _ => 0).
  split. { intros d [<-|[<-|[]]]; apply one_posed. }
  split; auto.
  change [at_value 0; at_value 1] with ([at_value 0] ++ [at_value 1]) at 1. rewrite rb_spec; [| |apply one_posed|auto].
  - unfold log_joint, log_q, scaled_sum, latent_values, bindings, average, penalty, flat_log_prob, no_q, factor. simpl. lra.
  - split; constructor; simpl; auto; constructor.
Qed.

(** Divergence of normals with unit scales; the prior mean of variable 1 is
    variable 0. *)
Definition normal_kl (th : params) (z q : nat) (env : nat -> R) : list R :=
  match z with O => [th q * th q / 2] | _ => [(th q - env 0%nat) * (th q - env 0%nat) / 2] end.

Lemma kl_own_refuted : exists (kl : params -> nat -> nat -> (nat -> R) -> list R) latent own (d : params -> sample R) th,
  posed latent (d th) /\ 
  reparam_kl_loss flat_log_prob latent [] (fun _ => []) kl [] own [d] th <>
    - log_lik flat_log_prob latent [] th (d th) +
    sumR (map (fun zq => sumR (kl th (fst zq) (snd zq)
      (fun k => match Feed.dict_get (bindings latent (d th)) k with Some v => v | None => own k end))) latent).
Proof.
  exists normal_kl, [(0%nat, 2%nat); (1%nat, 3%nat)], (fun _ => 0), (at_value 1), (fun _ => 0).
  assert (P : posed [(0%nat, 2%nat); (1%nat, 3%nat)] (at_value 1 (fun _ => 0))).
  { split. { constructor; [simpl; lia|]. constructor; [simpl; tauto|constructor]. } split; [constructor|]. simpl. tauto. }
  split; auto. rewrite reparam_kl_spec by (intros d [<-|[]]; auto).
  unfold log_lik, scaled_sum, average, penalty, factor. simpl. lra.
Qed.

(** ** C37: a latent variable with scale 2 *)
Definition coin (x : R) (b : bool) : R := if b then x else 1 - x.
Definition coin_q (th : params) (q : nat) (e : nat -> bool) (v : bool) : list R := [ln (coin (th 0%nat) v)].
Definition coins : list (sample bool) := [at_value true (fun _ => 0); at_value false (fun _ => 0)].
Definition half : params := fun _ => 1 / 2.
Definition one_base {V} (d : sample V) : R := 1.

Lemma coin_posed : forall d, In d coins -> posed [(0%nat, 1%nat)] d.
Proof. intros d [<-|[<-|[]]]; apply (one_posed _ (fun _ => 0)). Qed.
Lemma set_half : forall x, set_param half 0 x 0%nat = x.
Proof. auto. Qed.
Lemma coin_log_q : forall scale th b, log_q coin_q [(0%nat, 1%nat)] scale th (at_value b (fun _ => 0)) = factor scale 0 * ln (coin (th 0%nat) b).
Proof. intros. unfold log_q, coin_q. simpl. lra. Qed.
Lemma coin_nearby : nearby (fun t => sumR (map (draw_density coin_q [(0%nat, 1%nat)] one_base t) coins) = 1) half 0.
Proof.
  assert (P : 0 < 1 / 4) by lra. exists (mkposreal _ P). intros x Hx. unfold draw_density, coins. cbn [map sumR].
  rewrite !coin_log_q. unfold one_base. rewrite set_half. unfold factor. simpl.
  unfold ball in Hx; simpl in Hx; unfold AbsRing_ball, abs, minus, plus, opp in Hx; simpl in Hx. apply Rabs_lt_between in Hx. unfold half in Hx.
  rewrite !Rmult_1_l, !exp_ln by lra. lra.
Qed.
Lemma coin_density : forall b, draw_density coin_q [(0%nat, 1%nat)] one_base half (at_value b (fun _ => 0)) = 1 / 2.
Proof.
  intros b. unfold draw_density. rewrite coin_log_q. unfold factor, one_base, half, coin. simpl. rewrite !Rmult_1_l.
  destruct b; rewrite exp_ln; lra.
Qed.

(** The expected gradient and the gradient of the expectation, for any latent
    scale [c] and log density. *)
Lemma coin_gradients : forall (log_prob : params -> nat -> list (nat * bool) -> bool -> list R) c (a : R -> bool -> R) (a' : bool -> R),
  (forall x b, log_joint log_prob [(0%nat, 1%nat)] [(0%nat, c)] (set_param half 0 x) (at_value b (fun _ => 0)) = a x b) ->
  (forall b, is_derive (fun x => a x b) (1 / 2) (a' b)) ->
  expected coins (draw_density coin_q [(0%nat, 1%nat)] one_base half) 1
    (fun l => gradient (score_objective log_prob coin_q [(0%nat, 1%nat)] [(0%nat, c)] (fun _ => []) (fixed_draws l) half) half 0) =
    - c * (a (1 / 2) true - a (1 / 2) false) /\
  partial (fun t => - mean_of coins (draw_density coin_q [(0%nat, 1%nat)] one_base t)
    (fun d => log_joint log_prob [(0%nat, 1%nat)] [(0%nat, c)] t d - log_q coin_q [(0%nat, 1%nat)] [(0%nat, c)] t d) + penalty (fun _ => []) t) half 0 =
    - (a (1 / 2) true - a (1 / 2) false) - (a' true + a' false) / 2.
Proof.
  intros lp c a a' Ha Hd.
  assert (Ha0 : forall b, log_joint lp [(0%nat, 1%nat)] [(0%nat, c)] half (at_value b (fun _ => 0)) = a (1 / 2) b).
  { intros b. rewrite <- Ha. change (1 / 2) with (half 0%nat). rewrite set_same. auto. }
  assert (Fc : factor [(0%nat, c)] 0 = c) by (unfold factor; simpl; auto).
  assert (G : forall b, gradient (score_objective lp coin_q [(0%nat, 1%nat)] [(0%nat, c)] (fun _ => []) (fixed_draws [at_value b (fun _ => 0)]) half) half 0 =
    - (c * (if b then 2 else -2) * (a (1 / 2) b - c * ln (1 / 2)))).
  { intros b. unfold gradient. apply is_derive_unique.
    apply (is_derive_ext (fun x => - (c * ln (coin x b) * (a (1 / 2) b - c * ln (1 / 2))))).
    - intros x. unfold score_objective, reduce_mean, reg_penalty. unfold fixed_draws. cbn [map length sumR].
      rewrite !q_total_spec, p_total_spec by (apply (one_posed b (fun _ => 0))). rewrite !coin_log_q, Ha0, Fc, set_half.
      replace (coin (half 0%nat) b) with (1 / 2) by (unfold half, coin; destruct b; lra). simpl. lra.
    - unfold half. destruct b; unfold coin; auto_derive; try lra; field. }
  split.
  - cbn [expected]. unfold coins at 1. cbn [map sumR]. rewrite !G, !coin_density. lra.
  - unfold partial. apply is_derive_unique.
    apply (is_derive_ext_loc (fun x => - (x * (a x true - c * ln x) + (1 - x) * (a x false - c * ln (1 - x))))).
    + assert (P : 0 < 1 / 4) by lra. exists (mkposreal _ P). intros x Hx.
      unfold ball in Hx; simpl in Hx; unfold AbsRing_ball, abs, minus, plus, opp in Hx; simpl in Hx. apply Rabs_lt_between in Hx. unfold half in Hx.
      unfold mean_of, coins, draw_density. cbn [map sumR]. rewrite !coin_log_q, !Ha, Fc, !set_half. unfold factor, one_base, penalty, coin. simpl.
      rewrite !Rmult_1_l, !exp_ln by lra. lra.
    + unfold half. pose proof (Hd true) as Dt. pose proof (Hd false) as Df.
      assert (It : is_derive (fun x => ln x) (1 / 2) 2) by (auto_derive; [lra|field]).
      assert (If : is_derive (fun x => ln (1 - x)) (1 / 2) (-2)) by (auto_derive; [lra|field]).
      set (A := fun x => a x true) in *. set (B := fun x => a x false) in *.
      evar_last.
      * apply (is_derive_opp (K := R_AbsRing) (V := R_NormedModule) (fun x => x * (A x - c * ln x) + (1 - x) * (B x - c * ln (1 - x)))).
        apply (is_derive_plus (K := R_AbsRing) (V := R_NormedModule) (fun x => x * (A x - c * ln x)) (fun x => (1 - x) * (B x - c * ln (1 - x)))).
        -- apply (is_derive_mult (fun x => x) (fun x => A x - c * ln x)); [apply (is_derive_id (K := R_AbsRing))| |intros; apply Rmult_comm].
           apply (is_derive_minus (K := R_AbsRing) (V := R_NormedModule) A (fun x => c * ln x)); [exact Dt|].
           apply (is_derive_scal (fun x => ln x)). exact It.
        -- apply (is_derive_mult (fun x => 1 - x) (fun x => B x - c * ln (1 - x))); [| |intros; apply Rmult_comm].
           ++ apply (is_derive_minus (K := R_AbsRing) (V := R_NormedModule) (fun _ => 1) (fun x => x));
                [apply (is_derive_const (K := R_AbsRing) (V := R_NormedModule))|apply (is_derive_id (K := R_AbsRing))].
           ++ apply (is_derive_minus (K := R_AbsRing) (V := R_NormedModule) B (fun x => c * ln (1 - x))); [exact Df|].
              apply (is_derive_scal (fun x => ln (1 - x))). exact If.
      * unfold plus, opp, minus, mult, zero, one, A, B; simpl. unfold plus, opp, minus, mult, zero, one; simpl.
        replace (1 - 1 / 2) with (1 / 2) by lra. lra.
Qed.

Definition coin_prior (th : params) (k : nat) (d : list (nat * bool)) (v : bool) : list R := [if v then 1 else 0].
Definition shared_prior (th : params) (k : nat) (d : list (nat * bool)) (v : bool) : list R := [if v then th 0%nat else 0].

Lemma score_scale_refuted : exists (log_prob : params -> nat -> list (nat * bool) -> bool -> list R) q_log_prob latent scale space base th v,
  (forall d, In d space -> posed latent d) /\
  nearby (fun t => sumR (map (draw_density q_log_prob latent base t) space) = 1) th v /\
  (forall d, In d space -> independent (fun t => log_joint log_prob latent scale t d) th v) /\
  expected space (draw_density q_log_prob latent base th) 1
    (fun l => gradient (score_objective log_prob q_log_prob latent scale (fun _ => []) (fixed_draws l) th) th v) <>
  partial (fun t => - mean_of space (draw_density q_log_prob latent base t)
    (fun d => log_joint log_prob latent scale t d - log_q q_log_prob latent scale t d) + penalty (fun _ => []) t) th v.
Proof.
  exists coin_prior, coin_q, [(0%nat, 1%nat)], [(0%nat, 2)], coins, one_base, half, 0%nat.
  split; [apply coin_posed|]. split; [apply coin_nearby|]. split.
  { intros d _ x. auto. }
  destruct (coin_gradients coin_prior 2 (fun _ b => if b then 2 else 0) (fun _ => 0)) as [E1 E2].
  - intros x b. unfold log_joint, scaled_sum, latent_values, coin_prior, factor. simpl. destruct b; lra.
  - intros b. apply (is_derive_const (K := R_AbsRing) (V := R_NormedModule)).
  - rewrite E1, E2. lra.
Qed.

Lemma score_shared_refuted : exists (log_prob : params -> nat -> list (nat * bool) -> bool -> list R) q_log_prob latent space base th v,
  (forall d, In d space -> posed latent d) /\
  nearby (fun t => sumR (map (draw_density q_log_prob latent base t) space) = 1) th v /\
  (forall d, In d space -> differentiable (fun t => log_joint log_prob latent [] t d) th v) /\
  expected space (draw_density q_log_prob latent base th) 1
    (fun l => gradient (score_objective log_prob q_log_prob latent [] (fun _ => []) (fixed_draws l) th) th v) <>
  partial (fun t => - mean_of space (draw_density q_log_prob latent base t)
    (fun d => log_joint log_prob latent [] t d - log_q q_log_prob latent [] t d) + penalty (fun _ => []) t) th v.
Proof.
  assert (J : forall c x b, log_joint shared_prior [(0%nat, 1%nat)] [(0%nat, c)] (set_param half 0 x) (at_value b (fun _ => 0)) = c * (if b then x else 0)).
  { intros c x b. unfold log_joint, scaled_sum, latent_values, shared_prior, factor, set_param. simpl. destruct b; lra. }
  assert (JN : forall x b, log_joint shared_prior [(0%nat, 1%nat)] [] (set_param half 0 x) (at_value b (fun _ => 0)) = if b then x else 0).
  { intros x b. unfold log_joint, scaled_sum, latent_values, shared_prior, factor, set_param. simpl. destruct b; lra. }
  assert (D : forall b : bool, is_derive (fun x => 1 * (if b : bool then x else 0)) (1 / 2) (if b then 1 else 0)) by (intros []; auto_derive; auto; lra).
  destruct (coin_gradients shared_prior 1 (fun x b => 1 * (if b then x else 0)) (fun b => if b then 1 else 0) (J 1) D) as [E1 E2].
  exists shared_prior, coin_q, [(0%nat, 1%nat)], coins, one_base, half, 0%nat.
  split; [apply coin_posed|]. split; [apply coin_nearby|]. split.
  { intros d Hd. unfold differentiable. destruct Hd as [<-|[<-|[]]]; eapply ex_derive_ext; [intros x; symmetry; apply (JN x true)|apply ex_derive_id|intros x; symmetry; apply (JN x false)|
      apply (ex_derive_const (K := R_AbsRing) (V := R_NormedModule))]. }
  intros E.
  assert (K : 1 * (1 / 2) = 1 * 1) by (
    transitivity (- (expected coins (draw_density coin_q [(0%nat, 1%nat)] one_base half) 1
      (fun l => gradient (score_objective shared_prior coin_q [(0%nat, 1%nat)] [(0%nat, 1)] (fun _ => []) (fixed_draws l) half) half 0)));
    [rewrite E1; lra|];
    transitivity (- partial (fun t => - mean_of coins (draw_density coin_q [(0%nat, 1%nat)] one_base t)
      (fun d => log_joint shared_prior [(0%nat, 1%nat)] [(0%nat, 1)] t d - log_q coin_q [(0%nat, 1%nat)] [(0%nat, 1)] t d) + penalty (fun _ => []) t) half 0);
    [f_equal; exact E|rewrite E2; lra]).
  lra.
Qed.

(** ** C38 *)
Lemma pq_penalty_refuted : exists (log_prob : params -> nat -> list (nat * R) -> R -> list R) q_log_prob latent reg ds th,
  ds <> [] /\ (forall d, In d ds -> posed latent (d th)) /\ Forall (fun r => 0 < r) (reg th) /\
  (let lw := fun d : params -> sample R => log_joint log_prob latent [] th (d th) - log_q q_log_prob latent [] th (d th) in
   pq_loss log_prob q_log_prob latent reg ds th <>
    sumR (map (fun d => exp (lw d) / sumR (map (fun e => exp (lw e)) ds) * lw d) ds) + penalty reg th).
Proof.
  exists flat_log_prob, no_q, [(0%nat, 1%nat)], (fun _ => [1]), [at_value 0], (fun _ => 0).
  assert (P : forall d, In d [at_value 0] -> posed [(0%nat, 1%nat)] (d (fun _ => 0))) by (intros d [<-|[]]; apply one_posed).
  split; [discriminate|]. split; auto. split; [repeat constructor; lra|]. cbv zeta. rewrite pq_loss_spec by (auto; discriminate).
  unfold penalty. simpl. lra.
Qed.

(** ** C39 *)
Lemma pq_scale_refuted : exists (log_prob : params -> nat -> list (nat * R) -> R -> list R) q_log_prob latent scale ds th,
  ds <> [] /\ (forall d, In d ds -> posed latent (d th)) /\
  (let lw := fun d : params -> sample R => log_joint log_prob latent scale th (d th) - log_q q_log_prob latent scale th (d th) in
   pq_loss log_prob q_log_prob latent (fun _ => []) ds th <>
    sumR (map (fun d => exp (lw d) / sumR (map (fun e => exp (lw e)) ds) * lw d) ds)).
Proof.
  exists flat_log_prob, no_q, [(0%nat, 1%nat)], [(0%nat, 2)], [at_value 1], (fun _ => 0).
  assert (P : forall d, In d [at_value 1] -> posed [(0%nat, 1%nat)] (d (fun _ => 0))) by (intros d [<-|[]]; apply one_posed).
  split; [discriminate|]. split; auto. cbv zeta. rewrite pq_loss_spec by (auto; discriminate).
  unfold penalty, log_joint, log_q, scaled_sum, latent_values, flat_log_prob, no_q, factor. simpl.
  match goal with |- context [exp ?x] => set (y := exp x); assert (0 < y) by apply exp_pos end.
  match goal with |- context [exp ?x] => set (y' := exp x); assert (0 < y') by apply exp_pos end.
  replace (y / (y + 0)) with 1 by (field; lra). replace (y' / (y' + 0)) with 1 by (field; lra). lra.
Qed.

(** The divergence does not see scale. *)
Lemma kl_scale : forall {V} (log_prob : params -> nat -> list (nat * V) -> V -> list R) latent reg kl kl_scaling own ds th scale scale',
  (forall d : params -> sample V, In d ds -> posed latent (d th)) ->
  (forall d x, In d ds -> In x (map fst (s_data (d th))) -> factor scale x = factor scale' x) ->
  reparam_kl_loss log_prob latent scale reg kl kl_scaling own ds th = reparam_kl_loss log_prob latent scale' reg kl kl_scaling own ds th.
Proof.
  intros V lp latent reg kl ks own ds th s s' Hp H. rewrite !reparam_kl_spec by auto. do 3 f_equal. f_equal. apply map_ext_in. intros d Hd.
  unfold log_lik, scaled_sum. apply sumR_map_ext. intros [x v] Hx. cbn [fst snd]. f_equal. apply (H d); auto. apply in_map_iff. exists (x, v). auto.
Qed.

(** The sleep phase multiplies every term by the scale of the last variable. *)
Definition prior_values : params -> sample R := fun _ => mksample (fun _ => 0) [] (fun _ => 1).
Definition unit_q (th : params) (q : nat) (e : nat -> R) (v : R) : list R := [v].
Lemma sleep_refuted : exists (q_log_prob : params -> nat -> (nat -> R) -> R -> list R) latent scale d th,
  posed latent (d th) /\
  wake_loss_q q_log_prob latent scale (fun _ => []) true [d] th th <>
    - sumR (map (fun zq => factor scale (fst zq) * sumR (q_log_prob th (snd zq)
        (fun k => match find (fun zq => Nat.eqb (snd zq) k) latent with Some zq => s_prior (d th) (fst zq) | None => s_q (d th) k end)
        (s_prior (d th) (fst zq)))) latent).
Proof.
  exists unit_q, [(0%nat, 2%nat); (1%nat, 3%nat)], [(0%nat, 2)], prior_values, (fun _ => 0).
  split. { split. { constructor; [simpl; lia|]. constructor; [simpl; tauto|constructor]. } split; [constructor|]. simpl. tauto. }
  unfold wake_loss_q, sleep_q, weighted, get_or_1, last_latent, reg_penalty, reduce_mean, factor, unit_q. simpl. lra.
Qed.

(** Metropolis-Hastings targets the joint density without scales. *)
Definition two_lp (k : nat) (d : list (nat * bool)) (v : bool) : ext := Fin (ln (if v then 3 / 4 else 1 / 4)).
Definition two_plp (k : nat) (d : list (nat * bool)) (v : bool) : ext := Fin (ln (1 / 2)).

Lemma mh_scale_refuted : exists (lp plp : nat -> list (nat * bool) -> bool -> ext) latent proposals z z',
  well_posed (V := bool) latent proposals [] /\ log_densities lp plp /\ length z = length latent /\ reachable latent proposals z z' /\ z <> z' /\
  (let target := fun w => joint (fun k d v => emul (Fin 2) (lp k d v)) latent [] w in
   let g := propose_density Bool.bool_dec plp latent proposals [] in
   forall a a', step_probability lp plp latent proposals [] z z' z' a -> step_probability lp plp latent proposals [] z' z z a' ->
     target z * g z z' * a <> target z' * g z' z * a').
Proof.
  exists two_lp, two_plp, [0%nat], [0%nat], [true], [false].
  assert (WF : @well_posed bool [0%nat] [0%nat] []).
  { assert (N : NoDup [0%nat]) by (constructor; [simpl; tauto|constructor]).
    split; auto. split; auto. split; [apply incl_refl|]. split; [constructor|]. simpl. tauto. }
  assert (LD : log_densities two_lp two_plp) by (split; intros; right; unfold two_lp, two_plp; eauto).
  assert (RR : forall a b : bool, reachable [0%nat] [0%nat] [a] [b]).
  { intros a b. split; auto. intros [|[|i]] k v A B C; inversion A; subst. simpl in C. tauto. }
  split; auto. split; auto. split; auto. split; auto. split; [discriminate|]. cbv zeta. intros a a' Ha Ha'.
  pose proof (step_prob Bool.bool_dec two_lp two_plp [0%nat] [0%nat] [] WF LD [true] [false] [false] eq_refl (RR _ _)) as P1.
  pose proof (step_prob Bool.bool_dec two_lp two_plp [0%nat] [0%nat] [] WF LD [false] [true] [true] eq_refl (RR _ _)) as P2.
  rewrite (step_prob_unique two_lp two_plp [0%nat] [0%nat] [] WF [true] [false] _ _ _ eq_refl ltac:(discriminate) Ha P1).
  rewrite (step_prob_unique two_lp two_plp [0%nat] [0%nat] [] WF [false] [true] _ _ _ eq_refl ltac:(discriminate) Ha' P2).
  assert (J : forall b : bool, joint two_lp [0%nat] [] [b] = if b then 3 / 4 else 1 / 4).
  { intros b. unfold joint. simpl. destruct b; rewrite exp_ln; lra. }
  assert (J2 : forall b : bool, joint (fun k d v => emul (Fin 2) (two_lp k d v)) [0%nat] [] [b] = if b then 9 / 16 else 1 / 16).
  { intros b. unfold joint. simpl. destruct b; match goal with |- context [exp (2 * ?x)] => replace (2 * x) with (x + x) by lra end; rewrite exp_plus, exp_ln; lra. }
  assert (G : forall a b : bool, propose_density Bool.bool_dec two_plp [0%nat] [0%nat] [] [a] [b] = 1 / 2).
  { intros x y. unfold propose_density. simpl. rewrite exp_ln by lra. lra. }
  rewrite !J2, !G. unfold leads. rewrite !J, !G. unfold accept_prob.
  destruct (Req_EM_T (3 / 4 * (1 / 2)) 0); [lra|]. destruct (Req_EM_T (1 / 4 * (1 / 2)) 0); [lra|].
  replace (1 / 4 * (1 / 2) / (3 / 4 * (1 / 2))) with (1 / 3) by field. replace (3 / 4 * (1 / 2) / (1 / 4 * (1 / 2))) with 3 by field.
  rewrite Rmin_right, Rmin_left by lra. simpl.
  repeat (destruct (list_eq_dec _ _ _); try congruence). lra.
Qed.
