(** * Properties C42 to C44, C58 and C59: optimizers, Laplace, adversarial training. *)
From Coq Require Import Reals Ascii String List Arith Bool Lia Lra Permutation.
From Verif Require Import Graph Transform Optim OptimSpec OptimProofs GAN GANSpec GANProofs GANLossProofs Laplace LaplaceSpec LaplaceProofs.
Import ListNotations.
Local Open Scope string_scope.

(** ** C42: optimizer selection *)

(** Every argument: what is built, with which schedule, and when each exception is
    raised.  The global step is the caller's unless both arguments are None. *)
Theorem C42_selection : forall fresh o g,
  match build_optimizer fresh o g with
  | inl (b, g') =>
      g' = (match o, g with OptNone, StepNone => StepVar fresh | _, _ => g end) /\
      ((exists x, o = OptObj x /\ b = Given x) \/
       exists c m r, b = New c r m /\ schedule g' r /\
         ((o = OptNone /\ c = Adam /\ m = None) \/ exists s, o = OptStr s /\ In (s, (c, m)) documented))
  | inr ValueError => exists s, o = OptStr s /\ ~ In s (map fst documented)
  | inr TypeError => o = OptOther
  end.
Proof. exact selection. Qed.
Print Assumptions C42_selection.

(** The default optimizer: update number k of any run uses the rate
    0.1 * 0.9 ^ (k / 100), counting from the global step's value (0 if the step was
    created here). *)
Theorem C42_default_rate : forall fresh g value n, g = StepNone /\ value fresh = 0%nat \/ (exists v, g = StepVar v) ->
  exists v r, build_optimizer fresh OptNone g = inl (New Adam r None, StepVar v) /\
    (g = StepNone -> value v = 0%nat) /\
    (forall k, (k < n)%nat -> nth_error (rates r (StepVar v) value n) k = Some (0.1 * 0.9 ^ ((value v + k) / 100))%R).
Proof. exact default_decays. Qed.
Print Assumptions C42_default_rate.

Theorem C42_rate_decays : forall k, (0 < 0.1 * 0.9 ^ (k / 100) /\ 0.1 * 0.9 ^ (S k / 100) <= 0.1 * 0.9 ^ (k / 100) /\
  0.1 * 0.9 ^ ((k + 100) / 100) = 0.9 * (0.1 * 0.9 ^ (k / 100)))%R.
Proof. exact decay_shape. Qed.
Print Assumptions C42_rate_decays.

Example C42_names : build_optimizer 7 (OptStr "momentum") StepNone = inl (New Momentum (Constant 0.01) (Some 0.9%R), StepNone).
Proof. reflexivity. Qed.
Example C42_unknown : build_optimizer 7 (OptStr "Adam") StepNone = inr ValueError /\ build_optimizer 7 OptOther (StepVar 1) = inr TypeError.
Proof. split; reflexivity. Qed.
Example C42_default_case : exists v r, build_optimizer 7 OptNone StepNone = inl (New Adam r None, StepVar v) /\
  nth_error (rates r (StepVar v) (fun _ => 0) 250) 210 = Some (0.1 * 0.9 ^ 2)%R.
Proof.
  destruct (C42_default_rate 7 StepNone (fun _ => 0) 250 (or_introl (conj eq_refl eq_refl))) as (v & r & E & _ & H).
  exists v, r. split; auto. apply (H 210). lia.
Qed.

(** ** C43: Laplace *)

(** False of the code for MultivariateNormalTriL ... *)
Theorem C43_tril_refuted : exists n h l m, cholesky_of n h l /\ inverse_of n l m /\
  ~ inverse_of n h (covariance n (laplace_scale TriLFamily h m)).
Proof. exact tril_wrong. Qed.
Print Assumptions C43_tril_refuted.

(** ... and, in one dimension already, for Normal and MultivariateNormalDiag. *)
Theorem C43_normal_refuted : exists h l m, cholesky_of 1 h l /\ inverse_of 1 l m /\
  forall f, f = NormalFamily \/ f = DiagFamily -> ~ inverse_of 1 h (covariance 1 (laplace_scale f h m)).
Proof. exact normal_wrong. Qed.
Print Assumptions C43_normal_refuted.

(** MultivariateNormalTriL: exactly for the diagonal Hessians.  Missing: the others. *)
Theorem C43_tril_partial : forall n h l m, cholesky_of n h l -> inverse_of n l m ->
  (inverse_of n h (covariance n (laplace_scale TriLFamily h m)) <-> diagonal n h).
Proof. exact tril_iff. Qed.
Print Assumptions C43_tril_partial.

(** What is stored there, and the inverse Hessian: M M^T instead of M^T M. *)
Theorem C43_tril_stored_partial : forall n h l m, cholesky_of n h l -> inverse_of n l m ->
  same n (covariance n (laplace_scale TriLFamily h m)) (mmul n m (transpose m)) /\ inverse_of n h (mmul n (transpose m) m).
Proof. exact tril_covariance. Qed.
Print Assumptions C43_tril_stored_partial.

(** Normal and MultivariateNormalDiag: exactly for the identity. *)
Theorem C43_normal_partial : forall n f h m, f = NormalFamily \/ f = DiagFamily -> (forall i, (i < n)%nat -> (0 < h i i)%R) ->
  (inverse_of n h (covariance n (laplace_scale f h m)) <-> diagonal n h /\ forall i, (i < n)%nat -> h i i = 1%R).
Proof. exact diag_iff. Qed.
Print Assumptions C43_normal_partial.

Example C43_met : cholesky_of 2 h2 l2 /\ inverse_of 2 l2 m2.
Proof. split; [exact h2_cholesky|exact l2_inverse]. Qed.

(** ** C44: the two sides of adversarial training *)

(** GANInference, WGANInference and ImplicitKLqp by default: each trainable variable
    is on exactly one side; those of the scope Disc are the discriminator's.
    Missing: "only those", see [C44_prefix_refuted]. *)
Theorem C44_sides_partial : forall trainable, NoDup (map fst trainable) ->
  let (gen, disc) := gan_var_lists trainable None in
  splits trainable gen disc /\
  (forall i name, In (i, name) trainable -> in_scope "Disc" name -> In i disc) /\
  ((forall i name, In (i, name) trainable -> prefix "Disc" name = true -> in_scope "Disc" name) ->
   forall i name, In (i, name) trainable -> In i disc -> in_scope "Disc" name) /\
  (forall i, In i gen \/ In i disc -> In i (map fst trainable)).
Proof. exact gan_sides. Qed.
Print Assumptions C44_sides_partial.

Theorem C44_regularisers : forall losses, splits losses (fst (gan_reg_terms losses)) (snd (gan_reg_terms losses)).
Proof. exact (fun losses => rest_splits losses "Disc"). Qed.
Print Assumptions C44_regularisers.

(** False of the code: a scope whose name starts with Disc is the discriminator's. *)
Theorem C44_prefix_refuted : exists trainable : list item, NoDup (map fst trainable) /\
  exists i name, In (i, name) trainable /\ ~ in_scope "Disc" name /\ In i (snd (gan_var_lists trainable None)).
Proof. exact scope_prefix. Qed.
Print Assumptions C44_prefix_refuted.

(** Inside an outer variable scope (whose name does not start with D) the
    discriminator's own variables are all given to the generator, and initialize
    raises. *)
Theorem C44_outer_scope_refuted : forall c outer created gen,
  c <> "D"%char -> (forall i name, In (i, name) gen -> prefix "Disc" name = false) ->
  let trainable := (gen ++ disc_created (String c outer) created)%list in
  gan_var_lists trainable None = (map fst trainable, []) /\ can_apply (gan_var_lists trainable None) = false.
Proof. exact outer_scope. Qed.
Print Assumptions C44_outer_scope_refuted.

(** False of BiGANInference: a variable in neither scope, although in the argument
    var_list, is on neither side. *)
Theorem C44_bigan_refuted : exists trainable : list item, exists var_list, NoDup (map fst trainable) /\ can_apply (bigan_var_lists trainable var_list) = true /\
  exists i, In i (map fst trainable) /\ (exists l, var_list = Some l /\ In i l) /\
    ~ In i (fst (bigan_var_lists trainable var_list)) /\ ~ In i (snd (bigan_var_lists trainable var_list)).
Proof. exact bigan_neither. Qed.
Print Assumptions C44_bigan_refuted.

(** BiGANInference when every variable is in one of the two scopes. *)
Theorem C44_bigan_partial : forall trainable var_list, NoDup (map fst trainable) ->
  (forall i name, In (i, name) trainable -> in_scope "Disc" name \/ in_scope "Gen" name) ->
  splits trainable (fst (bigan_var_lists trainable var_list)) (snd (bigan_var_lists trainable var_list)) /\
  forall i name, In (i, name) trainable -> (In i (snd (bigan_var_lists trainable var_list)) <-> in_scope "Disc" name).
Proof. exact bigan_sides. Qed.
Print Assumptions C44_bigan_partial.

Theorem C44_bigan_regularisers_partial : forall losses, NoDup (map fst losses) ->
  (forall i name, In (i, name) losses -> in_scope "Disc" name \/ in_scope "Gen" name) ->
  splits losses (fst (bigan_reg_terms losses)) (snd (bigan_reg_terms losses)) /\
  forall i name, In (i, name) losses -> (In i (snd (bigan_reg_terms losses)) <-> in_scope "Disc" name).
Proof. exact (fun losses => bigan_sides losses None). Qed.
Print Assumptions C44_bigan_regularisers_partial.

(** One update: what it may change, the iteration number, and invalid selectors. *)
Theorem C44_update : forall gen disc debug v r s,
  let s' := fst (gan_update (gen, disc) debug v r s) in
  (v = Some "Gen" -> g_slots_d s' = g_slots_d s /\ (forall w, ~ In w gen -> g_value s' w = g_value s w)) /\
  (v = Some "Disc" -> g_slots s' = g_slots s /\ (forall w, ~ In w disc -> g_value s' w = g_value s w)) /\
  (v = None -> forall w, ~ In w gen -> ~ In w disc -> g_value s' w = g_value s w) /\
  (accepted v -> g_t s' = S (g_t s) /\
     (snd (gan_update (gen, disc) debug v r s) = inl (S (g_t s)) \/ debug = true /\ snd (gan_update (gen, disc) debug v r s) = inr InvalidArgumentError)) /\
  (~ accepted v -> gan_update (gen, disc) debug v r s = (s, inr NotImplementedError)).
Proof. exact gan_update_touches. Qed.
Print Assumptions C44_update.

(** Any history of updates, failed ones included. *)
Theorem C44_history : forall gen disc debug h s,
  let s' := gan_run (gen, disc) debug h s in
  g_t s' = (g_t s + length (filter (fun u => accepted_b (fst u)) h))%nat /\
  ((forall u, In u h -> fst u <> None /\ fst u <> Some "Disc") -> g_slots_d s' = g_slots_d s /\ forall w, ~ In w gen -> g_value s' w = g_value s w) /\
  ((forall u, In u h -> fst u <> None /\ fst u <> Some "Gen") -> g_slots s' = g_slots s /\ forall w, ~ In w disc -> g_value s' w = g_value s w).
Proof. exact gan_history. Qed.
Print Assumptions C44_history.

(** False of the code with a var_list of the caller: update('Gen') then changes a
    variable of the discriminator. *)
Theorem C44_var_list_refuted : exists (trainable : list item) (l : list nat) (r : run_result) (s : gan_state) w,
  NoDup (map fst trainable) /\ incl l (map fst trainable) /\ In w (snd (gan_var_lists trainable (Some l))) /\
  g_value (fst (gan_update (gan_var_lists trainable (Some l)) false (Some "Gen") r s)) w <> g_value s w.
Proof. exact var_list_shared. Qed.
Print Assumptions C44_var_list_refuted.

(** WGAN clipping over any history [h1], an update of the discriminator that
    returns, and any history [h2] in which no update of the discriminator raises.
    Missing: see [C44_clip_refuted]. *)
Theorem C44_clip_partial : forall gen disc debug c h1 v r h2 s, (0 <= c)%R -> (forall w, In w gen -> ~ In w disc) ->
  touches_disc v -> (exists t, snd (wgan_update (gen, disc) debug (Some c) v r (wgan_run (gen, disc) debug (Some c) h1 s)) = inl t) ->
  (debug = false \/ forall u, In u h2 -> touches_disc (fst u) -> r_check_fails (snd u) = false) ->
  forall w, In w disc -> (- c <= g_value (wgan_run (gen, disc) debug (Some c) (h1 ++ (v, r) :: h2)%list s) w <= c)%R.
Proof. exact wgan_history. Qed.
Print Assumptions C44_clip_partial.

(** False of the code: in debug mode the check of numerics raises between training
    and clipping; the weights are then out of bounds, also after later updates of
    the generator that return. *)
Theorem C44_clip_refuted : exists trainable h s w t, exists c, (0 < c)%R /\ NoDup (map fst trainable) /\
  (let lists := gan_var_lists trainable None in
   In w (snd lists) /\ (exists r, In (Some "Disc", r) h) /\
   (exists h' v r, h = (h' ++ [(v, r)])%list /\ snd (wgan_update lists true (Some c) v r (wgan_run lists true (Some c) h' s)) = inl t) /\
   (- c <= g_value s w <= c)%R /\ (c < g_value (wgan_run lists true (Some c) h s) w)%R).
Proof. exact clip_skipped. Qed.
Print Assumptions C44_clip_refuted.

Example C44_met : gan_var_lists [(0, "Disc/w"); (1, "Gen/w"); (2, "Disc/b"); (3, "decoder/Disc")] None = ([1; 3], [0; 2]).
Proof. reflexivity. Qed.
Example C44_outer : gan_var_lists ([(0, "gen/w")] ++ disc_created "model/" [(1, "w")])%list None = ([0; 1], []).
Proof. reflexivity. Qed.

(** ** C58: the discriminator's loss *)

(** The stable formula is the cross entropy of the logistic probability. *)
Theorem C58_cross_entropy : forall z x,
  (cross_entropy z x = - (z * ln (/ (1 + exp (- x))) + (1 - z) * ln (1 - / (1 + exp (- x)))))%R.
Proof. exact cross_entropy_eq. Qed.
Print Assumptions C58_cross_entropy.

(** GANInference, and ImplicitKLqp with the log loss: over any two batches with the
    same points the loss is least, among all discriminators, exactly where the
    output is the log ratio of the frequencies. *)
Theorem C58_optimum : forall {A} (dec : forall a b : A, {a = b} + {a <> b}) (xs ys : list A) regs (d best : A -> R), xs <> [] -> length xs = length ys ->
  (forall x, In x xs <-> In x ys) ->
  (forall x, In x xs -> best x = ln (INR (count dec x xs) / INR (count dec x ys))) ->
  (gan_loss_d (map best xs) (map best ys) regs <= gan_loss_d (map d xs) (map d ys) regs)%R /\
  (gan_loss_d (map d xs) (map d ys) regs = gan_loss_d (map best xs) (map best ys) regs ->
   forall x, In x xs -> exp (d x) = (INR (count dec x xs) / INR (count dec x ys))%R).
Proof. exact @loss_optimum. Qed.
Print Assumptions C58_optimum.

(** BiGANInference: the same loss, with real and generated pairs exchanged for the
    generator. *)
Theorem C58_bigan : forall a b regs, length a = length b ->
  bigan_loss_d a b regs = gan_loss_d b a regs /\ bigan_loss a b regs = gan_loss_d a b regs.
Proof. exact bigan_swap. Qed.
Print Assumptions C58_bigan.

(** The generator of GANInference: minus the log probability of being taken for
    data, which decreases as the discriminator's outputs increase. *)
Theorem C58_generator : forall d_fake regs,
  (gan_loss d_fake regs = sumR (map (fun x => - ln (/ (1 + exp (- x)))) d_fake) / INR (length d_fake) + sumR regs)%R /\
  (d_fake <> [] -> forall better, Forall2 Rlt d_fake better -> (gan_loss better regs < gan_loss d_fake regs)%R).
Proof. exact generator_loss. Qed.
Print Assumptions C58_generator.

(** WGANInference: the critic gains by higher outputs for data and lower ones for
    what is generated, the generator by higher ones for what it generates, and
    the level does not matter; the penalty and the regularization are added. *)
Theorem C58_wgan : forall d_true d_fake penalty regs_d regs, d_true <> [] -> d_fake <> [] ->
  (forall more, Forall2 Rlt d_true more -> (wgan_loss_d more d_fake penalty regs_d < wgan_loss_d d_true d_fake penalty regs_d)%R) /\
  (forall more, Forall2 Rlt d_fake more -> (wgan_loss_d d_true d_fake penalty regs_d < wgan_loss_d d_true more penalty regs_d)%R /\
     (wgan_loss more regs < wgan_loss d_fake regs)%R) /\
  (forall c, wgan_loss_d (map (Rplus c) d_true) (map (Rplus c) d_fake) penalty regs_d = wgan_loss_d d_true d_fake penalty regs_d) /\
  (forall r, wgan_loss_d d_true d_fake penalty (r :: regs_d) = (wgan_loss_d d_true d_fake penalty regs_d + r)%R /\
     wgan_loss_d d_true d_fake (penalty + r) regs_d = (wgan_loss_d d_true d_fake penalty regs_d + r)%R /\
     wgan_loss d_fake (r :: regs) = (wgan_loss d_fake regs + r)%R).
Proof. exact wgan_losses. Qed.
Print Assumptions C58_wgan.

(** For critics with slope at most 1, minus the loss is at most the mean distance
    of the points in any pairing of the batches: a bound of the Wasserstein distance. *)
Theorem C58_wasserstein : forall {A} (dist : A -> A -> R) (critic : A -> R) xs ys pairing, (forall x y, (critic x - critic y <= dist x y)%R) ->
  xs <> [] -> length xs = length ys -> Permutation ys pairing ->
  (- (sumR (map (fun p => dist (fst p) (snd p)) (combine xs pairing)) / INR (length xs)) <= wgan_loss_d (map critic xs) (map critic ys) 0 [])%R.
Proof. exact @wasserstein_bound. Qed.
Print Assumptions C58_wasserstein.

(** The gradient penalty vanishes exactly if all slopes are 1. *)
Theorem C58_penalty : forall p slopes, (0 < p)%R -> slopes <> [] ->
  (wgan_penalty (Some p) slopes = p * (sumR (map (fun s => (s - 1) * (s - 1)) slopes) / INR (length slopes)))%R /\
  (0 <= wgan_penalty (Some p) slopes)%R /\
  (wgan_penalty (Some p) slopes = 0%R <-> Forall (fun s => s = 1%R) slopes) /\
  wgan_penalty None slopes = 0%R /\ wgan_penalty (Some 0%R) slopes = 0%R.
Proof. exact penalty_spec. Qed.
Print Assumptions C58_penalty.

(** The hinge loss of ImplicitKLqp. *)
Theorem C58_hinge : forall p q, (0 <= hinge_loss p q)%R /\ (hinge_loss p q = 0%R <-> (1 <= p)%R /\ (q <= -1)%R) /\
  ((p <= 1)%R -> (-1 <= q)%R -> hinge_loss p q = (2 - p + q)%R).
Proof. exact hinge_spec. Qed.
Print Assumptions C58_hinge.

(** The identity is a critic of slope 1 on the line; batches 0, 1 and 3, 5. *)
Example C58_met_wgan : (forall x y : R, (x - y <= Rabs (x - y))%R) /\
  wgan_loss_d [3; 5]%R [0; 1]%R 0 [] = (- (7 / 2))%R /\ wgan_penalty (Some 10%R) [1; 2]%R = 5%R.
Proof.
  split; [intros; apply Rle_abs|]. split; [unfold wgan_loss_d, reduce_mean; simpl; lra|].
  destruct (C58_penalty 10 [1; 2]%R) as [E _]; [lra|discriminate|]. rewrite E. simpl. lra.
Qed.

Example C58_met : let xs := [0; 0; 0; 1] in let ys := [0; 1; 1; 1] in
  length xs = length ys /\ (forall x, In x xs <-> In x ys) /\ count Nat.eq_dec 0 xs = 3 /\ count Nat.eq_dec 0 ys = 1.
Proof. cbv zeta. split; [reflexivity|]. split; [simpl; tauto|]. split; reflexivity. Qed.

(** ** C59: the samples of ImplicitKLqp *)

(** False of the code: what is shown as drawn from the model is not a joint draw, its
    data are generated from the approximation's draws of the local variables. *)
Theorem C59_joint_refuted : exists (locals data : list (nat * ((draws nat -> nat) * nat))),
  let '((xs, zs, bs), _) := implicit_samples [] locals data in ~ joint_draw bs locals data xs zs.
Proof. exact implicit_not_joint. Qed.
Print Assumptions C59_joint_refuted.

(** The rest: the second call gets the data and the approximation's draws, the first
    one prior draws of the local variables, and they are a joint draw exactly if no
    datum depends on which draws of the local variables are used.  Missing: data
    generated from the prior draws. *)
Theorem C59_samples_partial : forall {V} globals (locals data : list (nat * ((draws V -> V) * V))),
  let '((xs, zs, bs), (xs', zs', bs')) := implicit_samples globals locals data in
  bs = globals /\ bs' = globals /\ (forall x d v, In (x, (d, v)) data -> In (x, v) xs') /\ (forall z d v, In (z, (d, v)) locals -> In (z, v) zs') /\
  zs = map (fun z => (fst z, fst (snd z) globals)) locals /\
  (joint_draw bs locals data xs zs <-> forall x, In x data -> fst (snd x) (globals ++ zs')%list = fst (snd x) (globals ++ zs)%list).
Proof. exact @implicit_other. Qed.
Print Assumptions C59_samples_partial.
