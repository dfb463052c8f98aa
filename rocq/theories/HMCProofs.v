From Coquelicot Require Import Coquelicot.
From Coq Require Import Reals List Arith Bool Lia Lra.
From Verif Require Import Ext Feed FeedProofs MonteCarlo Transform MHSpec ExtProofs MHProofs HMC HMCSpec.
Import ListNotations.
Local Open Scope R_scope.

(** ** Vectors *)
Lemma vadd_length : forall a b : tensor, length a = length b -> length (vadd a b) = length a.
Proof. intros a b H. unfold vadd. rewrite map_length, combine_length. lia. Qed.
Lemma vscal_length : forall c a, length (vscal c a) = length a.
Proof. intros. unfold vscal. apply map_length. Qed.
Lemma vkick_back : forall a b : tensor, length a = length b -> vadd (map Ropp (vadd a b)) b = map Ropp a.
Proof.
  unfold vadd. induction a as [|x a IH]; intros [|y b] H; simpl in *; try lia; auto.
  f_equal; [lra|]. apply IH. lia.
Qed.
Lemma vdrift_back : forall e (a r : tensor), length a = length r -> vadd (vadd a (vscal e r)) (vscal e (map Ropp r)) = a.
Proof.
  unfold vadd, vscal. induction a as [|x a IH]; intros [|y b] H; simpl in *; try lia; auto.
  f_equal; [lra|]. apply IH. lia.
Qed.

(** ** Lists of tensors *)
Lemma shape_sym : forall a b, same_shape a b -> same_shape b a.
Proof. unfold same_shape. induction 1; constructor; auto. Qed.
Lemma shape_trans : forall a b c, same_shape a b -> same_shape b c -> same_shape a c.
Proof. unfold same_shape. intros a b c H. revert c. induction H; intros c Hc; inversion Hc; subst; constructor; auto. congruence. Qed.
Lemma shape_refl : forall a, same_shape a a.
Proof. unfold same_shape. induction a; constructor; auto. Qed.
Lemma shape_flip : forall a, same_shape a (flip a).
Proof. unfold same_shape, flip. induction a; simpl; constructor; auto. rewrite map_length; auto. Qed.
Lemma shape_scal : forall c a, same_shape a (map (vscal c) a).
Proof. unfold same_shape. induction a; simpl; constructor; auto. rewrite vscal_length; auto. Qed.
Lemma shape_translate : forall a b, same_shape a b -> same_shape a (translate a b).
Proof.
  unfold same_shape, translate. induction 1; simpl; constructor; auto. rewrite map_length, combine_length. lia.
Qed.

Lemma kick_translate : forall e r g, kick e r g = translate r (map (vscal (/ 2 * e)) g).
Proof. unfold translate. induction r as [|x r IH]; intros [|y g]; simpl; auto. rewrite IH. auto. Qed.

Lemma kick_drift_translate : forall e z r g, same_shape z r -> same_shape z g ->
  kick_drift e z r g = (translate z (map (vscal e) (translate r (map (vscal (/ 2 * e)) g))),
                        translate r (map (vscal (/ 2 * e)) g)).
Proof.
  unfold same_shape, translate. intros e z r g H. revert g. induction H; intros g Hg; inversion Hg; subst; simpl; auto.
  rewrite IHForall2 by auto. auto.
Qed.

Lemma kick_back : forall r k, same_shape r k -> translate (flip (translate r k)) k = flip r.
Proof.
  unfold same_shape, translate, flip. induction 1; simpl; auto. rewrite IHForall2. change (vadd (map Ropp (vadd x y)) y :: map (map Ropp) l = map Ropp x :: map (map Ropp) l). rewrite vkick_back; auto.
Qed.
Lemma drift_back : forall e z r, same_shape z r -> translate (translate z (map (vscal e) r)) (map (vscal e) (flip r)) = z.
Proof.
  unfold same_shape, translate, flip. induction 1; simpl; auto. rewrite IHForall2. change (vadd (vadd x (vscal e y)) (vscal e (map Ropp y)) :: l = x :: l). rewrite vdrift_back; auto.
Qed.
Lemma flip_flip : forall r, flip (flip r) = r.
Proof.
  unfold flip. intros r. rewrite map_map. rewrite <- (map_id r) at 2. apply map_ext. intros v. rewrite map_map.
  rewrite <- (map_id v) at 2. apply map_ext. intros; lra.
Qed.

Section Leap.
Variable grad : list tensor -> list tensor.
Variable e : R.
Variable s0 : list tensor.
Notation shape := (same_shape s0).
Hypothesis Hgrad : forall z, shape z -> shape (grad z).

(** One step as a map of phase space. *)
Definition half (p : list tensor * list tensor) := (fst p, translate (snd p) (map (vscal (/ 2 * e)) (grad (fst p)))).
Definition drift (p : list tensor * list tensor) := (translate (fst p) (map (vscal e) (snd p)), snd p).
Definition step (p : list tensor * list tensor) := half (drift (half p)).

Lemma half_shape : forall z r, shape z -> shape r -> shape (fst (half (z, r))) /\ shape (snd (half (z, r))).
Proof.
  intros z r Hz Hr. unfold half. simpl. split; auto. eapply shape_trans; [apply Hr|]. apply shape_translate.
  eapply shape_trans; [apply shape_sym, Hr|]. eapply shape_trans; [|apply shape_scal]. auto.
Qed.
Lemma drift_shape : forall z r, shape z -> shape r -> shape (fst (drift (z, r))) /\ shape (snd (drift (z, r))).
Proof.
  intros z r Hz Hr. unfold drift. simpl. split; auto. eapply shape_trans; [apply Hz|]. apply shape_translate.
  eapply shape_trans; [apply shape_sym, Hz|]. eapply shape_trans; [apply Hr|]. apply shape_scal.
Qed.
Lemma step_shape : forall p, shape (fst p) -> shape (snd p) -> shape (fst (step p)) /\ shape (snd (step p)).
Proof.
  intros [z r] Hz Hr. unfold step. simpl in Hz, Hr. destruct (half_shape z r Hz Hr) as [A B].
  destruct (half (z, r)) as [z1 r1]. destruct (drift_shape z1 r1 A B) as [C D].
  destruct (drift (z1, r1)) as [z2 r2]. apply half_shape; auto.
Qed.

Lemma leap_step : forall n z r, shape z -> shape r ->
  leap grad e n z r (grad z) = Nat.iter n step (z, r).
Proof.
  assert (H1 : forall z r, shape z -> shape r -> forall n, leap grad e (S n) z r (grad z) =
     (let p := step (z, r) in leap grad e n (fst p) (snd p) (grad (fst p)))).
  { intros z r Hz Hr n. cbn [leap]. rewrite kick_drift_translate.
    - unfold step, half, drift. cbn [fst snd]. rewrite kick_translate. reflexivity.
    - eapply shape_trans; [apply shape_sym, Hz|auto].
    - eapply shape_trans; [apply shape_sym, Hz|auto]. }
  induction n as [|n IH]; intros z r Hz Hr; auto.
  rewrite H1 by auto. cbv zeta. destruct (step_shape (z, r) Hz Hr) as [A B]. rewrite IH by auto.
  rewrite <- surjective_pairing. replace (S n) with (n + 1)%nat by lia.
  clear. induction n; simpl in *; auto. rewrite IHn. auto.
Qed.

Lemma leapfrog_iter : forall n z r, shape z -> shape r -> leapfrog grad e n z r = Nat.iter n step (z, r).
Proof. intros. apply leap_step; auto. Qed.

Definition mirror (p : list tensor * list tensor) := (fst p, flip (snd p)).

Lemma step_reverse : forall p, shape (fst p) -> shape (snd p) -> step (mirror (step p)) = mirror p.
Proof.
  intros [z r] Hz Hr. simpl in *. destruct (half_shape z r Hz Hr) as [Ha Hb].
  unfold step. destruct (half (z, r)) as [z1 r1] eqn:E1. simpl in Ha, Hb.
  destruct (drift_shape z1 r1 Ha Hb) as [Hc Hd]. destruct (drift (z1, r1)) as [z2 r2] eqn:E2. simpl in Hc, Hd.
  assert (G : same_shape r2 (map (vscal (/ 2 * e)) (grad z2))).
  { eapply shape_trans; [apply shape_sym, Hd|]. eapply shape_trans; [|apply shape_scal]. auto. }
  assert (G' : same_shape r (map (vscal (/ 2 * e)) (grad z))).
  { eapply shape_trans; [apply shape_sym, Hr|]. eapply shape_trans; [|apply shape_scal]. auto. }
  unfold half at 3, mirror at 1. cbn [fst snd]. unfold half at 2. cbn [fst snd]. rewrite kick_back by auto.
  unfold drift in *. cbn [fst snd] in *. inversion E2; subst z2 r2. rewrite drift_back.
  - unfold half in *. cbn [fst snd] in *. inversion E1; subst z1 r1. rewrite kick_back by auto. auto.
  - eapply shape_trans; [apply shape_sym, Ha|auto].
Qed.

Lemma iter_shape : forall n p, shape (fst p) -> shape (snd p) -> shape (fst (Nat.iter n step p)) /\ shape (snd (Nat.iter n step p)).
Proof. induction n; intros p A B; simpl; auto. apply step_shape; apply IHn; auto. Qed.

Lemma iter_comm : forall n p, Nat.iter n step (step p) = step (Nat.iter n step p).
Proof. induction n; intros; simpl; auto. rewrite IHn; auto. Qed.

Lemma iter_reverse : forall n p, shape (fst p) -> shape (snd p) -> Nat.iter n step (mirror (Nat.iter n step p)) = mirror p.
Proof.
  induction n as [|n IH]; intros p A B; auto.
  destruct (step_shape p A B) as [C D]. specialize (IH (step p) C D).
  replace (Nat.iter (S n) step p) with (Nat.iter n step (step p)) by apply iter_comm.
  change (step (Nat.iter n step (mirror (Nat.iter n step (step p)))) = mirror p). rewrite IH. apply step_reverse; auto.
Qed.

Lemma reversible : forall n z r z' r', shape z -> shape r -> leapfrog grad e n z r = (z', r') ->
  shape z' /\ shape r' /\ leapfrog grad e n z' (flip r') = (z, flip r).
Proof.
  intros n z r z' r' Hz Hr E. rewrite leapfrog_iter in E by auto.
  destruct (iter_shape n (z, r)) as [A B]; auto. rewrite E in A, B. simpl in A, B. split; auto. split; auto.
  rewrite leapfrog_iter; auto. 2:{ eapply shape_trans; [apply B|apply shape_flip]. }
  pose proof (iter_reverse n (z, r) Hz Hr) as H. rewrite E in H. exact H.
Qed.

Lemma volume : forall n, volume_preserving shape (fun p => leapfrog grad e n (fst p) (snd p)).
Proof.
  assert (Hg : forall z, shape z -> shape (map (vscal (/ 2 * e)) (grad z))).
  { intros z Hz. eapply shape_trans; [|apply shape_scal]. auto. }
  assert (Hd : forall r, shape r -> shape (map (vscal e) r)).
  { intros r Hr. eapply shape_trans; [|apply shape_scal]. auto. }
  assert (H : forall n, volume_preserving shape (Nat.iter n step)).
  { induction n as [|n IH]; [apply vp_id; auto|].
    apply (vp_comp shape _ half (fun p => Nat.iter n step (half (drift p)))); [exact (shear_r shape _ Hg)| |].
    - apply (vp_comp shape _ drift (fun p => Nat.iter n step (half p))); [exact (shear_z shape _ Hd)| |auto].
      apply (vp_comp shape _ half (Nat.iter n step)); [exact (shear_r shape _ Hg)|auto|auto].
    - intros z r Hz Hr. symmetry. apply (iter_comm n (z, r)). }
  assert (Hext : forall f g, volume_preserving shape g -> (forall z r, shape z -> shape r -> f (z, r) = g (z, r)) -> volume_preserving shape f).
  { intros f g Hv. inversion Hv; subst; intros E.
    - apply vp_id. intros. rewrite E; auto.
    - eapply vp_comp; eauto. intros. rewrite E; auto. }
  intros n. apply (Hext _ _ (H n)). intros z r Hz Hr. apply leapfrog_iter; auto.
Qed.
End Leap.

(** ** The target *)
Section Target.
Variable log_prob : nat -> list (nat * tensor) -> tensor -> ext.
Variable latent : list (nat * option bij).
Variable data : list (nat * tensor).

Hypothesis WF : hmc_posed log_prob latent data.

Notation env zs := (combine (map fst latent) zs ++ data).

Lemma log_joint_eval : forall zs, length zs = length latent ->
  exists s, log_joint log_prob latent data zs = Some s /\ ratio_of (density_at log_prob latent data zs) 1 s.
Proof.
  intros zs Hl. destruct WF as (H1 & H2 & H3 & H4). unfold log_joint.
  assert (Hk : map fst (combine (map fst latent) zs) = map fst latent) by (apply fst_combine; rewrite map_length; auto).
  rewrite update_app; auto. 2:{ intros k Hk' Hin. rewrite Hk in Hin. apply (H3 k); auto. }
  set (e := env zs).
  assert (Hget : forall k v, In (k, v) (combine (map fst latent) zs) -> dict_get e k = Some v).
  { intros k v Hin. unfold e. rewrite get_app. rewrite (get_in _ k v); auto. rewrite Hk; auto. }
  assert (Hget' : forall k v, In (k, v) data -> dict_get e k = Some v).
  { intros k v Hin. unfold e. rewrite get_app. rewrite get_none.
    - apply get_in; auto.
    - rewrite Hk. intros H. apply (H3 k H). change k with (fst (k, v)). apply in_map; auto. }
  assert (F1 : forall (l : list (nat * tensor)) s P, incl l (combine (map fst latent) zs) -> ratio_of P 1 s ->
    exists s', fold_left (fun acc z => match acc with None => None | Some s =>
      match dict_get e z with Some v => Some (eadd s (log_prob z e v)) | None => None end end) (map fst l) (Some s) = Some s' /\
      ratio_of (P * product (map (fun kv => density (log_prob (fst kv) e (snd kv))) l)) 1 s').
  { induction l as [|[k v] l IH]; intros s P Hi Hr.
    - exists s. simpl. rewrite Rmult_1_r. auto.
    - cbn [map fold_left fst snd]. rewrite (Hget k v) by (apply Hi; simpl; auto).
      destruct (IH (eadd s (log_prob k e v)) (P * density (log_prob k e v))) as (s' & A & B).
      + intros x Hx. apply Hi. simpl; auto.
      + apply ratio_add; auto.
      + exists s'. split; auto. cbn [product fold_right]. rewrite <- Rmult_assoc. auto. }
  destruct (F1 (combine (map fst latent) zs) (Fin 0) 1 (incl_refl _) ratio_of_0) as (s1 & E1 & R1).
  rewrite Hk in E1.
  match goal with |- context [fold_left ?f (map fst latent) (Some (Fin 0))] =>
    replace (fold_left f (map fst latent) (Some (Fin 0))) with (Some s1) by (symmetry; exact E1) end.
  eexists. split; [reflexivity|].
  assert (F2 : forall (l : list (nat * tensor)) s P, incl l data -> ratio_of P 1 s ->
    ratio_of (P * product (map (fun kv => density (log_prob (fst kv) e (snd kv))) l)) 1
     (fold_left (fun acc xv => match dict_get e (fst xv) with
      | Some v => eadd acc (log_prob (fst xv) e v) | None => acc end) l s)).
  { induction l as [|[k v] l IH]; intros s P Hi Hr.
    - simpl. rewrite Rmult_1_r. auto.
    - cbn [map fold_left fst snd]. rewrite (Hget' k v) by (apply Hi; simpl; auto).
      cbn [product fold_right]. rewrite <- Rmult_assoc. apply IH.
      + intros x Hx. apply Hi. simpl; auto.
      + apply ratio_add; auto. }
  pose proof (F2 data s1 _ (incl_refl _) R1) as R2. unfold density_at. fold e. rewrite Rmult_1_l in R2. exact R2.
Qed.

Lemma back_transform_spec : forall l (z : list tensor), length z = length l ->
  back_transform l z = (map (fun p => match snd (fst p) with Some b => inv b (snd p) | None => snd p end) (combine l z),
    snd (back_transform l z)) /\
  exp (snd (back_transform l z)) =
    product (map (fun p => match snd (fst p) with Some b => exp (sumR (ildj b (snd p))) | None => 1 end) (combine l z)).
Proof.
  induction l as [|[k b] l IH]; intros [|v z] H; simpl in *; try lia.
  - split; auto. apply exp_0.
  - destruct (IH z) as [A B]; [lia|]. destruct (back_transform l z) as [zs j]. simpl in *. inversion A; subst.
    destruct b as [b|]; simpl; split; auto.
    + rewrite exp_plus, B. auto. + rewrite B. lra.
Qed.

Lemma target_eval : forall u, length u = length latent ->
  exists s, log_joint_unconstrained log_prob latent data u = Some s /\ ratio_of (target log_prob latent data u) 1 s /\
    is_log_density s.
Proof.
  intros u Hl. unfold log_joint_unconstrained. destruct (back_transform_spec latent u Hl) as [A B]. rewrite A.
  destruct (log_joint_eval (constrain latent u)) as (s & E & R).
  { unfold constrain. rewrite map_length, combine_length. lia. }
  unfold constrain in E. rewrite E. eexists. split; [reflexivity|].
  assert (R' : ratio_of (target log_prob latent data u) 1 (eadd s (Fin (snd (back_transform latent u))))).
  { unfold target, volume_factor. rewrite <- B.
    apply (ratio_add _ _ _ (Fin (snd (back_transform latent u))) R). right; eauto. }
  split; auto. destruct R' as (P0 & _ & P1 & P2 & _). destruct P0 as [P0|P0].
  - right. destruct (P1 P0 ltac:(lra)) as (r & -> & _). eauto.
  - left. apply P2; auto. lra.
Qed.

Variable grad : list (nat * tensor) -> list tensor -> list tensor.
Variable e : R.
Variable n : nat.
Variable s0 : list tensor.
Notation shape := (same_shape s0).
Hypothesis Hs0 : length s0 = length latent.
Hypothesis Hgrad : forall z, shape z -> shape (grad data z).

Notation sample := (hmc_sample log_prob latent grad e n).
Notation phase := (phase_density log_prob latent data).

Lemma shape_length : forall z, shape z -> length z = length latent.
Proof. intros z H. rewrite <- Hs0. symmetry. unfold same_shape in H. clear - H. induction H; simpl; auto. Qed.

Lemma kinetic_half : forall r, kinetic r = sumR (map (fun v => sumR (map (fun x => x * x / 2) v)) r).
Proof.
  intros r. unfold kinetic. f_equal. apply map_ext. intros v. induction v; simpl; [lra|]. rewrite <- IHv. lra.
Qed.
Lemma kinetic_flip : forall r, kinetic (flip r) = kinetic r.
Proof.
  intros r. unfold kinetic, flip. rewrite map_map. f_equal. apply map_ext. intros v. rewrite map_map. do 2 f_equal.
  apply map_ext. intros; lra.
Qed.

Lemma density_ratio : forall s P, ratio_of P 1 s -> is_log_density s -> density s = P.
Proof.
  intros s P (P0 & _ & P1 & P2 & _) [->|(r & ->)].
  - destruct P0 as [P0|P0]; auto. destruct (P1 P0 ltac:(lra)) as (r & A & _). discriminate.
  - simpl. destruct P0 as [P0|P0].
    + destruct (P1 P0 ltac:(lra)) as (r' & A & B). inversion A; subst. lra.
    + specialize (P2 (eq_sym P0) ltac:(lra)). discriminate.
Qed.

Lemma hmc_eval : forall z r u, shape z -> shape r ->
  let z' := fst (leapfrog (grad data) e n z r) in
  let r' := snd (leapfrog (grad data) e n z r) in
  exists s, ratio_of (phase z' r') (phase z r) s /\
    sample z (mkhmc data r u) = Some (if eltb (elog (Fin u)) s then z' else z, eltb (elog (Fin u)) s).
Proof.
  intros z r u Hz Hr z' r'. unfold hmc_sample. cbn [h_data h_momenta h_u].
  destruct (leapfrog (grad data) e n z r) as [z1 r1] eqn:E. simpl in z', r'. subst z' r'.
  destruct (reversible (grad data) e s0 Hgrad n z r z1 r1 Hz Hr E) as (Hz1 & Hr1 & _).
  destruct (target_eval z (shape_length _ Hz)) as (l & -> & Rl & Ll).
  destruct (target_eval z1 (shape_length _ Hz1)) as (l1 & -> & Rl1 & Ll1).
  eexists. split; [|reflexivity].
  assert (R0 : ratio_of (exp (- kinetic r1)) (exp (- kinetic r)) (Fin (kinetic r - kinetic r1))).
  { pose proof (exp_pos (- kinetic r1)). pose proof (exp_pos (- kinetic r)). unfold ratio_of.
    repeat split; try lra. intros _ _. exists (kinetic r - kinetic r1). split; auto. rewrite <- exp_plus. f_equal. lra. }
  pose proof (ratio_sub _ _ _ _ (ratio_add _ _ _ _ R0 Ll1) Ll) as R1.
  rewrite (density_ratio _ _ Rl Ll), (density_ratio _ _ Rl1 Ll1) in R1.
  unfold phase_density. rewrite <- !kinetic_half. rewrite (Rmult_comm (target _ _ _ z1)), (Rmult_comm (target _ _ _ z)). exact R1.
Qed.

Lemma hmc_move : forall z r, shape z -> shape r ->
  let z' := fst (leapfrog (grad data) e n z r) in
  let r' := snd (leapfrog (grad data) e n z r) in
  move_probability log_prob latent data grad e n z r (accept_prob (phase z' r') (phase z r)).
Proof.
  intros z r Hz Hr z' r'. unfold move_probability.
  exists (fun u => if Rlt_dec u (accept_prob (phase z' r') (phase z r)) then 1 else 0).
  destruct (hmc_eval z r 0 Hz Hr) as (s0' & R0 & _). split.
  { apply indicator_RInt, accept_prob_range; apply R0. }
  intros u Hu. cbv zeta. destruct (hmc_eval z r u Hz Hr) as (s & R & E). fold z' r' in R, E. fold z'.
  destruct (Rlt_dec u (accept_prob (phase z' r') (phase z r))) as [H|H].
  - left. split; auto. apply (accept_iff _ _ _ _ R Hu) in H. rewrite H in E. exact E.
  - right. split; auto. destruct (eltb (elog (Fin u)) s) eqn:Es.
    + exfalso. apply H. apply (accept_iff _ _ _ _ R Hu). auto.
    + exact E.
Qed.

Lemma move_unique : forall z r p q, move_probability log_prob latent data grad e n z r p -> move_probability log_prob latent data grad e n z r q -> p = q.
Proof.
  intros z r p q (f & If & Hf) (h & Ih & Hh). apply (RInt_01_unique f h); auto. intros u Hu.
  destruct (Hf u Hu) as [[-> A]|[-> A]]; destruct (Hh u Hu) as [[-> B]|[-> B]]; auto;
    rewrite A in B; inversion B.
Qed.

Lemma hmc_balance : forall z r z' r' , shape z -> shape r -> leapfrog (grad data) e n z r = (z', r') ->
  exists a a', move_probability log_prob latent data grad e n z r a /\
    move_probability log_prob latent data grad e n z' (flip r') a' /\
    leapfrog (grad data) e n z' (flip r') = (z, flip r) /\
    phase z r * a = phase z' (flip r') * a'.
Proof.
  intros z r z' r' Hz Hr E. destruct (reversible (grad data) e s0 Hgrad n z r z' r' Hz Hr E) as (Hz' & Hr' & E').
  assert (Hf : shape (flip r')) by (eapply shape_trans; [apply Hr'|apply shape_flip]).
  pose proof (hmc_move z r Hz Hr) as M. pose proof (hmc_move z' (flip r') Hz' Hf) as M'.
  rewrite E in M. rewrite E' in M'. simpl in M, M'.
  eexists. eexists. split; [exact M|]. split; [exact M'|]. split; auto.
  assert (Hflip : forall z r, phase z (flip r) = phase z r).
  { intros z0 r0. unfold phase_density. rewrite <- !kinetic_half, kinetic_flip. auto. }
  rewrite !Hflip. destruct (hmc_eval z r 0 Hz Hr) as (s & (R1 & R2 & _) & _). rewrite E in R1. simpl in R1.
  apply accept_balance; auto.
Qed.
End Target.
