(** * C76: one iteration gives the same result in whatever order TensorFlow runs its
    operations. *)
From Coq Require Import List Arith Bool ZArith Lia.
From Verif Require Import Schedule ScheduleSpec ScheduleProofs ScheduleSamplerProofs ScheduleRatioProofs ScheduleExampleProofs.
Import ListNotations.

(** A graph whose conflicting operations are ordered by it has one outcome: all orders
    return the same and leave the same variables. *)
Theorem C76_determined : forall I V (I_eq : forall i j : I, {i = j} + {i <> j}) (g : sgraph I V) m l1 l2 s1 s2,
  race_free g -> run I_eq g (start m) l1 = Some s1 -> complete g s1 -> run I_eq g (start m) l2 = Some s2 -> complete g s2 -> s1 = s2.
Proof. exact (fun I V I_eq g m l1 l2 s1 s2 RF R1 C1 R2 C2 => determined I_eq g RF l1 l2 (start m) s1 s2 (start_sound g m) R1 C1 R2 C2). Qed.
Print Assumptions C76_determined.

(** One iteration of Metropolis-Hastings, HMC, SGLD (Gathers) or Gibbs (Feeds), with any
    number of latent variables: in every order, each sample is what it is if no variable
    changes, and goes to row t; n_accept grows by the acceptance; nothing else changes. *)
Theorem C76_sampler : forall V (p : sampler V) st rate zs m l s, st <> Velocities -> plain_body p zs ->
  let g := sampler_graph p st rate false zs in
  run sop_eq g (start m) l = Some s -> complete g s ->
  (forall z, In z zs -> exists v, snapshot g m (OpSample z) v /\ s_mem s (v_params z) = sp_scatter p (m (v_params z)) [m v_t; v]) /\
  (exists vs, snapshots g m (sp_accept_in p) vs /\ s_mem s v_accept = sp_add p (m v_accept) vs) /\
  (forall x, x <> v_accept -> (forall z, In z zs -> x <> v_params z) -> s_mem s x = m x).
Proof. exact @sampler_any_order. Qed.
Print Assumptions C76_sampler.

(** So any two orders leave the same, and if the acceptance rate is not fetched they
    return the same. *)
Theorem C76_sampler_same : forall V (p : sampler V) st rate zs m l1 l2 s1 s2, st <> Velocities -> plain_body p zs ->
  let g := sampler_graph p st rate false zs in
  run sop_eq g (start m) l1 = Some s1 -> complete g s1 -> run sop_eq g (start m) l2 = Some s2 -> complete g s2 ->
  (forall x, s_mem s1 x = s_mem s2 x) /\ (rate = false -> forall o, s_out s1 o = s_out s2 o).
Proof. exact @sampler_same. Qed.
Print Assumptions C76_sampler_same.

Example C76_sampler_demo : plain_body demo [0] /\
  (let g := sampler_graph demo Gathers true false [0] in
   run sop_eq g (start demo_m) order_a = Some (at_end g order_a) /\ complete g (at_end g order_a) /\
   run sop_eq g (start demo_m) order_b = Some (at_end g order_b) /\ complete g (at_end g order_b) /\
   s_mem (at_end g order_a) (v_params 0) = [5; 6] /\ s_mem (at_end g order_b) (v_params 0) = [5; 6]).
Proof.
  split; [exact demo_plain|]. exact (conj (proj1 demo_a) (conj (proj2 demo_a) (conj (proj1 demo_b) (conj (proj2 demo_b) (conj eq_refl eq_refl))))).
Qed.

(** The acceptance rate that update() returns is not determined: n_accept may be read
    before or after it grows. *)
Theorem C76_rate_refuted : exists (p : sampler (list nat)) zs m l1 l2 s1 s2, plain_body p zs /\
  let g := sampler_graph p Gathers true false zs in
  run sop_eq g (start m) l1 = Some s1 /\ complete g s1 /\ run sop_eq g (start m) l2 = Some s2 /\ complete g s2 /\
  s_out s1 OpRate <> s_out s2 OpRate.
Proof. exact rate_refuted. Qed.
Print Assumptions C76_rate_refuted.

(** SGHMC: the sample is not determined, since the velocity may be read before or after
    it is assigned. *)
Theorem C76_sghmc_refuted : exists (p : sampler (list nat)) zs m l1 l2 s1 s2, plain_body p zs /\ (forall z, plain_in (sp_new_velocity_in p z)) /\
  let g := sampler_graph p Velocities false false zs in
  run sop_eq g (start m) l1 = Some s1 /\ complete g s1 /\ run sop_eq g (start m) l2 = Some s2 /\ complete g s2 /\
  s_mem s1 (v_params 0) = [5; 8] /\ s_mem s2 (v_params 0) = [5; 9].
Proof. exact sghmc_refuted. Qed.
Print Assumptions C76_sghmc_refuted.

(** The velocities and n_accept are determined.  Missing, and false by
    [C76_sghmc_refuted]: the samples. *)
Theorem C76_sghmc_partial : forall V (p : sampler V) rate zs m l s, plain_body p zs -> (forall z, plain_in (sp_new_velocity_in p z)) ->
  let g := sampler_graph p Velocities rate false zs in
  run sop_eq g (start m) l = Some s -> complete g s ->
  (forall z, In z zs -> exists v, snapshot g m (OpNewVelocity z) v /\ s_mem s (v_velocity z) = v) /\
  (exists vs, snapshots g m (sp_accept_in p) vs /\ s_mem s v_accept = sp_add p (m v_accept) vs).
Proof. exact @velocities_any_order. Qed.
Print Assumptions C76_sghmc_partial.

Example C76_sghmc_demo : (let g := sampler_graph demo_velocities Velocities false false [0] in
  run sop_eq g (start demo_m) order_c = Some (at_end g order_c) /\ s_mem (at_end g order_c) (v_velocity 0) = [4] /\
  run sop_eq g (start demo_m) order_d = Some (at_end g order_d) /\ s_mem (at_end g order_d) (v_velocity 0) = [4]).
Proof. cbv zeta. split; [ends_tac|]. split; [vm_compute; reflexivity|]. split; [ends_tac|]. vm_compute; reflexivity. Qed.

(** Why update() runs increment_t apart from train: in one run, the sample could go to
    the next row. *)
Theorem C76_increment_apart : exists (p : sampler (list nat)) zs m l1 l2 s1 s2, plain_body p zs /\
  let g := sampler_graph p Gathers false true zs in
  run sop_eq g (start m) l1 = Some s1 /\ complete g s1 /\ run sop_eq g (start m) l2 = Some s2 /\ complete g s2 /\
  s_mem s1 (v_params 0) = [5; 6; 0] /\ s_mem s2 (v_params 0) = [5; 0; 6].
Proof. exact together_refuted. Qed.
Print Assumptions C76_increment_apart.

(** Replica exchange: the log joints it compares are the terms added up, in every
    order. *)
Theorem C76_replica_ratio : forall V (zeros : V) get put add term n m l s,
  let g := ratio_graph zeros get put add term n in
  run rop_eq g (start m) l = Some s -> complete g s ->
  s_out s RRead = Some (Val (ratio_sum zeros get put add term n)) /\ s_mem s 0 = ratio_sum zeros get put add term n.
Proof. exact @ratio_any_order. Qed.
Print Assumptions C76_replica_ratio.

Example C76_replica_demo : exists s,
  let g := ratio_graph [0; 0] (fun k r => [nth (Nat.div k 2) r 0]) (fun k r v => firstn (Nat.div k 2) r ++ v ++ skipn (S (Nat.div k 2)) r)
    (fun a b => [hd 0 a + hd 0 b]) (fun k => [S k]) 4 in
  run rop_eq g (start (fun _ => [7; 7]))
    [RTerm 3; RVar; RReset; RTerm 0; REntry 0; RScatter 0; RTerm 2; REntry 1; RTerm 1; RScatter 1; REntry 2; RScatter 2; REntry 3; RScatter 3; RRead] = Some s /\
  complete g s /\ s_out s RRead = Some (Val [3; 7]).
Proof.
  eexists. cbv zeta. split; [ends_tac|]. split; [|vm_compute; reflexivity].
  intros o. destruct o as [| |[|[|[|[|k]]]]|[|[|[|[|k]]]]|[|[|[|[|k]]]]|]; vm_compute; congruence.
Qed.

(** Variational inference: both the step taken and the loss returned depend on the
    order (of the loss theta_0 * theta_1 at (3, 5), the step of theta_1 is -3 or +2, the
    loss 15 or -14). *)
Theorem C76_variational_refuted : exists (p : optimization Z) ks m l1 l2 s1 s2, plain_vi p ks /\
  let g := vi_graph p ks in
  run vop_eq g (start m) l1 = Some s1 /\ complete g s1 /\ run vop_eq g (start m) l2 = Some s2 /\ complete g s2 /\
  (s_mem s1 (v_theta 1) = 2 /\ s_mem s2 (v_theta 1) = 7 /\
   s_out s1 VLoss = Some (Val 15) /\ s_out s2 VLoss = Some (Val (-14)))%Z.
Proof. exact variational_refuted. Qed.
Print Assumptions C76_variational_refuted.

(** Leaving aside operations [D] that nothing else depends on: if what uses a trained
    variable comes before its update, every step is the gradient step at the variables
    the iteration began with, t grows once, the loss is theirs unless in [D], and
    nothing else changes.  Missing, and false by [C76_variational_refuted]: the steps
    and the loss without these conditions. *)
Theorem C76_variational_partial : forall V (p : optimization V) ks (D : vop -> Prop), plain_vi p ks ->
  let g := vi_graph p ks in
  (forall i j, feeds g i j -> D i -> D j) ->
  (forall j k, uses g j (v_theta k) -> In k ks -> ~ D j -> before g j (VUpdate k)) ->
  forall m l s, ~ D VIncrement -> run vop_eq g (start m) l = Some s -> complete g s ->
  (forall k, In k ks -> ~ D (VUpdate k) -> exists v, snapshot g m (VBody (vi_gradient p k)) v /\ s_mem s (v_theta k) = vi_apply p (m (v_theta k)) [v]) /\
  s_mem s v_t = vi_increment p (m v_t) [m v_t] /\
  (~ D VLoss -> exists v, snapshot g m VLoss v /\ s_out s VLoss = Some (Val v)) /\
  (forall x, x <> v_t -> (forall k, In k ks -> x <> v_theta k) -> s_mem s x = m x).
Proof. exact (fun V p ks D B => @vi_any_order V p ks B D). Qed.
Print Assumptions C76_variational_partial.

(** One variable and the loss theta * theta meet the conditions, with the loss left
    aside. *)
Example C76_variational_demo : plain_vi square [0] /\
  (forall i j, feeds (vi_graph square [0]) i j -> only_loss i -> only_loss j) /\
  (forall j k, uses (vi_graph square [0]) j (v_theta k) -> In k [0] -> ~ only_loss j -> before (vi_graph square [0]) j (VUpdate k)) /\
  ~ only_loss VIncrement /\
  exists s, run vop_eq (vi_graph square [0]) (start product_m) [VarTheta 0; VBody 0; VUpdate 0; VarT; VLoss; VTrain; VIncrement] = Some s /\
    complete (vi_graph square [0]) s /\ s_mem s (v_theta 0) = (-3)%Z.
Proof.
  split; [exact square_plain|]. split; [exact square_closed|]. split; [exact square_first|]. split; [discriminate|].
  eexists. split; [ends_tac|]. split; [|vm_compute; reflexivity]. intros o. destruct o as [|[|k]|[|k]|[|k]| | |]; vm_compute; congruence.
Qed.
