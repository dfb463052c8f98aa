(** * Concrete graphs for C76. *)
From Coq Require Import List Arith Bool Lia ZArith.
From Verif Require Import Schedule ScheduleSpec ScheduleProofs ScheduleSamplerProofs.
Import ListNotations.

(** A sampler on lists of naturals: scalars are lists of one, tables have a number per
    row; the proposal adds one to the row gathered and is accepted
    (metropolis_hastings.py:78-156); the velocity grows by one (sghmc.py:80-85). *)
Definition one (l : list (list nat)) : nat := hd 0 (hd [] l).
Definition demo : sampler (list nat) := mksampler
  (fun vs => [one vs - 1])
  (fun vs => match vs with [params; [r]] => [nth r params 0] | _ => [] end)
  (fun params vs => match vs with [[t]; [s]] => firstn t params ++ s :: skipn (S t) params | _ => [] end)
  (fun n vs => [hd 0 n + one vs])
  (fun vs => match vs with [[n]; [t]] => [Nat.div n t] | _ => [] end)
  (fun t _ => [S (hd 0 t)])
  (fun k => match k with
     | 0 => Some (mknode (Pure (fun vs => [S (one vs)])) [OpGather 0] [])
     | 1 => Some (mknode (Pure (fun _ => [1])) [OpBody 0] [])
     | _ => None end)
  (fun _ vs => match vs with [[x]; [y]] => if Nat.eqb y 0 then [x] else [y] | [[y]] => [y] | _ => [] end)
  (fun _ => [OpBody 0])
  [OpBody 1]
  (fun _ vs => [S (one vs)])
  (fun _ => []).
(** t = 1, n_accept = 0, the table [5; 0], velocity 3. *)
Definition demo_m (x : nat) : list nat := match x with 0 => [1] | 1 => [0] | 2 => [5; 0] | 3 => [3] | _ => [] end.

Lemma demo_plain : plain_body demo [0].
Proof.
  split; [|split].
  - intros k n E. left. destruct k as [|[|k]]; simpl in E; try discriminate; injection E as <-; simpl; eexists; (split; [reflexivity|]); split; intros o Ho; simpl in Ho; try (destruct Ho; fail); destruct Ho as [<-|[]]; eauto.
  - intros z o [<-|[]]. eauto.
  - intros o [<-|[]]. eauto.
Qed.

Ltac complete_tac := intros o; destruct o as [| | |z|z|[|[|k]]|z|z|z|z|z| | | |]; try (destruct z as [|z]); vm_compute; congruence.

(** Two orders of Metropolis-Hastings: the rate fetched before or after n_accept grows. *)
Definition order_a : list sop := [OpT; OpN; OpRate; OpRow; OpParams 0; OpGather 0; OpBody 0; OpBody 1; OpAccept; OpSample 0; OpScatter 0; OpTrain].
Definition order_b : list sop := [OpParams 0; OpT; OpRow; OpGather 0; OpBody 0; OpSample 0; OpScatter 0; OpBody 1; OpAccept; OpTrain; OpN; OpRate].
Definition at_end (g : sgraph sop (list nat)) (l : list sop) : sstate sop (list nat) :=
  match run sop_eq g (start demo_m) l with Some s => s | None => start demo_m end.

Lemma ends : forall I V (eqd : forall i j : I, {i = j} + {i <> j}) (g : sgraph I V) (s0 : sstate I V) l,
  (match run eqd g s0 l with Some _ => true | None => false end) = true ->
  run eqd g s0 l = Some (match run eqd g s0 l with Some s => s | None => s0 end).
Proof. intros I V eqd g s0 l H. destruct (run eqd g s0 l); [reflexivity|discriminate]. Qed.
Ltac ends_tac := apply ends; vm_compute; reflexivity.

Lemma demo_a : let g := sampler_graph demo Gathers true false [0] in
  run sop_eq g (start demo_m) order_a = Some (at_end g order_a) /\ complete g (at_end g order_a).
Proof. split; [ends_tac|]. complete_tac. Qed.
Lemma demo_b : let g := sampler_graph demo Gathers true false [0] in
  run sop_eq g (start demo_m) order_b = Some (at_end g order_b) /\ complete g (at_end g order_b).
Proof. split; [ends_tac|]. complete_tac. Qed.

Theorem rate_refuted : exists (p : sampler (list nat)) zs m l1 l2 s1 s2, plain_body p zs /\
  let g := sampler_graph p Gathers true false zs in
  run sop_eq g (start m) l1 = Some s1 /\ complete g s1 /\ run sop_eq g (start m) l2 = Some s2 /\ complete g s2 /\
  s_out s1 OpRate <> s_out s2 OpRate.
Proof.
  exists demo, [0], demo_m, order_a, order_b. eexists. eexists. split; [exact demo_plain|]. cbv zeta.
  split; [exact (proj1 demo_a)|]. split; [exact (proj2 demo_a)|]. split; [exact (proj1 demo_b)|]. split; [exact (proj2 demo_b)|].
  vm_compute. discriminate.
Qed.

(** Two orders with velocities. *)
Definition order_c : list sop := [OpT; OpRow; OpParams 0; OpGather 0; OpBody 0; OpBody 1; OpVelocity 0; OpSample 0; OpScatter 0; OpNewVelocity 0; OpAssignVelocity 0; OpAccept; OpTrain].
Definition order_d : list sop := [OpT; OpRow; OpParams 0; OpGather 0; OpBody 0; OpBody 1; OpVelocity 0; OpNewVelocity 0; OpAssignVelocity 0; OpSample 0; OpScatter 0; OpAccept; OpTrain].
(** old_sample + old_v_sample (sghmc.py:82). *)
Definition demo_velocities : sampler (list nat) := mksampler (sp_row demo) (sp_gather demo) (sp_scatter demo) (sp_add demo) (sp_rate demo) (sp_increment demo)
  (sp_body demo) (fun _ vs => match vs with [[x]; [v]] => [x + v] | _ => [] end) (sp_sample_in demo) (sp_accept_in demo) (sp_new_velocity demo) (sp_new_velocity_in demo).

Theorem sghmc_refuted : exists (p : sampler (list nat)) zs m l1 l2 s1 s2, plain_body p zs /\ (forall z, plain_in (sp_new_velocity_in p z)) /\
  let g := sampler_graph p Velocities false false zs in
  run sop_eq g (start m) l1 = Some s1 /\ complete g s1 /\ run sop_eq g (start m) l2 = Some s2 /\ complete g s2 /\
  s_mem s1 (v_params 0) = [5; 8] /\ s_mem s2 (v_params 0) = [5; 9].
Proof.
  set (g := sampler_graph demo_velocities Velocities false false [0]).
  exists demo_velocities, [0], demo_m, order_c, order_d, (at_end g order_c), (at_end g order_d).
  split; [exact demo_plain|]. split; [intros z o []|]. cbv zeta.
  split; [ends_tac|]. split; [unfold g; complete_tac|]. split; [ends_tac|]. split; [unfold g; complete_tac|]. split; vm_compute; reflexivity.
Qed.

(** Incrementing t in the same run. *)
Definition order_e : list sop := [OpT; OpRow; OpParams 0; OpGather 0; OpBody 0; OpBody 1; OpSample 0; OpScatter 0; OpAccept; OpTrain; OpIncrement].
Definition order_f : list sop := [OpT; OpRow; OpParams 0; OpGather 0; OpBody 0; OpBody 1; OpSample 0; OpIncrement; OpScatter 0; OpAccept; OpTrain].
(** Three rows. *)
Definition demo_m3 (x : nat) : list nat := match x with 2 => [5; 0; 0] | _ => demo_m x end.

Theorem together_refuted : exists (p : sampler (list nat)) zs m l1 l2 s1 s2, plain_body p zs /\
  let g := sampler_graph p Gathers false true zs in
  run sop_eq g (start m) l1 = Some s1 /\ complete g s1 /\ run sop_eq g (start m) l2 = Some s2 /\ complete g s2 /\
  s_mem s1 (v_params 0) = [5; 6; 0] /\ s_mem s2 (v_params 0) = [5; 0; 6].
Proof.
  set (g := sampler_graph demo Gathers false true [0]).
  exists demo, [0], demo_m3, order_e, order_f,
    (match run sop_eq g (start demo_m3) order_e with Some s => s | None => start demo_m3 end),
    (match run sop_eq g (start demo_m3) order_f with Some s => s | None => start demo_m3 end).
  split; [exact demo_plain|]. cbv zeta.
  split; [ends_tac|]. split; [unfold g; complete_tac|]. split; [ends_tac|]. split; [unfold g; complete_tac|]. split; vm_compute; reflexivity.
Qed.

(** ** Optimization of the loss theta_0 * theta_1 with steps of size one
    (variational_inference.py:60-63 and 120-123): the gradient of one variable is the
    other. *)
Local Open Scope Z_scope.
Definition product : optimization Z := mkopt
  (fun k => match k with
     | O => Some (mknode (Pure (fun vs => hd 0 vs)) [VarTheta 1] [])
     | 1%nat => Some (mknode (Pure (fun vs => hd 0 vs)) [VarTheta 0] [])
     | _ => None end)
  (fun k => k) (fun x vs => x - hd 0 vs) (fun t _ => t + 1) (fun vs => match vs with [a; b] => a * b | _ => 0 end) [VarTheta 0; VarTheta 1].
Definition product_m (x : nat) : Z := match x with 1%nat => 3 | 2%nat => 5 | _ => 0 end.
Definition order_g : list vop := [VarT; VarTheta 0; VarTheta 1; VBody 0; VBody 1; VLoss; VUpdate 0; VUpdate 1; VTrain; VIncrement].
Definition order_h : list vop := [VarT; VarTheta 0; VarTheta 1; VBody 0; VUpdate 0; VBody 1; VUpdate 1; VTrain; VIncrement; VLoss].
Definition vi_end (p : optimization Z) (ks : list nat) (l : list vop) : sstate vop Z :=
  match run vop_eq (vi_graph p ks) (start product_m) l with Some s => s | None => start product_m end.

Lemma product_plain : plain_vi product [0; 1]%nat.
Proof.
  split.
  - intros k n E. left. destruct k as [|[|k]]; simpl in E; try discriminate; injection E as <-; simpl; eexists; (split; [reflexivity|]); intros o [<-|[]]; eauto.
  - intros o [<-|[<-|[]]]; eauto.
Qed.

Ltac vi_complete := intros o; destruct o as [|[|[|k]]|[|[|k]]|[|[|k]]| | |]; vm_compute; congruence.

(** Steps and loss both depend on the order. *)
Theorem variational_refuted : exists (p : optimization Z) ks m l1 l2 s1 s2, plain_vi p ks /\
  let g := vi_graph p ks in
  run vop_eq g (start m) l1 = Some s1 /\ complete g s1 /\ run vop_eq g (start m) l2 = Some s2 /\ complete g s2 /\
  s_mem s1 (v_theta 1) = 2 /\ s_mem s2 (v_theta 1) = 7 /\
  s_out s1 VLoss = Some (Val 15) /\ s_out s2 VLoss = Some (Val (-14)).
Proof.
  exists product, [0; 1]%nat, product_m, order_g, order_h, (vi_end product [0; 1]%nat order_g), (vi_end product [0; 1]%nat order_h).
  split; [exact product_plain|]. cbv zeta.
  split; [ends_tac|]. split; [vi_complete|]. split; [ends_tac|]. split; [vi_complete|]. repeat split; vm_compute; reflexivity.
Qed.

(** One variable, loss theta * theta: the step is determined, the loss is not. *)
Definition square : optimization Z := mkopt
  (fun k => match k with O => Some (mknode (Pure (fun vs => 2 * hd 0 vs)) [VarTheta 0] []) | _ => None end)
  (fun _ => O) (fun x vs => x - hd 0 vs) (fun t _ => t + 1) (fun vs => hd 0 vs * hd 0 vs) [VarTheta 0].
(** Only the loss is set aside. *)
Definition only_loss (o : vop) : Prop := o = VLoss.

Lemma square_plain : plain_vi square [0%nat].
Proof.
  split.
  - intros k n E. left. destruct k as [|k]; simpl in E; try discriminate; injection E as <-; simpl; eexists; (split; [reflexivity|]); intros o [<-|[]]; eauto.
  - intros o [<-|[]]; eauto.
Qed.
Lemma square_closed : forall i j, feeds (vi_graph square [0%nat]) i j -> only_loss i -> only_loss j.
Proof.
  intros i j (n & E & H) ->. exfalso. pose proof (vi_in square [0%nat] square_plain n j VLoss E H) as X. exact X.
Qed.
Lemma square_first : forall j k, uses (vi_graph square [0%nat]) j (v_theta k) -> In k [0%nat] -> ~ only_loss j -> before (vi_graph square [0%nat]) j (VUpdate k).
Proof.
  intros j k (n & b & E & Hb & Rb) [<-|[]] Hd. pose proof (vi_in square [0%nat] square_plain n j b E (in_or_app _ _ _ (or_introl Hb))) as IN.
  pose proof (vi_returns square [0%nat] square_plain b _ Rb) as RB. destruct b; try tauto; try discriminate.
  - destruct IN as [->|(c & ->)]; [exfalso; apply Hd; reflexivity|]. destruct c as [|c]; [|simpl in E; discriminate].
    apply before_one. unfold feeds. simpl. eexists. split; [reflexivity|]. simpl. auto.
  - exfalso. destruct RB as [_ RB]. apply (RB O); simpl; auto.
Qed.
