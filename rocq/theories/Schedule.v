(** * One session run, operation by operation.

    Models what sess.run does with the graphs that build_update
    (metropolis_hastings.py:64-156, hmc.py:60-129, sgld.py:52-87, sghmc.py:58-96,
    gibbs.py:136-153, replica_exchange_mc.py:78-134) and
    VariationalInference.initialize (variational_inference.py:68-133) make: TensorFlow
    runs each operation once, after its inputs, in an order that is not fixed
    (monte_carlo.py:124-127: "depends on which is run faster in the TensorFlow
    graph").  A tf.Variable is memory: an operation that takes one as input reads it
    when it runs, and tf.assign, assign_add, scatter_update and the updates of
    optimizers change it in place.  Each operation runs without interruption
    (simplified: the kernels of two operations may overlap). *)
From Coq Require Import List Arith Bool.
Import ListNotations.

Section Graph.
(** [I] names operations, [V] are values; variables are numbers. *)
Context {I V : Type}.
Variable I_eq : forall i j : I, {i = j} + {i <> j}.

(** An operation: one that computes a value, with random draws and fed values part
    of the function; a variable; one that changes a variable, given its old value
    and the inputs, and returns the variable (e.g. sgld.py:79-86). *)
Inductive kind : Type :=
| Pure (f : list V -> V)
| Var (x : nat)
| Write (x : nat) (f : V -> list V -> V).

(** An operation with its inputs and control inputs (e.g. tf.group, sgld.py:87). *)
Record node : Type := mknode { n_kind : kind; n_in : list I; n_after : list I }.

(** The operations a session run needs (monte_carlo.py:138). *)
Definition sgraph : Type := I -> option node.

(** What an operation returned: a value, or a variable by reference
    (e.g. sgld.py:61-62: params by reference, gather a value). *)
Inductive out : Type := Val (v : V) | Ref (x : nat).

(** The state of a run: what the operations that have run returned, and the
    variables (monte_carlo.py:138). *)
Record sstate : Type := mks { s_out : I -> option out; s_mem : nat -> V }.

(** The state before a run with variables [m] (monte_carlo.py:138). *)
Definition start (m : nat -> V) : sstate := mks (fun _ => None) m.

(** An input as an operation sees it when it runs (sghmc.py:67, 82: the velocity is
    read when it is added). *)
Definition deref (m : nat -> V) (o : out) : V := match o with Val v => v | Ref x => m x end.

(** The inputs, [None] if one has not run (monte_carlo.py:138). *)
Fixpoint inputs (s : sstate) (l : list I) : option (list V) :=
  match l with
  | [] => Some []
  | i :: l' => match s_out s i, inputs s l' with Some o, Some vs => Some (deref (s_mem s) o :: vs) | _, _ => None end
  end.

(** One operation runs; [None] if it is not in the graph, has run before, or is not
    ready (monte_carlo.py:124-127). *)
Definition fire (g : sgraph) (s : sstate) (i : I) : option sstate :=
  match g i, s_out s i with
  | Some n, None =>
      match inputs s (n_in n), inputs s (n_after n) with
      | Some vs, Some _ =>
          let returns o := fun j => if I_eq j i then Some o else s_out s j in
          Some match n_kind n with
          | Pure f => mks (returns (Val (f vs))) (s_mem s)
          | Var x => mks (returns (Ref x)) (s_mem s)
          | Write x f => mks (returns (Ref x)) (fun y => if Nat.eqb y x then f (s_mem s x) vs else s_mem s y)
          end
      | _, _ => None
      end
  | _, _ => None
  end.

(** A session run in a given order (monte_carlo.py:138). *)
Fixpoint run (g : sgraph) (s : sstate) (order : list I) : option sstate :=
  match order with
  | [] => Some s
  | i :: order' => match fire g s i with Some s' => run g s' order' | None => None end
  end.
End Graph.
Arguments kind : clear implicits.
Arguments node : clear implicits.
Arguments sgraph : clear implicits.
Arguments out : clear implicits.
Arguments sstate : clear implicits.

(** ** Samplers *)
Section Sampler.
Context {V : Type}.

(** The operations of one sampling iteration: t, n_accept and their uses
    (monte_carlo.py:98-99); for each latent variable its params, the row gathered, the
    sample and the scatter_update; the velocities of SGHMC (sghmc.py:54-55, 67, 83-85,
    91); and the operations between, by number. *)
Inductive sop : Type :=
| OpT | OpN | OpRow
| OpParams (z : nat) | OpGather (z : nat) | OpBody (k : nat) | OpSample (z : nat) | OpScatter (z : nat)
| OpVelocity (z : nat) | OpNewVelocity (z : nat) | OpAssignVelocity (z : nat)
| OpAccept | OpRate | OpTrain | OpIncrement.

(** self.t (inference.py:211). *)
Definition v_t : nat := 0.
(** self.n_accept (monte_carlo.py:98). *)
Definition v_accept : nat := 1.
(** The table of the Empirical of latent variable [z] (e.g. sgld.py:82). *)
Definition v_params (z : nat) : nat := 2 + 2 * z.
(** self.v[z] (sghmc.py:54-55).  Other variables, of the model, have other numbers. *)
Definition v_velocity (z : nat) : nat := 3 + 2 * z.

(** What an algorithm brings, as functions of the inputs: the arithmetic of rows and
    counters; the operations between the gathered rows and the sample; what the
    sample and the acceptance are computed from (metropolis_hastings.py:78-156,
    hmc.py:81-129, sgld.py:61-87, sghmc.py:65-96, gibbs.py:136-153). *)
Record sampler : Type := mksampler {
  sp_row : list V -> V;                   (* [t]: tf.maximum(t - 1, 0) *)
  sp_gather : list V -> V;                (* [params; row]: tf.gather *)
  sp_scatter : V -> list V -> V;          (* params, [t; sample]: tf.scatter_update *)
  sp_add : V -> list V -> V;              (* n_accept, acceptance: assign_add *)
  sp_rate : list V -> V;                  (* [n_accept; t]: n_accept / t *)
  sp_increment : V -> list V -> V;        (* t: assign_add(1) (inference.py:213) *)
  sp_body : nat -> option (node sop V);
  sp_sample : nat -> list V -> V;
  sp_sample_in : nat -> list sop;
  sp_accept_in : list sop;
  sp_new_velocity : nat -> list V -> V;
  sp_new_velocity_in : nat -> list sop }.

(** The kinds of graph: the row is gathered and an input of the sample (tf.cond takes
    old_sample, metropolis_hastings.py:78-79 and 138-139, hmc.py:81-85 and 112-113;
    sgld.py:61-62 and 75-77); the conditionals are fed (gibbs.py:136-153); with
    velocities (sghmc.py:65-67 and 82-85). *)
Inductive style : Type := Gathers | Feeds | Velocities.

(** The graph of sess.run(train) (build_update: metropolis_hastings.py:78-156,
    hmc.py:81-129, sgld.py:61-87, sghmc.py:65-96, gibbs.py:136-153) for the latent
    variables [zs]; with [rate], of sess.run([train, n_accept_over_t])
    (monte_carlo.py:98-99 and 138); with [together], of a run that increments t as
    well, which the code avoids (monte_carlo.py:122-127 and 139). *)
Definition sampler_graph (p : sampler) (st : style) (rate together : bool) (zs : list nat) : sgraph sop V := fun o =>
  let latent z (n : node sop V) := if existsb (Nat.eqb z) zs then Some n else None in
  let when (b : bool) (n : option (node sop V)) := if b then n else None in
  let gathers := match st with Feeds => false | _ => true end in
  let velocities := match st with Velocities => true | _ => false end in
  match o with
  | OpT => Some (mknode (Var v_t) [] [])
  | OpN => when rate (Some (mknode (Var v_accept) [] []))
  | OpRow => when gathers (Some (mknode (Pure (sp_row p)) [OpT] []))
  | OpParams z => when gathers (latent z (mknode (Var (v_params z)) [] []))
  | OpGather z => when gathers (latent z (mknode (Pure (sp_gather p)) [OpParams z; OpRow] []))
  | OpBody k => sp_body p k
  | OpSample z => latent z (mknode (Pure (sp_sample p z))
      match st with
      | Gathers => OpGather z :: sp_sample_in p z
      | Feeds => sp_sample_in p z
      | Velocities => [OpGather z; OpVelocity z]
      end [])
  | OpScatter z => latent z (mknode (Write (v_params z) (sp_scatter p)) [OpT; OpSample z] [])
  | OpVelocity z => when velocities (latent z (mknode (Var (v_velocity z)) [] []))
  | OpNewVelocity z => when velocities (latent z (mknode (Pure (sp_new_velocity p z)) (OpVelocity z :: sp_new_velocity_in p z) []))
  | OpAssignVelocity z => when velocities (latent z (mknode (Write (v_velocity z) (fun _ vs => hd (sp_rate p []) vs)) [OpNewVelocity z] []))
  | OpAccept => Some (mknode (Write v_accept (sp_add p)) (sp_accept_in p) [])
  | OpRate => when rate (Some (mknode (Pure (sp_rate p)) [OpN; OpT] []))
  | OpTrain => Some (mknode (Pure (fun _ => sp_rate p [])) []
      (OpAccept :: map OpScatter zs ++ (if velocities then map OpAssignVelocity zs else [])))
  | OpIncrement => when together (Some (mknode (Write v_t (sp_increment p)) [] []))
  end.
End Sampler.
Arguments sampler : clear implicits.

(** ** Optimization *)
Section Optimizer.
Context {V : Type}.

(** The operations of one iteration of optimization: the trained variables, the
    operations of loss and gradients by number, the updates of apply_gradients, and
    increment_t (variational_inference.py:120-123 and 155, inference.py:211-212). *)
Inductive vop : Type :=
| VarT | VarTheta (k : nat) | VBody (k : nat) | VUpdate (k : nat) | VIncrement | VLoss | VTrain.

(** A trained variable, with the slots the optimizer keeps for it
    (variational_inference.py:121). *)
Definition v_theta (k : nat) : nat := 1 + k.

(** What loss and gradients are computed with, and the optimizer's update of a
    variable by its gradient (variational_inference.py:60-63 and 120-123). *)
Record optimization : Type := mkopt {
  vi_body : nat -> option (node vop V);
  vi_gradient : nat -> nat;
  vi_apply : V -> list V -> V;
  vi_increment : V -> list V -> V;
  vi_loss : list V -> V;
  vi_loss_in : list vop }.

(** The graph of sess.run([train, increment_t, loss]) (variational_inference.py:155)
    for the variables [ks]. *)
Definition vi_graph (p : optimization) (ks : list nat) : sgraph vop V := fun o =>
  let trained k (n : node vop V) := if existsb (Nat.eqb k) ks then Some n else None in
  match o with
  | VarT => Some (mknode (Var v_t) [] [])
  | VarTheta k => trained k (mknode (Var (v_theta k)) [] [])
  | VBody k => vi_body p k
  | VUpdate k => trained k (mknode (Write (v_theta k) (vi_apply p)) [VBody (vi_gradient p k)] [])
  | VIncrement => Some (mknode (Write v_t (vi_increment p)) [VarT] [])
  | VLoss => Some (mknode (Pure (vi_loss p)) (vi_loss_in p) [])
  | VTrain => Some (mknode (Pure (fun _ => vi_loss p [])) [] (map VUpdate ks))
  end.
End Optimizer.
Arguments optimization : clear implicits.

(** ** The log joints of the replicas *)
Section Ratio.
Context {V : Type}.

(** The operations of _replica_ratio (replica_exchange_mc.py:240-276): the variable
    (96-97), its reset (241-242), and for each term in turn (a replica and one of its
    latent variables or data) the entry read, the term's log density, and the
    scatter_update (264-266, 273-275), which returns the variable for the next; then
    what reads the result (228).  The addition is part of the scatter_update. *)
Inductive rop : Type := RVar | RReset | REntry (k : nat) | RTerm (k : nat) | RScatter (k : nat) | RRead.

(** [replica_ratio], as the name is rebound (replica_exchange_mc.py:98, 241, 264, 273). *)
Definition ratio_before (k : nat) : rop := match k with 0 => RReset | S k' => RScatter k' end.

(** [zeros] is the reset value, [get k] and [put k] read and write the entry of the
    replica that term [k] belongs to, [add] adds, [term k] is the term's value
    (replica_exchange_mc.py:240-276). *)
Definition ratio_graph (zeros : V) (get : nat -> V -> V) (put : nat -> V -> V -> V) (add : V -> V -> V) (term : nat -> V) (n : nat)
  : sgraph rop V := fun o =>
  match o with
  | RVar => Some (mknode (Var 0) [] [])
  | RReset => Some (mknode (Write 0 (fun _ _ => zeros)) [RVar] [])
  | REntry k => if Nat.ltb k n then Some (mknode (Pure (fun vs => get k (hd zeros vs))) [ratio_before k] []) else None
  | RTerm k => if Nat.ltb k n then Some (mknode (Pure (fun _ => term k)) [] []) else None
  | RScatter k => if Nat.ltb k n then Some (mknode (Write 0 (fun old vs => put k old (add (nth 1 vs zeros) (nth 2 vs zeros)))) [ratio_before k; REntry k; RTerm k] []) else None
  | RRead => Some (mknode (Pure (fun vs => hd zeros vs)) [ratio_before n] [])
  end.
End Ratio.
