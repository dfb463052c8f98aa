(** * Property C29: reset restores the state of a fresh inference. *)
From Coq Require Import Ascii String List Arith Bool Lia.
From Verif Require Import Feed Gibbs ResetOps ResetSpec ResetProofs.
Import ListNotations.

(** In a program of any length that builds inferences and declares variables, none
    in a variable scope of its own and no name starting with "optimizer", the
    reset of one inference leaves every variable of every other as it is. *)
Theorem C29_isolated_partial : forall {V} (zero : V) steps, (forall s, In s steps -> plain (step_names s)) ->
  let '(g, is) := build zero (mkgraph [] []) steps in
  forall a b i j values v, nth_error is a = Some i -> nth_error is b = Some j -> a <> b -> In v (i_own j) ->
    run_reset g i values v = values v.
Proof. exact @reset_isolated. Qed.
Print Assumptions C29_isolated_partial.

(** Inside a variable scope it may not: the scope's name is matched as a prefix. *)
Theorem C29_captured_refuted : forall {V} (zero x y : V), y <> x ->
  let '(g1, b) := initialize zero (mkgraph [] []) "optimizer_b/" "optimizer_b/iteration" (Variational None [("beta1_power"%string, x)]) in
  let '(g2, a) := initialize zero g1 "" "iteration" (Variational None [("beta1_power"%string, x)]) in
  exists v, In v (i_own b) /\ ~ In v (i_own a) /\ run_reset g2 a (fun _ => y) v <> y.
Proof. exact @captured_refuted. Qed.
Print Assumptions C29_captured_refuted.

(** Metropolis-Hastings, HMC and SGLD create no variables but the counters: after
    reset these have their initial values and nothing else has changed, whatever
    was added to the graph later. *)
Theorem C29_sampler_partial : forall {V} (zero : V) g outer t n g',
  let '(g1, i) := initialize zero g outer t (Sampler n []) in
  extends g1 g' -> forall values v,
    (In v (i_own i) -> initial_value g' (run_reset g' i values) v) /\
    (~ In v (i_own i) -> run_reset g' i values v = values v).
Proof. exact @sampler_reset. Qed.
Print Assumptions C29_sampler_partial.

(** SGHMC's velocities and the tables of replica exchange are not reset. *)
Theorem C29_velocity_refuted : forall {V} (zero : V) g outer t n name x further,
  let '(g1, i) := initialize zero g outer t (Sampler n ((name, x) :: further)) in
  In (length (g_vars g)) (i_own i) /\
  forall y, y <> x -> let values := fun _ => y in
    run_reset g1 i values (length (g_vars g)) = y /\ ~ initial_value g1 (run_reset g1 i values) (length (g_vars g)).
Proof. exact @velocity_refuted. Qed.
Print Assumptions C29_velocity_refuted.

(** Variational inference: the counter and what the optimizer created in its scope
    are reset (missing: the default global step, see below). *)
Theorem C29_variational_partial : forall {V} (zero : V) g outer t gs slots g',
  let '(g1, i) := initialize zero g outer t (Variational gs slots) in
  extends g1 g' -> forall values,
    initial_value g' (run_reset g' i values) (length (g_vars g)) /\
    forall j, j < length slots ->
      initial_value g' (run_reset g' i values) (length (g_vars g) + (1 + match gs with Some _ => 1 | None => 0 end) + j).
Proof. exact @variational_reset. Qed.
Print Assumptions C29_variational_partial.

(** The global step that the default optimizer's learning rate decays with is not:
    after reset the learning rate is still the decayed one. *)
Theorem C29_global_step_refuted : forall {V} (zero : V) g t s slots, prefix "optimizer" s = false ->
  let '(g1, i) := initialize zero g "" t (Variational (Some s) slots) in
  In (S (length (g_vars g))) (i_own i) /\
  forall y, y <> zero -> let values := fun _ => y in
    run_reset g1 i values (S (length (g_vars g))) = y /\ ~ initial_value g1 (run_reset g1 i values) (S (length (g_vars g))).
Proof. exact @global_step_refuted. Qed.
Print Assumptions C29_global_step_refuted.

(** GAN, BiGAN, WGAN and implicit KLqp reset nothing but the counter. *)
Theorem C29_adversarial_refuted : forall {V} (zero : V) g outer t steps slots,
  let '(g1, i) := initialize zero g outer t (Adversarial steps slots) in
  forall values v, v <> length (g_vars g) -> run_reset g1 i values v = values v.
Proof. exact @adversarial_refuted. Qed.
Print Assumptions C29_adversarial_refuted.

(** Gibbs keeps its state in a Python dictionary, which reset does not touch: an
    update after reset starts from that state, whatever the rows hold. *)
Theorem C29_gibbs_refuted : forall {V} latent dt (self : list (nat * V)) rows rows' d, self <> [] ->
  gibbs_start latent dt self rows d = gibbs_start latent dt self rows' d.
Proof. exact @gibbs_start_rows. Qed.
Print Assumptions C29_gibbs_refuted.

(** A program with four inferences meets the hypotheses of [C29_isolated_partial]. *)
Definition demo_program : list (step nat) :=
  [ Declare [("w"%string, 5)];
    Initialize "iteration" (Variational (Some "Variable"%string) [("w/Adam"%string, 0); ("beta1_power"%string, 9)]);
    Initialize "iteration_1" (Sampler "n_accept" [("Variable_1"%string, 0)]);
    Initialize "iteration_2" (Variational None [("w/Adam"%string, 0); ("beta1_power"%string, 9)]);
    Initialize "iteration_3" (Adversarial ["Variable_2"%string] [("w/Adam_1"%string, 0)]) ].
Example C29_demo_plain : forall s, In s demo_program -> plain (step_names s).
Proof. intros s [<-|[<-|[<-|[<-|[<-|[]]]]]] n; simpl; intros H; repeat destruct H as [<-|H]; try reflexivity; destruct H. Qed.
Example C29_demo_inferences : map (fun i => (i_own i, i_reset i)) (snd (build 0 (mkgraph [] []) demo_program)) =
  [([1; 2; 3; 4], [1; 3; 4]); ([5; 6; 7], [6; 7]); ([8; 9; 10], [8; 9; 10]); ([11; 12; 13], [11])].
Proof. reflexivity. Qed.
Example C29_demo_extends : extends (mkgraph [mkv "a"%string 0] []) (mkgraph [mkv "a"%string 0; mkv "b"%string 1] []).
Proof. exists [mkv "b"%string 1]. reflexivity. Qed.
