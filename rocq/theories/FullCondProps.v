(** * C79: with the default conditioning set, complete_conditional starts from the
    conditional density given every other random variable of the graph.

    The full statement, that the log joint density over the variable and its default
    conditioning set differs from that of the whole model by what does not depend on
    the variable, holds when values are sampled from the parameters.  It is refuted for
    a random variable constructed with the argument [value]. *)
From Coq Require Import Reals String List Permutation.
From Verif Require Import Graph GraphSpec CondJoint CondJointSpec FullCondSpec FullCondProofs FullCondExampleProofs.
Import ListNotations.
Local Open Scope list_scope.
Local Open Scope R_scope.

(** Missing from the full statement: random variables constructed with [value]. *)
Theorem C79_full_conditional_partial : forall V (sem : nat -> list V -> V) (score : nat -> V -> list V -> R) params
    g h coll pick fuel z rv who model env0,
  single_producer g -> distinct_values g coll -> no_cycles g h -> sampled_from_parameters g coll params ->
  (enough g <= fuel)%nat -> named coll rv who -> model_of coll rv model -> In z model ->
  computed sem g coll env0 ->
  exists bl, get_blanket g coll pick fuel (NRV z) = Some bl /\
  forall hist l, Permutation l (rv z :: default_cond (map rv bl)) ->
    numbered_rvs (concat (l :: hist)) -> named_apart (concat (l :: hist)) ->
    Forall (fun b => conj b = true) l ->
  exists t c, snd (get_log_joint (after hist) l) = Some t /\
  forall env, computed sem g coll env -> same_but g coll z env0 env ->
    joint_value (fun b => log_density score params g env (who b)) t + c =
    add (map (log_density score params g env) model).
Proof. exact full_conditional. Qed.
Print Assumptions C79_full_conditional_partial.

(** mu -> x -> y, with an earlier conditional of y that uses x: the blanket of x has all
    three, the conditioning set mu and y. *)
Example C79_demo :
  single_producer chain /\ distinct_values chain [0;1;2;3]%nat /\ no_cycles chain depth /\
  sampled_from_parameters chain [0;1;2;3]%nat parameters /\ named [0;1;2;3]%nat names which /\
  model_of [0;1;2;3]%nat names [0;1;2]%nat /\ computed twice chain [0;1;2;3]%nat (run_of 1 2 3 4) /\
  get_blanket chain [0;1;2;3]%nat (fun _ => 0%nat) (enough chain) (NRV 1) = Some [3;2;0]%nat /\
  default_cond (map names [3;2;0]%nat) = [names 2; names 0] /\
  (let l := [names 2; names 1; names 0] in
   Permutation l (names 1 :: [names 2; names 0]) /\ Forall (fun b => conj b = true) l /\
   numbered_rvs (concat [l; [names 0; names 1]]) /\ named_apart (concat [l; [names 0; names 1]]) /\
   snd (get_log_joint (after [[names 0; names 1]]) l) = Some (AddN [LogProb (names 2); LogProb (names 1); LogProb (names 0)])) /\
  (forall v, computed twice chain [0;1;2;3]%nat (run_of 1 v 3 4) /\ same_but chain [0;1;2;3]%nat 1 (run_of 1 2 3 4) (run_of 1 v 3 4)).
Proof. exact demo. Qed.

(** A variable constructed with [value] is not found as a child: the density that
    complete_conditional starts from lacks its term. *)
Theorem C79_given_value_refuted : exists (score : nat -> R -> list R -> R) params g h coll pick z rv who model,
  single_producer g /\ distinct_values g coll /\ no_cycles g h /\ named coll rv who /\ model_of coll rv model /\ In z model /\
  exists bl t, get_blanket g coll pick (enough g) (NRV z) = Some bl /\
    Forall (fun b => conj b = true) (rv z :: default_cond (map rv bl)) /\
    numbered_rvs (rv z :: default_cond (map rv bl)) /\ named_apart (rv z :: default_cond (map rv bl)) /\
    snd (get_log_joint [] (rv z :: default_cond (map rv bl))) = Some t /\
    forall c, exists env0 env, computed twice g coll env0 /\ computed twice g coll env /\ same_but g coll z env0 env /\
      ~ (joint_value (fun b => log_density score params g env0 (who b)) t + c = add (map (log_density score params g env0) model) /\
         joint_value (fun b => log_density score params g env (who b)) t + c = add (map (log_density score params g env) model)).
Proof. exact given_value_refuted. Qed.
Print Assumptions C79_given_value_refuted.
