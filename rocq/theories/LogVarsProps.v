(** * C72: the log of an inference holds its own variables and losses *)
From Coq Require Import String List Arith Bool.
From Verif Require Import Graph GraphSpec.
From Verif Require Import LogVars LogVarsSpec LogVarsProofs LogTagsSpec LogTagsProofs.
Import ListNotations.
Local Open Scope string_scope.

(** After every program, an inference with a log directory and no list of variables
    logs every variable from which its data, latent variables or approximations are
    computed exactly once, as a curve or histogram by its shape, then its losses and
    gradients; nothing of another inference.  What is missing (see below): summaries
    of the program itself in the collection of that name come first, and
    initialisation raises, instead of logging the rest, exactly if a variable has no
    known rank or a gradient is None. *)
Theorem C72_log_partial : forall g globals pick fuel vname vshape h s outs stack i s' r,
  single_producer g ->
  (forall v w, In v globals -> In w globals -> vref g v = vref g w -> v = w) -> enough g <= fuel ->
  program g globals pick fuel vname vshape new_graph [] h = (s, outs) ->
  i_log i = Some None ->
  initialize g globals pick fuel vname vshape s stack (length outs) i = (s', r) ->
  exists vs, NoDup vs /\
    (forall v, In v vs <-> exists x, about i x /\ In v globals /\ up g anything (tensor_of g x) (vref g v)) /\
    (r = Raised <-> ~ (Forall (fun v => vshape v <> None) vs /\ Forall (fun vg => snd vg = true) (i_grads i))) /\
    (r <> Raised -> exists key ms ws, r = Logged key ms /\ ~ In key (keys outs) /\
      Forall2 (fun v w => shown (vshape v) v w) vs ws /\
      map (fun m => (s_owner m, s_what m)) ms
      = (map (fun w => (None, w)) (users h key) ++ map (fun w => (Some (length outs), w)) (ws ++ losses i))%list).
Proof. exact log_exact. Qed.
Print Assumptions C72_log_partial.

(** After every program no two inferences log under the same key, and no two
    summaries of the graph have the same tag: their curves are not drawn as one. *)
Theorem C72_names_apart : forall g globals pick fuel vname vshape h s outs,
  program g globals pick fuel vname vshape new_graph [] h = (s, outs) ->
  NoDup (keys outs) /\
  forall e1 e2, In e1 (colls s) -> In e2 (colls s) -> s_tag (snd e1) = s_tag (snd e2) -> snd e1 = snd e2.
Proof. exact names_apart. Qed.
Print Assumptions C72_names_apart.

(** Every summary of an inference is tagged by what it shows: the kind and the name
    of the variable, with slashes for colons, in the name scope of the initialisation,
    numbered if the name is taken. *)
Theorem C72_tags : forall g globals pick fuel vname vshape h s outs,
  program g globals pick fuel vname vshape new_graph [] h = (s, outs) ->
  forall key m, In (key, m) (colls s) -> s_owner m <> None ->
  exists stack i n, In (EInit stack i) h /\ titled vname (s_what m) n /\ tagged stack n (s_tag m).
Proof. exact tags_exact. Qed.
Print Assumptions C72_tags.

(** Variable 0 has tensor 0; tensor 1, computed from it, is the value of random
    variable 0; random variables 1 and 2 have the tensors 2 and 3, the latter computed
    from variable 1. *)
Definition ex_g : graph := mkgraph [mkop [0] [1]; mkop [5] [3]] (fun r => S r) (fun v => 5 * v).
Definition ex_name (v : nat) : string := if Nat.eqb v 0 then "loc:0" else "scale:0".
Definition ex_shape (v : nat) : option (list (option nat)) := if Nat.eqb v 0 then Some [] else Some [Some 3].
Definition ex_inf (log : option (option (list nat))) (grads : list (nat * bool)) : inf :=
  mkinf log [NRV 0] [(NRV 1, NRV 2)] ["loss"] grads.
Definition ex_init := initialize ex_g [0; 1] (fun k => k) (enough ex_g) ex_name ex_shape.
Definition ex_program := program ex_g [0; 1] (fun k => k) (enough ex_g) ex_name ex_shape new_graph [].

(** Full isolation fails: the first inference takes the key "summaries", which is
    also the collection of all summaries the program creates, by default
    (inference.py:273). *)
Theorem C72_shared_refuted : exists g globals pick fuel vname vshape h s outs i s' key ms m,
  single_producer g /\ enough g <= fuel /\
  program g globals pick fuel vname vshape new_graph [] h = (s, outs) /\
  initialize g globals pick fuel vname vshape s "" (length outs) i = (s', Logged key ms) /\
  In m ms /\ s_owner m <> Some (length outs).
Proof.
  exists ex_g, [0; 1], (fun k => k), (enough ex_g), ex_name, ex_shape, [EUser "" "accuracy" [default_collection] 7].
  eexists _, _, (ex_inf (Some None) [(1, true)]), _, _, _, (mksum "accuracy" None (User 7)).
  split. { intros o1 o2 t [<-|[<-|[]]] [<-|[<-|[]]] [<-|[]] [E|[]]; try discriminate; reflexivity. }
  split; [apply Nat.le_refl|]. split; [vm_compute; reflexivity|]. split; [vm_compute; reflexivity|].
  split; [left; reflexivity|discriminate].
Qed.
Print Assumptions C72_shared_refuted.

(** Logging is not neutral: an inference that can be initialised without a log
    directory raises with one if a variable has no gradient
    (variational_inference.py:72-79). *)
Theorem C72_gradient_refuted : exists g globals pick fuel vname vshape data latent parts grads s',
  single_producer g /\ enough g <= fuel /\ (forall v, vshape v <> None) /\
  initialize g globals pick fuel vname vshape new_graph "" 0 (mkinf None data latent parts grads) = (new_graph, Silent) /\
  initialize g globals pick fuel vname vshape new_graph "" 0 (mkinf (Some None) data latent parts grads) = (s', Raised).
Proof.
  exists ex_g, [0; 1], (fun k => k), (enough ex_g), ex_name, ex_shape, [NRV 0], [(NRV 1, NRV 2)], ["loss"], [(0, false)].
  eexists.
  split. { intros o1 o2 t [<-|[<-|[]]] [<-|[<-|[]]] [<-|[]] [E|[]]; try discriminate; reflexivity. }
  split; [apply Nat.le_refl|]. split. { intros v. unfold ex_shape. destruct (Nat.eqb v 0); discriminate. }
  split; vm_compute; reflexivity.
Qed.
Print Assumptions C72_gradient_refuted.

(** Two inferences and a summary of the program: keys, tags and contents. *)
Example C72_demo :
  map (fun r => match r with Logged key ms => (key, map (fun m => (s_tag m, s_what m)) ms) | _ => ("", []) end)
    (snd (ex_program [EName "" "summaries"; EInit "" (ex_inf (Some None) [(1, true)]); EInit "" (ex_inf None []);
                      EInit "again" (ex_inf (Some (Some [0])) [])]))
  = [("summaries_1", [("parameter/loc/0", Scalar 0); ("parameter/scale/0", Histogram 1); ("loss", Part "loss");
                      ("gradient/scale/0", Gradient 1); ("gradient_norm/scale/0", GradientNorm 1)]);
     ("", []);
     ("again/summaries", [("again/parameter/loc/0", Scalar 0); ("again/loss", Part "loss")])].
Proof. vm_compute. reflexivity. Qed.
(** The hypotheses of C72_log_partial hold for this graph. *)
Example C72_hypotheses : single_producer ex_g /\
  (forall v w, In v [0; 1] -> In w [0; 1] -> vref ex_g v = vref ex_g w -> v = w) /\
  about (ex_inf (Some None) []) (NRV 2) /\ up ex_g anything (tensor_of ex_g (NRV 2)) (vref ex_g 1).
Proof.
  split. { intros o1 o2 t [<-|[<-|[]]] [<-|[<-|[]]] [<-|[]] [E|[]]; try discriminate; reflexivity. }
  split. { intros v w [<-|[<-|[]]] [<-|[<-|[]]] E; try discriminate; reflexivity. }
  split. { right. exists (NRV 1, NRV 2). cbn. auto. }
  apply (up_step _ _ 3 5 5 I); [|apply up_refl]. exists (mkop [5] [3]). cbn. auto.
Qed.
