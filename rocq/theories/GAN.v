(** * Adversarial inference: GANInference, WGANInference, BiGANInference and ImplicitKLqp.

    Models edward/inferences/gan_inference.py:65-207, wgan_inference.py:44-116,
    bigan_inference.py:54-92 and implicit_klqp.py:86-242.  Gradients and the
    optimizers' arithmetic are oracles (records [run_result]). *)
From Coq Require Import Reals Ascii String List Arith Bool.
From Verif Require Import Graph Transform.
Import ListNotations.
Local Open Scope string_scope.

(** ** Which side owns what *)

(** An item of a graph collection (a variable, a regularisation loss): identity and name
    (gan_inference.py:130-146). *)
Definition item : Type := nat * string.

(** tf.get_collection(key, scope=scope): items whose name re.match'es the scope,
    that is, starts with it (gan_inference.py:130, 143-144). *)
Definition get_collection (collection : list item) (scope : string) : list nat :=
  map fst (filter (fun i => prefix scope (snd i)) collection).

(** [r for r in all if r not in side_d] (gan_inference.py:132, 146). *)
Definition rest (all side_d : list nat) : list nat := filter (fun r => negb (memb r side_d)) all.

(** GANInference, WGANInference, ImplicitKLqp: (var_list, var_list_d)
    (gan_inference.py:143-146, wgan_inference.py:98-101, implicit_klqp.py:218-221). *)
Definition gan_var_lists (trainable : list item) (var_list : option (list nat)) : list nat * list nat :=
  let var_list_d := get_collection trainable "Disc" in
  (match var_list with Some l => l | None => rest (map fst trainable) var_list_d end, var_list_d).

(** The regularisers (reg_terms, reg_terms_d) (gan_inference.py:130-132,
    wgan_inference.py:89-91, implicit_klqp.py:209-211). *)
Definition gan_reg_terms (losses : list item) : list nat * list nat :=
  let reg_terms_d := get_collection losses "Disc" in
  (rest (map fst losses) reg_terms_d, reg_terms_d).

(** BiGANInference: (var_list, var_list_d); the argument var_list is not used
    (bigan_inference.py:83-86). *)
Definition bigan_var_lists (trainable : list item) (var_list : option (list nat)) : list nat * list nat :=
  (get_collection trainable "Gen", get_collection trainable "Disc").

(** BiGANInference: (reg_terms, reg_terms_d) (bigan_inference.py:77-78). *)
Definition bigan_reg_terms (losses : list item) : list nat * list nat :=
  (get_collection losses "Gen", get_collection losses "Disc").

(** Variables that a discriminator creates by tf.get_variable inside
    variable_scope("Disc") (gan_inference.py:119-120), when initialize is itself
    called inside the variable scope [outer] (as "" or "model/"). *)
Definition disc_created (outer : string) (created : list item) : list item :=
  map (fun i => (fst i, outer ++ "Disc/" ++ snd i)) created.

(** optimizer.apply_gradients raises ValueError on an empty list
    (gan_inference.py:103-106). *)
Definition can_apply (lists : list nat * list nat) : bool :=
  match lists with (_ :: _, _ :: _) => true | _ => false end.

(** ** update *)

(** Values of the trainable variables, the slots of the two optimizers, and the
    counter t (gan_inference.py:94-107). *)
Record gan_state : Type := mkgan { g_value : nat -> R; g_slots : nat -> R; g_slots_d : nat -> R; g_t : nat }.

(** What a session run computes: new values for the variables of each side, the
    optimizers' new slots, which side's assignments came last if both were run, and
    whether the check of self.op_check in debug mode fails (gan_inference.py:188-201). *)
Record run_result : Type := mkrun
  { r_gen : nat -> R; r_disc : nat -> R; r_slots : nat -> R; r_slots_d : nat -> R; r_gen_last : bool; r_check_fails : bool }.

(** gan_inference.py:186, 201. *)
Inductive gan_error : Type := NotImplementedError | InvalidArgumentError.

(** The assignments of apply_gradients to a list of variables (gan_inference.py:103-106). *)
Definition assign (vars : list nat) (new value : nat -> R) : nat -> R :=
  fun v => if memb v vars then new v else value v.

(** GANInference.update (gan_inference.py:154-207): the new state, and the
    iteration number or the exception.  Summaries and the feed dictionary are
    modelled elsewhere. *)
Definition gan_update (lists : list nat * list nat) (debug : bool) (variables : option string) (r : run_result) (s : gan_state)
  : gan_state * (nat + gan_error) :=
  let (gen, disc) := lists in
  let checked (s' : gan_state) := (s', if andb debug (r_check_fails r) then inr InvalidArgumentError else inl (g_t s')) in
  match variables with
  | None =>
      let value := if r_gen_last r then assign gen (r_gen r) (assign disc (r_disc r) (g_value s))
                   else assign disc (r_disc r) (assign gen (r_gen r) (g_value s)) in
      checked (mkgan value (r_slots r) (r_slots_d r) (S (g_t s)))
  | Some v =>
      if String.eqb v "Gen" then checked (mkgan (assign gen (r_gen r) (g_value s)) (r_slots r) (g_slots_d s) (S (g_t s)))
      else if String.eqb v "Disc" then checked (mkgan (assign disc (r_disc r) (g_value s)) (g_slots s) (r_slots_d r) (S (g_t s)))
      else (s, inr NotImplementedError)
  end.

(** tf.clip_by_value(w, -clip, clip): maximum(minimum(w, clip), -clip) (wgan_inference.py:60-62). *)
Definition clip_by_value (w clip : R) : R := Rmax (Rmin w clip) (- clip).

(** WGANInference.update (wgan_inference.py:109-116); an exception in the parent's
    update leaves before the weights are clipped. *)
Definition wgan_update (lists : list nat * list nat) (debug : bool) (clip : option R) (variables : option string) (r : run_result) (s : gan_state)
  : gan_state * (nat + gan_error) :=
  match gan_update lists debug variables r s with
  | (s', inr e) => (s', inr e)
  | (s', inl info) =>
      match clip with
      | Some c =>
          if match variables with None => true | Some v => String.eqb v "Disc" end
          then (mkgan (assign (snd lists) (fun w => clip_by_value (g_value s' w) c) (g_value s')) (g_slots s') (g_slots_d s') (g_t s'), inl info)
          else (s', inl info)
      | None => (s', inl info)
      end
  end.

(** A caller's history of updates, whose exceptions are caught (gan_inference.py:154-207). *)
Definition history : Type := list (option string * run_result).

(** Successive calls of GANInference.update (gan_inference.py:154-207). *)
Definition gan_run (lists : list nat * list nat) (debug : bool) (h : history) (s : gan_state) : gan_state :=
  fold_left (fun s u => fst (gan_update lists debug (fst u) (snd u) s)) h s.

(** Successive calls of WGANInference.update (wgan_inference.py:109-116). *)
Definition wgan_run (lists : list nat * list nat) (debug : bool) (clip : option R) (h : history) (s : gan_state) : gan_state :=
  fold_left (fun s u => fst (wgan_update lists debug clip (fst u) (snd u) s)) h s.

(** ** Losses *)

Local Open Scope R_scope.

(** tf.nn.sigmoid_cross_entropy_with_logits: max(x, 0) - x * z + log(1 + exp(-abs(x)))
    (gan_inference.py:134-139). *)
Definition cross_entropy (label logit : R) : R := Rmax logit 0 - logit * label + ln (1 + exp (- Rabs logit)).

(** tf.reduce_mean (gan_inference.py:140-141). *)
Definition reduce_mean (l : list R) : R := sumR l / INR (length l).

(** loss_d of GANInference (gan_inference.py:134-140); also the 'log' ratio loss
    (implicit_klqp.py:230-236, 198) of r_psample and r_qsample.  The two lists have
    one length; broadcasting is not modelled. *)
Definition gan_loss_d (d_true d_fake : list R) (reg_terms_d : list R) : R :=
  reduce_mean (map (fun p => cross_entropy 1 (fst p) + cross_entropy 0 (snd p)) (combine d_true d_fake)) + sumR reg_terms_d.

(** loss of GANInference (gan_inference.py:138-141). *)
Definition gan_loss (d_fake : list R) (reg_terms : list R) : R :=
  reduce_mean (map (cross_entropy 1) d_fake) + sumR reg_terms.

(** loss_d of BiGANInference (bigan_inference.py:68-71, 80): labels swapped. *)
Definition bigan_loss_d (d_xtzf d_xfzt : list R) (reg_terms_d : list R) : R :=
  reduce_mean (map (fun p => cross_entropy 1 (snd p) + cross_entropy 0 (fst p)) (combine d_xtzf d_xfzt)) + sumR reg_terms_d.

(** loss of BiGANInference (bigan_inference.py:72-75, 81). *)
Definition bigan_loss (d_xtzf d_xfzt : list R) (reg_terms : list R) : R :=
  reduce_mean (map (fun p => cross_entropy 0 (snd p) + cross_entropy 1 (fst p)) (combine d_xtzf d_xfzt)) + sumR reg_terms.

(** loss_d of WGANInference (wgan_inference.py:93-95); the penalty is an argument. *)
Definition wgan_loss_d (d_true d_fake : list R) (penalty : R) (reg_terms_d : list R) : R :=
  reduce_mean d_fake - reduce_mean d_true + penalty + sumR reg_terms_d.

(** loss of WGANInference (wgan_inference.py:96). *)
Definition wgan_loss (d_fake : list R) (reg_terms : list R) : R := - reduce_mean d_fake + sumR reg_terms.

(** penalty of WGANInference (wgan_inference.py:76-87), with the slopes as given. *)
Definition wgan_penalty (penalty : option R) (slopes : list R) : R :=
  match penalty with
  | None => 0
  | Some p => if Req_EM_T p 0 then 0 else p * reduce_mean (map (fun s => (s - 1) * (s - 1)) slopes)
  end.

(** hinge_loss (implicit_klqp.py:239-242), averaged (line 198). *)
Definition hinge_loss (psample qsample : R) : R := Rmax (1 - psample) 0 + Rmax (1 + qsample) 0.

(** ** The samples of ImplicitKLqp *)

(** A dictionary from random variables to values (implicit_klqp.py:147-193). *)
Definition draws (V : Type) : Type := list (nat * V).

(** The arguments of the two calls of the discriminator (implicit_klqp.py:147-193),
    each (data, local latent, global latent).  [globals] pairs a global variable with
    the value of its approximation; [locals] gives for a local variable the draw of
    its copy, a function of the values swapped in, and the value of its
    approximation; [data] gives for a data variable the draw of its copy, a
    function of the values swapped in, and the data. *)
Definition implicit_samples {V : Type} (globals : draws V) (locals : list (nat * ((draws V -> V) * V))) (data : list (nat * ((draws V -> V) * V)))
  : (draws V * draws V * draws V) * (draws V * draws V * draws V) :=
  let qbeta_sample := globals in
  let pz_sample := map (fun z => (fst z, fst (snd z) qbeta_sample)) locals in
  let qz_sample := map (fun z => (fst z, snd (snd z))) locals in
  let dict_swap := (qbeta_sample ++ qz_sample)%list in
  let x_psample := map (fun x => (fst x, fst (snd x) dict_swap)) data in
  let x_qsample := map (fun x => (fst x, snd (snd x))) data in
  ((x_psample, pz_sample, qbeta_sample), (x_qsample, qz_sample, qbeta_sample)).
