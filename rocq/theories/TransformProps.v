(** * Properties C15 and C16: transformations to unconstrained space. *)
From Coquelicot Require Import Coquelicot.
From Coq Require Import Reals String List Lra.
From Verif Require Import Transform TransformSpec TransformProofs.
Import ListNotations.
Local Open Scope R_scope.

(** ** C15: transform returns the variable itself or a bijective image with
    unconstrained support, and raises for every other support *)

Theorem C15_transform : forall x,
  match transform x with
  | TOk y => exists b, unconstrains x y b
  | TAttributeError => support x = None
  | TValueError => exists s, support x = Some s /\ ~ continuous s
  end.
Proof. exact transform_spec. Qed.
Print Assumptions C15_transform.

Theorem C15_transform_total : forall x s, support x = Some s -> continuous s -> exists y, transform x = TOk y.
Proof. exact transform_total. Qed.
Print Assumptions C15_transform_total.

(** The log-det-Jacobians: derivatives of the elementwise bijectors, the
    determinant of the Jacobian in the free coordinates for the simplex. *)
Theorem C15_log_det_jacobian : forall x y b s,
  support x = Some s -> transform x = TOk y -> y = Trans x b (support y) -> y <> x ->
  (s <> "simplex"%string -> log_derivative s (fwd b) (fldj b) /\ log_derivative "real" (inv b) (ildj b)) /\
  (s = "simplex"%string ->
     (forall v, exists d, fldj b v = [d]) /\
     forall c, in_support s (simplex_point c) ->
       exists m d, jacobian (fun c => fwd b (simplex_point c)) c m /\ determinant m (exp d) /\ fldj b (simplex_point c) = [d]) /\
  forall u, ildj b u = map Ropp (fldj b (inv b u)).
Proof. exact jacobians. Qed.
Print Assumptions C15_log_det_jacobian.

Example C15_gamma : transform (Base 0 (Some "nonnegative"%string)) =
  TOk (Trans (Base 0 (Some "nonnegative"%string)) (Invert Softplus) (Some "real"%string)).
Proof. reflexivity. Qed.
Example C15_normal : transform (Base 0 (Some "real"%string)) = TOk (Base 0 (Some "real"%string)).
Proof. reflexivity. Qed.
Example C15_poisson : transform (Base 0 (Some "countable"%string)) = TValueError.
Proof. reflexivity. Qed.

(** The determinant by elimination is the usual one. *)
Example C15_determinant : determinant [[2; 1]; [4; 5]] 6.
Proof.
  replace 6 with (2 * (3 * 1)) by lra. constructor; [lra|]. unfold eliminate. simpl.
  replace (5 - 4 / 2 * 1) with 3 by lra. constructor; [lra|]. constructor.
Qed.

(** A point of the simplex. *)
Example C15_simplex : in_support "simplex" (simplex_point [/2; /4]).
Proof.
  unfold in_support, simplex_point; simpl. split; [discriminate|]. split; [discriminate|]. intros _.
  split; [discriminate|]. split; [repeat constructor; lra|lra].
Qed.

(** ** C16: auto_transform

    Missing from the full statement: pairs with different supports of which one
    is not continuous.  These must be left alone, but raise; see below. *)

Theorem C16_auto_transform_partial : forall latent, NoDup (map fst latent) ->
  (forall z qz s s', In (z, qz) latent -> support z = Some s -> support qz = Some s' -> s <> s' ->
     s' <> "point"%string -> continuous s /\ (continuous s' \/ s' = "points"%string)) ->
  exists st, auto_transform latent = (st, None) /\
    length (a_latent st) = length latent /\ length (a_unconstrained st) = length latent /\
    forall i zq, nth_error latent i = Some zq ->
      exists q v, nth_error (a_latent st) i = Some q /\ nth_error (a_unconstrained st) i = Some v /\
       fst q = fst zq /\
       ((to_rewrite (fst zq) (snd zq) /\ rewritten (fst zq) (snd zq) (snd q) (fst v) (snd v) /\
         lookup (a_transformations st) (fst zq) = Some (fst v)) \/
        (~ to_rewrite (fst zq) (snd zq) /\ q = zq /\ v = zq /\ lookup (a_transformations st) (fst zq) = None)).
Proof. exact auto_transform_partial. Qed.
Print Assumptions C16_auto_transform_partial.

(** It raises only because of such a pair. *)
Theorem C16_raises_partial : forall latent st e, auto_transform latent = (st, Some e) ->
  e = TValueError /\ exists z qz s s', In (z, qz) latent /\ support z = Some s /\ support qz = Some s' /\
    s <> s' /\ s' <> "point"%string /\ ~ to_rewrite z qz.
Proof. exact auto_raises. Qed.
Print Assumptions C16_raises_partial.

(** Initialising again leaves the bindings of latent variables as they are... *)
Theorem C16_initialize_again_partial : forall latent st, auto_transform latent = (st, None) ->
  exists st', auto_transform (a_latent st) = (st', None) /\ a_latent st' = a_latent st.
Proof. exact auto_twice. Qed.
Print Assumptions C16_initialize_again_partial.

(** ...but forgets the transformations: a constrained variable is then taken
    for an unconstrained one. *)
Theorem C16_initialize_again_refuted : exists latent st st' z, NoDup (map fst latent) /\
  auto_transform latent = (st, None) /\ auto_transform (a_latent st) = (st', None) /\
  (exists t s, lookup (a_transformations st) z = Some t /\ support t = Some s /\ unconstrained s) /\
  lookup (a_transformations st') z = None /\
  In z (map fst (a_unconstrained st')) /\ exists s, support z = Some s /\ constrained s.
Proof. exact second_refuted. Qed.
Print Assumptions C16_initialize_again_refuted.

(** A discrete variable approximated by samples raises, and leaves this and
    every later variable unbound. *)
Theorem C16_discrete_refuted : exists latent, NoDup (map fst latent) /\
  (forall z qz, In (z, qz) latent -> ~ to_rewrite z qz) /\
  exists st e, auto_transform latent = (st, Some e) /\ a_latent st = [].
Proof. exact discrete_refuted. Qed.
Print Assumptions C16_discrete_refuted.

(** A gamma variable approximated by a normal, and a point mass. *)
Example C16_demo :
  let z := Base 0 (Some "nonnegative"%string) in let q := Base 1 (Some "real"%string) in
  let w := Base 2 (Some "01"%string) in let p := Base 3 (Some "point"%string) in
  auto_transform [(z, q); (w, p)] =
    (mkauto [(z, Trans q (Invert (Invert Softplus)) None); (w, p)]
            [(Trans z (Invert Softplus) (Some "real"%string), q); (w, p)]
            [(z, Trans z (Invert Softplus) (Some "real"%string))], None).
Proof. reflexivity. Qed.
