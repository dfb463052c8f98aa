(** * Transformations to unconstrained space.

    Models edward/util/random_variables.py:856-917 ([transform]) and
    edward/inferences/inference.py:222-264 ([auto_transform]). *)
From Coq Require Import Reals String List Bool.
Import ListNotations.
Local Open Scope R_scope.

(** ** TensorFlow's bijectors, as functions of the reals

    TensorFlow is not part of the repository; these are the formulas its
    documentation gives for the bijectors used at random_variables.py:901-908
    and inference.py:249.  A value is the list of its elements; for
    SoftmaxCentered it is one event. *)
Inductive bij : Type := Sigmoid | Softplus | SoftmaxCentered | Invert (b : bij).

(** tfb.Sigmoid (random_variables.py:901): forward and inverse. *)
Definition sigmoid (x : R) : R := / (1 + exp (- x)).
(** tfb.Sigmoid, inverse (random_variables.py:901). *)
Definition logit (y : R) : R := ln y - ln (1 - y).
(** tfb.Softplus (random_variables.py:904): forward and inverse. *)
Definition softplus (x : R) : R := ln (1 + exp x).
(** tfb.Softplus, inverse (random_variables.py:904). *)
Definition softplus_inv (y : R) : R := ln (exp y - 1).
(** tf.reduce_sum over one event
    (inside tfb.SoftmaxCentered, random_variables.py:907; also klqp.py:674, hmc.py:101). *)
Fixpoint sumR (l : list R) : R := match l with [] => 0 | x :: l' => x + sumR l' end.
(** tfb.SoftmaxCentered (random_variables.py:907), forward: append a zero, then
    softmax. *)
Definition softmax_centered (x : list R) : list R :=
  let e := map exp (x ++ [0]) in map (fun a => a / sumR e) e.
(** tfb.SoftmaxCentered, inverse: log y without its last entry, minus the last entry
    (random_variables.py:907). *)
Definition softmax_centered_inv (y : list R) : list R :=
  map (fun a => ln a - ln (last y 0)) (removelast y).

(** Bijector.forward and Bijector.inverse (random_variables.py:915, inference.py:249). *)
Fixpoint fwd (b : bij) (x : list R) : list R :=
  match b with
  | Sigmoid => map sigmoid x
  | Softplus => map softplus x
  | SoftmaxCentered => softmax_centered x
  | Invert b' => inv b' x
  end
with inv (b : bij) (y : list R) : list R :=
  match b with
  | Sigmoid => map logit y
  | Softplus => map softplus_inv y
  | SoftmaxCentered => softmax_centered_inv y
  | Invert b' => fwd b' y
  end.

(** Bijector.inverse_log_det_jacobian, one entry per event (hmc.py:152 for random_variables.py:901). *)
Definition ildj_sigmoid (y : R) : R := - ln y - ln (1 - y).
(** The same for random_variables.py:904. *)
Definition ildj_softplus (y : R) : R := - ln (1 - exp (- y)).
(** The same for random_variables.py:907. *)
Definition ildj_softmax_centered (y : list R) : R := - sumR (map ln y).

(** Bijector.forward_log_det_jacobian (inference.py:249, of random_variables.py:901). *)
Definition fldj_sigmoid (x : R) : R := - softplus (- x) - softplus x.
(** The same for random_variables.py:904. *)
Definition fldj_softplus (x : R) : R := - softplus (- x).
(** The same for random_variables.py:907. *)
Definition fldj_softmax_centered (x : list R) : R := - ildj_softmax_centered (softmax_centered x).

(** The two log-Jacobians of a bijector (hmc.py:152, inference.py:249). *)
Fixpoint fldj (b : bij) (x : list R) : list R :=
  match b with
  | Sigmoid => map fldj_sigmoid x
  | Softplus => map fldj_softplus x
  | SoftmaxCentered => [fldj_softmax_centered x]
  | Invert b' => ildj b' x
  end
with ildj (b : bij) (y : list R) : list R :=
  match b with
  | Sigmoid => map ildj_sigmoid y
  | Softplus => map ildj_softplus y
  | SoftmaxCentered => [ildj_softmax_centered y]
  | Invert b' => fldj b' y
  end.

(** ** Random variables

    [Base id s]: a random variable (or tensor) with its [support] attribute, if
    any (models/random_variables.py:29-43, empirical.py:124, point_mass.py:109).
    [Trans x b s]: TransformedDistribution(x, b). *)
Inductive rv : Type := Base (id : nat) (s : option string) | Trans (x : rv) (b : bij) (s : option string).

(** The [support] attribute (random_variables.py:893-898). *)
Definition support (x : rv) : option string := match x with Base _ s | Trans _ _ s => s end.

(** The result of transform: a random variable, or one of the exceptions at
    random_variables.py:898 and 913. *)
Inductive tres : Type := TOk (x : rv) | TAttributeError | TValueError.

(** transform(x) (random_variables.py:889-917), without further arguments. *)
Definition transform (x : rv) : tres :=
  match support x with
  | None => TAttributeError
  | Some s =>
      if String.eqb s "01" then TOk (Trans x (Invert Sigmoid) (Some "real"%string))
      else if String.eqb s "nonnegative" then TOk (Trans x (Invert Softplus) (Some "real"%string))
      else if String.eqb s "simplex" then TOk (Trans x (Invert SoftmaxCentered) (Some "multivariate_real"%string))
      else if String.eqb s "real" || String.eqb s "multivariate_real" then TOk x
      else TValueError
  end.

(** transform(x, b) (random_variables.py:889-890): no [support] attribute is
    set on the result. *)
Definition transform_with (x : rv) (b : bij) : rv := Trans x b None.

(** The test at inference.py:231-232. *)
Definition mismatched (z qz : rv) : bool :=
  match support z, support qz with
  | Some s, Some s' => negb (String.eqb s s') && negb (String.eqb s' "point")
  | _, _ => false
  end.

(** Identity of random variables (models/random_variable.py:159-166), used at
    inference.py:247.  Terms stand for objects: the result of transform is
    either the same object or built from it. *)
Definition rv_eq_dec : forall a b : rv, {a = b} + {a <> b}.
Proof.
  assert (Hb : forall a b : bij, {a = b} + {a <> b}) by decide equality.
  assert (Hs : forall a b : option string, {a = b} + {a <> b}) by (decide equality; apply string_dec).
  decide equality. apply PeanoNat.Nat.eq_dec.
Defined.

(** [z_unconstrained.bijector] if [z_unconstrained != z] (inference.py:247-249). *)
Definition bijector_of (z z_un : rv) : option bij :=
  if rv_eq_dec z_un z then None
  else match z_un with Trans _ b _ => Some b | Base _ _ => None end.

(** What one pair becomes: the constrained binding (self.latent_vars), the
    unconstrained one (self.latent_vars_unconstrained) and the entry of
    self.transformations (inference.py:230-263). *)
Record pair_out : Type := mkpair { po_q : rv; po_zu : rv; po_qu : rv; po_tr : option rv }.

(** inference.py:231-263 for one pair. *)
Definition auto_pair (z qz : rv) : pair_out + tres :=
  if mismatched z qz then
    match transform z with
    | TOk z_un =>
        let q_un := match support qz with
                    | Some s => if String.eqb s "points" then TOk qz else transform qz
                    | None => transform qz
                    end in
        match q_un with
        | TOk q_un =>
            match bijector_of z z_un with
            | Some b => inl (mkpair (transform_with q_un (Invert b)) z_un q_un (Some z_un))
            | None => inl (mkpair q_un z_un q_un (Some z_un))
            end
        | e => inr e
        end
    | e => inr e
    end
  else inl (mkpair qz z qz None).

(** The attributes of the inference after initialize(auto_transform=True) (inference.py:222-264). *)
Record auto_state : Type := mkauto {
  a_latent : list (rv * rv); a_unconstrained : list (rv * rv); a_transformations : list (rv * rv) }.

(** inference.py:222-264: an exception leaves the dictionaries half filled; the
    latent variables not yet reached are then unbound. *)
Fixpoint auto_loop (todo : list (rv * rv)) (st : auto_state) : auto_state * option tres :=
  match todo with
  | [] => (st, None)
  | (z, qz) :: todo' =>
      match auto_pair z qz with
      | inl p => auto_loop todo' (mkauto (a_latent st ++ [(z, po_q p)])
                                         (a_unconstrained st ++ [(po_zu p, po_qu p)])
                                         (a_transformations st ++ match po_tr p with Some t => [(z, t)] | None => [] end))
      | inr e => (st, Some e)
      end
  end.

(** inference.py:222-264. *)
Definition auto_transform (latent : list (rv * rv)) : auto_state * option tres :=
  auto_loop latent (mkauto [] [] []).
