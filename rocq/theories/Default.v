(** * Approximations that are created for a list of latent variables.

    Models the constructors edward/inferences/klqp.py:65-85 (the same in the seven
    classes at 190, 253, 330, 394, 457, 533, 603 and in klpq.py:65-83),
    map.py:92-113, laplace.py:78-108 and monte_carlo.py:78-93, up to the checks of
    [Inference.__init__] on latent_vars.  Batch and event shapes are fully
    known. *)
From Coq Require Import Reals String List Arith Bool NArith.
From Verif Require Import Transform Checks.
Import ListNotations.
Local Open Scope string_scope.

(** What is read of a latent variable (klqp.py:71-75, monte_carlo.py:81-82). *)
Record zvar : Type := mkz { z_rv : rv; z_sample : list nat; z_batch : list nat; z_event : list nat; z_dtype : nat }.

(** z.batch_shape.concatenate(z.event_shape) (klqp.py:75). *)
Definition batch_event (z : zvar) : list nat := (z_batch z ++ z_event z)%list.
(** z.shape, of the sample (random_variables.py:78). *)
Definition z_shape (z : zvar) : list nat := (z_sample z ++ batch_event z)%list.

(** The dtype of tf.random_normal, float32 (klqp.py:76). *)
Definition float32 : nat := 0.

(** The approximations, by the variables they are made of: Normal(loc,
    softplus(scale)) (klqp.py:76-79), PointMass of a variable or of its image
    under the inverse of a bijector (map.py:99-104), MultivariateNormalTriL
    (laplace.py:85-93), Empirical with its number of rows (monte_carlo.py:80-83). *)
Inductive approx : Type :=
| QNormal (loc scale : nat) (shape : list nat)
| QPoint (p : nat) (b : option bij) (shape : list nat)
| QTriL (loc scale : nat) (b : option bij) (shape : list nat)
| QEmpirical (p : nat) (rows : N) (shape : list nat) (dtype : nat).

(** qz.shape and qz.dtype (random_variables.py:78, 81). *)
Definition q_shape (q : approx) : list nat :=
  match q with QNormal _ _ s | QPoint _ _ s | QTriL _ _ _ s | QEmpirical _ _ s _ => s end.
(** random_variables.py:81. *)
Definition q_dtype (q : approx) : nat := match q with QEmpirical _ _ _ t => t | _ => float32 end.

(** The scale of the Normal by the value of its variable (klqp.py:77-78). *)
Definition normal_scale (x : R) : R := softplus x.
(** The point mass, or the location, by the value of its variable (map.py:100-103,
    laplace.py:86-90). *)
Definition point_value (b : option bij) (x : list R) : list R := match b with Some b => inv b x | None => x end.

(** A constructor returns self.latent_vars or raises
    (inference.py:62-130, map.py:85-115, laplace.py:60-100). *)
Inductive dres (A : Type) : Type := DRet (a : A) | DTypeError | DValueError | DAttributeError | DIndexError.
Arguments DRet {A}. Arguments DTypeError {A}. Arguments DValueError {A}. Arguments DAttributeError {A}. Arguments DIndexError {A}.

(** The shape of bijector.forward(x) and of bijector.inverse(x) (map.py:103): one entry more
    or less for SoftmaxCentered; [None] if it has no dimension. *)
Fixpoint fwd_shape (b : bij) (s : list nat) : option (list nat) :=
  match b with
  | Sigmoid | Softplus => Some s
  | SoftmaxCentered => match s with [] => None | _ => Some (removelast s ++ [S (last s 0)])%list end
  | Invert b' => inv_shape b' s
  end
with inv_shape (b : bij) (s : list nat) : option (list nat) :=
  match b with
  | Sigmoid | Softplus => Some s
  | SoftmaxCentered => match s with [] => None | _ => Some (removelast s ++ [pred (last s 0)])%list end
  | Invert b' => fwd_shape b' s
  end.

(** d[z] = q; keys are compared by identity (klqp.py:79). *)
Fixpoint set_latent (d : list (zvar * approx)) (z : zvar) (q : approx) : list (zvar * approx) :=
  match d with
  | [] => [(z, q)]
  | (k, v) :: d' => if rv_eq_dec (z_rv k) (z_rv z) then (k, q) :: d' else (k, v) :: set_latent d' z q
  end.

(** The tuple at klqp.py:68-69. *)
Definition continuous_supports : list string := ["01"; "nonnegative"; "simplex"; "real"; "multivariate_real"].

(** The body of the loop at klqp.py:70-79; [n] variables exist, two are created. *)
Definition klqp_default (n : nat) (z : zvar) : dres (nat * approx) :=
  match support (z_rv z) with
  | None => DAttributeError
  | Some s =>
      if existsb (String.eqb s) continuous_supports then DRet (S (S n), QNormal n (S n) (batch_event z)) else DAttributeError
  end.

(** hasattr(z, 'support'), transform(z), hasattr(z_transform, 'bijector')
    (map.py:100-102, laplace.py:86-88). *)
Definition own_bijector (z : zvar) : dres (option bij) :=
  match support (z_rv z) with
  | None => DRet None
  | Some _ =>
      match transform (z_rv z) with
      | TOk (Trans _ b _) => DRet (Some b)
      | TOk (Base _ _) => DRet None
      | TAttributeError => DAttributeError
      | TValueError => DValueError
      end
  end.

(** The shape of params after line 103 (map.py:99-104, laplace.py:85-89). *)
Definition point_shape (b : option bij) (s : list nat) : option (list nat) := match b with Some b => inv_shape b s | None => Some s end.

(** The body of the loop at map.py:95-104. *)
Definition map_default (n : nat) (z : zvar) : dres (nat * approx) :=
  match own_bijector z with
  | DRet b =>
      match point_shape b (batch_event z) with
      | Some s => DRet (S n, QPoint n b s)
      | None => DValueError
      end
  | DTypeError => DTypeError | DValueError => DValueError | DAttributeError => DAttributeError | DIndexError => DIndexError
  end.

(** The body of the loop at laplace.py:81-94.  [batch_event_shape[-1]] of a scalar
    raises; so does MultivariateNormalTriL if the location has another shape than the
    rows of scale_tril (broadcasting of a last dimension of one is left out). *)
Definition laplace_default (n : nat) (z : zvar) : dres (nat * approx) :=
  match own_bijector z with
  | DRet b =>
      match point_shape b (batch_event z) with
      | Some s =>
          match batch_event z with
          | [] => DIndexError
          | _ => if list_eq_dec Nat.eq_dec s (batch_event z) then DRet (S (S n), QTriL n (S n) b s) else DValueError
          end
      | None => DValueError
      end
  | DTypeError => DTypeError | DValueError => DValueError | DAttributeError => DAttributeError | DIndexError => DIndexError
  end.

(** One entry of the dictionary at monte_carlo.py:80-83. *)
Definition monte_carlo_default (n : nat) (z : zvar) : dres (nat * approx) :=
  DRet (S n, QEmpirical n 10000%N (batch_event z) (z_dtype z)).

(** The loop over the list (klqp.py:67-79, map.py:94-104, laplace.py:80-94,
    monte_carlo.py:80-83). *)
Fixpoint default_loop (f : nat -> zvar -> dres (nat * approx)) (n : nat) (l : list zvar) (d : list (zvar * approx))
  : dres (list (zvar * approx)) :=
  match l with
  | [] => DRet d
  | z :: l' =>
      match f n z with
      | DRet (n', q) => default_loop f n' l' (set_latent d z q)
      | DTypeError => DTypeError | DValueError => DValueError | DAttributeError => DAttributeError | DIndexError => DIndexError
      end
  end.

(** check_latent_vars of the dictionary (inference.py:77, random_variables.py:71-83). *)
Definition latent_checked (d : list (zvar * approx)) : bool :=
  forallb (fun zq => shape_compat (known (z_shape (fst zq))) (known (q_shape (snd zq))) && Nat.eqb (z_dtype (fst zq)) (q_dtype (snd zq))) d.

(** A constructor given a list (klqp.py:66-85, map.py:92-113, laplace.py:78-108,
    monte_carlo.py:78-93); [n] variables exist. *)
Definition init_list (f : nat -> zvar -> dres (nat * approx)) (n : nat) (l : list zvar) : dres (list (zvar * approx)) :=
  match default_loop f n l [] with
  | DRet d => if latent_checked d then DRet d else DTypeError
  | DTypeError => DTypeError | DValueError => DValueError | DAttributeError => DAttributeError | DIndexError => DIndexError
  end.

(** KLqp(list) and KLpq(list) (klqp.py:66-85, klpq.py:65-83).  The constructors of
    the subclasses that choose a gradient or a form of the KL are the same text
    (klqp.py:190-208, 253-271, 330-348, 394-412, 457-475, 533-551, 603-621). *)
Definition klqp_list := init_list klqp_default.
(** MAP(list) (map.py:92-113). *)
Definition map_list := init_list map_default.
(** Laplace(list) (laplace.py:78-108). *)
Definition laplace_list := init_list laplace_default.
(** MonteCarlo(list) (monte_carlo.py:78-93). *)
Definition monte_carlo_list := init_list monte_carlo_default.

(** ** Dictionaries *)

(** The classes that are told apart (map.py:109, laplace.py:99-100, monte_carlo.py:86). *)
Inductive family : Type := FPointMass | FEmpirical | FNormal | FMvnDiag | FMvnTriL | FOther.
(** A value of the dictionary: class, sample shape, shape and dtype (monte_carlo.py:85-91). *)
Record given : Type := mkgiven { u_family : family; u_sample : list nat; u_shape : list nat; u_dtype : nat }.

(** map.py:107-111. *)
Definition map_value (u : given) : dres unit := match u_family u with FPointMass => DRet tt | _ => DTypeError end.
(** laplace.py:97-103. *)
Definition laplace_value (u : given) : dres unit :=
  match u_family u with FNormal | FMvnDiag | FMvnTriL => DRet tt | _ => DTypeError end.
(** monte_carlo.py:84-91. *)
Definition monte_carlo_value (u : given) : dres unit :=
  match u_family u with
  | FEmpirical => match u_sample u with [] => DRet tt | _ => DValueError end
  | _ => DTypeError
  end.

(** The loop over the values, then check_latent_vars (map.py:107-113,
    laplace.py:96-108, monte_carlo.py:84-93). *)
Fixpoint init_dict (f : given -> dres unit) (todo d : list (zvar * given)) : dres (list (zvar * given)) :=
  match todo with
  | [] =>
      if forallb (fun zu => shape_compat (known (z_shape (fst zu))) (known (u_shape (snd zu))) && Nat.eqb (z_dtype (fst zu)) (u_dtype (snd zu))) d
      then DRet d else DTypeError
  | (_, u) :: todo' =>
      match f u with
      | DRet _ => init_dict f todo' d
      | DTypeError => DTypeError | DValueError => DValueError | DAttributeError => DAttributeError | DIndexError => DIndexError
      end
  end.

(** MAP(dict), Laplace(dict) and MonteCarlo(dict) (map.py:106-113). *)
Definition map_dict (d : list (zvar * given)) := init_dict map_value d d.
(** laplace.py:96-108. *)
Definition laplace_dict (d : list (zvar * given)) := init_dict laplace_value d d.
(** monte_carlo.py:84-93. *)
Definition monte_carlo_dict (d : list (zvar * given)) := init_dict monte_carlo_value d d.
