(** * Argument checks and the constructor of [Inference].

    Models edward/util/random_variables.py:21-83 ([check_data],
    [check_latent_vars]) and edward/inferences/inference.py:54-95
    ([Inference.__init__]). *)
From Coq Require Import String List Arith Bool.
Import ListNotations.

(** A static shape: [None] of unknown rank, a dimension [None] if unknown.
    TensorFlow's TensorShape, used at random_variables.py:43,51,78. *)
Definition tshape : Type := option (list (option nat)).

(** TensorFlow's Dimension.is_compatible_with, behind random_variables.py:43. *)
Definition dim_compat (a b : option nat) : bool :=
  match a, b with Some m, Some n => Nat.eqb m n | _, _ => true end.

(** Same, for lists of dimensions of equal rank (random_variables.py:43, 51, 78). *)
Fixpoint dims_compat (a b : list (option nat)) : bool :=
  match a, b with
  | [], [] => true
  | x :: a', y :: b' => dim_compat x y && dims_compat a' b'
  | _, _ => false
  end.

(** TensorFlow's TensorShape.is_compatible_with, called at
    random_variables.py:43, 51 and 78. *)
Definition shape_compat (a b : tshape) : bool :=
  match a, b with Some x, Some y => dims_compat x y | _, _ => true end.

(** The shape np.shape returns, as a TensorShape (random_variables.py:51). *)
Definition known (s : list nat) : tshape := Some (map Some s).

(** Types of elements, as np.issubdtype tells them apart at
    random_variables.py:55-57: floating, signed integers, strings and the
    rest (booleans, unsigned integers, complex numbers, objects). *)
Inductive npkind : Type := NFloat | NInt | NStr | NOtherKind.

(** What a dictionary may hold.  Python objects by the classes the checks ask
    for (random_variables.py:28-61); [V] is the content of a Python value.  An
    object is identified by [nat].  [OOther]: none of these classes, for
    example a tf.Variable, None, a tuple or a dict. *)
Inductive obj (V : Type) : Type :=
| OPlace (id : nat)                                     (* tf.Tensor whose op.type contains "Placeholder" *)
| ORV (id : nat) (s : tshape) (dt : nat)                (* RandomVariable *)
| OTensor (id : nat) (s : tshape) (dt : nat)            (* any other tf.Tensor *)
| OPy (s : list nat) (v : V)                            (* float, list, int or str, with its np.shape *)
| ONp (s : list nat) (k : npkind) (v : V)               (* np.ndarray or np.number *)
| OOther (id : nat) (v : V).
Arguments OPlace {V}. Arguments ORV {V}. Arguments OTensor {V}. Arguments OPy {V}. Arguments ONp {V}. Arguments OOther {V}.

(** An argument: a dictionary as its items in the order of iteration, or
    something else (random_variables.py:25, 68). *)
Inductive arg (V : Type) : Type := ADict (d : list (obj V * obj V)) | ANotDict.
Arguments ADict {V}. Arguments ANotDict {V}.

(** Exceptions: TypeError, or an error from converting or storing a Python
    value in TensorFlow (inference.py:94). *)
Inductive err : Type := ETypeError | EConvert.

(** A Python call returns a value or raises (random_variables.py:21-83, inference.py:54-95). *)
Inductive res (A : Type) : Type := Ret (a : A) | Raise (e : err).
Arguments Ret {A}. Arguments Raise {A}.

Section Checks.
Context {V : Type}.
Notation obj := (obj V).

(** Shape and dtype of a RandomVariable or tf.Tensor
    (random_variables.py:72-80).  Placeholders as values and as latent
    variables are tensors: their shape and dtype are given by [pl]. *)
Variable pl : nat -> tshape * nat.

(** random_variables.py:72-80: the shape and dtype of a RandomVariable or tf.Tensor; [None] for any other object. *)
Definition rv_or_tensor (x : obj) : option (tshape * nat) :=
  match x with
  | OPlace i => Some (pl i)
  | ORV _ s dt | OTensor _ s dt => Some (s, dt)
  | _ => None
  end.

(** random_variables.py:55-57. *)
Definition np_ok (k : npkind) : bool := match k with NOtherKind => false | _ => true end.

(** One item of check_data (random_variables.py:28-61): whether no TypeError is
    raised. *)
Definition check_item (kv : obj * obj) : bool :=
  let '(k, v) := kv in
  match k with
  | OPlace _ => match rv_or_tensor v with Some _ => false | None => true end
  | ORV _ s dt | OTensor _ s dt =>
      match rv_or_tensor v with
      | Some (s', dt') => shape_compat s s' && Nat.eqb dt dt'
      | None =>
          match v with
          | OPy s' _ => shape_compat s (known s')
          | ONp s' nk _ => shape_compat s (known s') && np_ok nk
          | _ => false
          end
      end
  | _ => false
  end.

(** check_data (random_variables.py:21-61). *)
Definition check_data (a : arg V) : res unit :=
  match a with
  | ANotDict => Raise ETypeError
  | ADict d => if forallb check_item d then Ret tt else Raise ETypeError
  end.

(** One item of check_latent_vars (random_variables.py:71-83). *)
Definition check_latent_item (kv : obj * obj) : bool :=
  match rv_or_tensor (fst kv), rv_or_tensor (snd kv) with
  | Some (s, dt), Some (s', dt') => shape_compat s s' && Nat.eqb dt dt'
  | _, _ => false
  end.

(** check_latent_vars (random_variables.py:64-83). *)
Definition check_latent_vars (a : arg V) : res unit :=
  match a with
  | ANotDict => Raise ETypeError
  | ADict d => if forallb check_latent_item d then Ret tt else Raise ETypeError
  end.

(** What self.data holds: an object as it was passed, or a tf.Variable
    initialised to the converted value, of the key's dtype (inference.py:91-95). *)
Inductive stored : Type := SObj (v : obj) | SVar (dt : nat) (s : list nat) (v : V).

(** TensorFlow's conversion of a fed value to a dtype (inference.py:94); [None]
    if it raises. *)
Variable conv : nat -> V -> option V.

(** The loop of the constructor (inference.py:82-95).  The tests of the value
    come after check_data, and without an else branch: a key whose value is of
    no known class would be skipped. *)
Fixpoint store (d : list (obj * obj)) : res (list (obj * stored)) :=
  match d with
  | [] => Ret []
  | (k, v) :: d' =>
      let rest (x : list (obj * stored)) :=
        match store d' with Ret y => Ret (x ++ y) | Raise e => Raise e end in
      match k with
      | OPlace _ => rest [(k, SObj v)]
      | ORV _ _ dt | OTensor _ _ dt =>
          match rv_or_tensor v with
          | Some _ => rest [(k, SObj v)]
          | None =>
              match v with
              | OPy s x | ONp s _ x =>
                  match conv dt x with
                  | Some x' => rest [(k, SVar dt s x')]
                  | None => Raise EConvert
                  end
              | _ => rest []
              end
          end
      | _ => rest []
      end
  end.

(** An Inference object: its latent_vars and data (inference.py:76-95). *)
Record inference : Type := mkinf { i_latent : list (obj * obj); i_data : list (obj * stored) }.

(** An argument of None stands for the empty dictionary (inference.py:72-75). *)
Definition or_empty (a : option (arg V)) : arg V := match a with None => ADict [] | Some x => x end.

(** Inference.__init__ (inference.py:54-95). *)
Definition construct (latent_vars data : option (arg V)) : res inference :=
  match or_empty latent_vars, or_empty data with
  | ADict l, ADict d =>
      if forallb check_latent_item l then
        if forallb check_item d then
          match store d with Ret s => Ret (mkinf l s) | Raise e => Raise e end
        else Raise ETypeError
      else Raise ETypeError
  | _, _ => Raise ETypeError
  end.
End Checks.
