(** * Properties C13 and C14: the arguments of an inference. *)
From Coq Require Import List Arith Bool.
From Verif Require Import Checks ChecksSpec ChecksProofs.
Import ListNotations.

(** ** C13: no accepted item of data is dropped, and the rules decide what is
    accepted *)

Theorem C13_data_never_dropped : forall V (pl : nat -> tshape * nat) (conv : nat -> V -> option V) l d,
  match construct pl conv l d with
  | Ret i => exists d0, items d d0 /\ map fst (i_data i) = map fst d0 /\
      Forall2 (fun kv ks => kept pl conv (fst kv) (snd kv) (snd ks)) d0 (i_data i) /\
      forall k v, In (k, v) d0 -> item_ok pl k v
  | Raise ETypeError =>
      ~ ((exists l0, items l l0 /\ forall k v, In (k, v) l0 -> latent_ok pl k v) /\
         (exists d0, items d d0 /\ forall k v, In (k, v) d0 -> item_ok pl k v))
  | Raise EConvert => exists d0, items d d0 /\ ~ convertible conv d0
  end.
Proof. exact @data_never_dropped. Qed.
Print Assumptions C13_data_never_dropped.

(** x : shape (?, 3) of dtype 1 bound to a 2 by 3 array, y to a tensor, a
    placeholder to a list. *)
Example C13_demo : forall pl,
  construct pl (fun dt v => Some (dt + v)) None
    (Some (ADict [(ORV 0 (Some [None; Some 3]) 1, ONp [2; 3] NInt 40); (OTensor 1 None 2, OTensor 7 (Some [Some 5]) 2);
                  (OPlace 3, OPy [4] 8)])) =
  Ret (mkinf [] [(ORV 0 (Some [None; Some 3]) 1, SVar 1 [2; 3] 41);
                 (OTensor 1 None 2, SObj (OTensor 7 (Some [Some 5]) 2)); (OPlace 3, SObj (OPy [4] 8))]).
Proof. reflexivity. Qed.

(** A tuple as a value, and a Boolean array, raise TypeError. *)
Example C13_demo_raises : forall pl,
  construct pl (fun _ v => Some v) None (Some (ADict [(ORV 0 (Some []) 1, OOther 2 0)])) = Raise ETypeError /\
  construct pl (fun _ v => Some v) None (Some (ADict [(ORV 0 (Some []) 1, ONp [] NOtherKind 0)])) = Raise ETypeError.
Proof. split; reflexivity. Qed.

(** ** C14: the constructor accepts exactly consistent bindings *)

Theorem C14_latent_vars_consistent : forall V (pl : nat -> tshape * nat) (conv : nat -> V -> option V) l d,
  (forall i, construct pl conv l d = Ret i ->
     items l (i_latent i) /\ forall k v, In (k, v) (i_latent i) -> latent_ok pl k v) /\
  (~ (exists l0, items l l0 /\ forall k v, In (k, v) l0 -> latent_ok pl k v) ->
   construct pl conv l d = Raise ETypeError) /\
  (forall l0 d0, items l l0 -> items d d0 -> (forall k v, In (k, v) l0 -> latent_ok pl k v) ->
     (forall k v, In (k, v) d0 -> item_ok pl k v) -> convertible conv d0 ->
     exists r, construct pl conv l d = Ret (mkinf l0 r)).
Proof. exact @latent_checked. Qed.
Print Assumptions C14_latent_vars_consistent.

Example C14_demo : forall (pl : nat -> tshape * nat) (conv : nat -> nat -> option nat),
  construct pl conv (Some (ADict [(ORV 0 (Some [None; Some 3]) 1, ORV 1 (Some [Some 2; None]) 1)])) None =
    Ret (mkinf [(ORV 0 (Some [None; Some 3]) 1, ORV 1 (Some [Some 2; None]) 1)] []) /\
  construct pl conv (Some (ADict [(ORV 0 (Some [Some 3]) 1, ORV 1 (Some [Some 2]) 1)])) None = Raise ETypeError /\
  construct pl conv (Some (ADict [(ORV 0 None 1, ORV 1 None 2)])) None = Raise ETypeError /\
  construct pl conv (Some ANotDict) None = Raise ETypeError.
Proof. repeat split. Qed.

(** Compatible shapes need not be equal, and compatibility is not transitive. *)
Example C14_compatible :
  compatible (Some [Some 2]) (Some [None]) /\ compatible (Some [None]) (Some [Some 3]) /\
  ~ compatible (Some [Some 2]) (Some [Some 3]).
Proof. rewrite <- !shape_compat_spec. repeat split. discriminate. Qed.
