(** * The objective of ImplicitKLqp.

    Models edward/inferences/implicit_klqp.py:150-159 and 195-216.  Log densities
    and outputs of the discriminator are real numbers; entries of [scale] are
    scalars, tensors that broadcast are not modelled. *)
From Coq Require Import Reals List Arith.
From Verif Require Import Transform GAN.
Import ListNotations.
Local Open Scope R_scope.

(** For each key of global_vars the entries of beta.log_prob and qbeta.log_prob at
    the value drawn (implicit_klqp.py:153-159). *)
Definition global_terms : Type := list (nat * (list R * list R)).

(** pbeta_log_prob (implicit_klqp.py:158). *)
Definition pbeta_log_prob (g : global_terms) : R := sumR (map (fun b => sumR (fst (snd b))) g).

(** qbeta_log_prob (implicit_klqp.py:159). *)
Definition qbeta_log_prob (g : global_terms) : R := sumR (map (fun b => sumR (snd (snd b))) g).

(** What the discriminator returns: a tensor, or a dictionary of tensors
    (implicit_klqp.py:189-193). *)
Inductive ratios : Type := RTensor (r : list R) | RDict (d : list (nat * list R)).

(** r[key]; [None]: KeyError (implicit_klqp.py:203, 206). *)
Fixpoint ratio_get (d : list (nat * list R)) (key : nat) : option (list R) :=
  match d with [] => None | (k, r) :: d' => if Nat.eqb k key then Some r else ratio_get d' key end.

(** The loop over the keys of self.scale (implicit_klqp.py:206-208). *)
Fixpoint scaled_ratios (scale : list (nat * R)) (d : list (nat * list R)) : option R :=
  match scale with
  | [] => Some 0
  | (key, s) :: scale' =>
      match ratio_get d key, scaled_ratios scale' d with
      | Some r, Some rest => Some (sumR (map (Rmult s) r) + rest) | _, _ => None end
  end.

(** scaled_ratio (implicit_klqp.py:196-208); [None] if it raises: a dictionary
    cannot be multiplied, nor a tensor be indexed by a random variable. *)
Definition scaled_ratio (scale : list (nat * R)) (r_qsample : ratios) : option R :=
  match scale, r_qsample with
  | [], RTensor r => Some (sumR (map (Rmult 1) r))
  | [(_, s)], RTensor r => Some (sumR (map (Rmult s) r))
  | _ :: _ :: _, RDict d => scaled_ratios scale d
  | _, _ => None
  end.

(** loss (implicit_klqp.py:214-215). *)
Definition implicit_loss (scale : list (nat * R)) (g : global_terms) (r_qsample : ratios) (reg_terms : list R) : option R :=
  match scaled_ratio scale r_qsample with
  | Some s => Some (- (pbeta_log_prob g - qbeta_log_prob g + s - sumR reg_terms))
  | None => None
  end.

(** The loop over the keys of self.scale for the loss of the discriminator
    (implicit_klqp.py:203-205), with the ratio loss as an argument; the two
    tensors of a key have one length. *)
Fixpoint ratio_losses (ratio_loss : R -> R -> R) (scale : list (nat * R)) (p q : list (nat * list R)) : option R :=
  match scale with
  | [] => Some 0
  | (key, _) :: scale' =>
      match ratio_get p key, ratio_get q key, ratio_losses ratio_loss scale' p q with
      | Some a, Some b, Some rest => Some (reduce_mean (map (fun ab => ratio_loss (fst ab) (snd ab)) (combine a b)) + rest)
      | _, _, _ => None end
  end.

(** loss_d (implicit_klqp.py:196-205, 216). *)
Definition implicit_loss_d (ratio_loss : R -> R -> R) (scale : list (nat * R)) (r_psample r_qsample : ratios)
    (reg_terms_d : list R) : option R :=
  match match scale, r_psample, r_qsample with
        | ([] | [_]), RTensor a, RTensor b => Some (reduce_mean (map (fun ab => ratio_loss (fst ab) (snd ab)) (combine a b)))
        | _ :: _ :: _, RDict p, RDict q => ratio_losses ratio_loss scale p q
        | _, _, _ => None end with
  | Some l => Some (l + sumR reg_terms_d)
  | None => None
  end.
