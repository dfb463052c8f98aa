(** * Metropolis-Hastings.

    Models edward/inferences/metropolis_hastings.py:64-156 ([build_update]) and
    the same code in replica_exchange_mc.py:136-214 ([_mh_sample]).

    Dictionaries are association lists in the order of insertion.  What
    [copy(z, d).log_prob(v)] evaluates to (a sum over its components) is a
    function of the dictionary [d] and [v]; that copying substitutes is the
    subject of Copy.v. *)
From Coq Require Import List Arith Bool Reals.
From Verif Require Import Ext Feed MonteCarlo.
Import ListNotations.

Section MH.
Context {V : Type}.
Notation dict := (list (nat * V)).

(** tf.reduce_sum(copy(z, d).log_prob(v)) for a variable of the model (lines
    121-134), and for proposal_vars[z] (lines 104-108, 115-117). *)
Variable log_prob : nat -> dict -> V -> ext.
Variable proposal_log_prob : nat -> dict -> V -> ext.
(** Keys of latent_vars and of proposal_vars. *)
Variable latent proposals : list nat.

(** The draws of one session run: the values of the observed random variables
    (random if they are bound to random variables, lines 84-91), the value each
    proposal takes given the dictionary it is copied with (line 106), the
    uniform (line 137). *)
Record mh_draws : Type := mkdraws { d_data : dict; d_propose : nat -> dict -> V; d_u : R }.

(** A loop that raises KeyError when a key is missing (metropolis_hastings.py:116, 122-125). *)
Definition with_key {A} (d : dict) (k : nat) (f : V -> option A) : option A :=
  match dict_get d k with Some v => f v | None => None end.

(** Lines 99-108: the new sample and the first part of the ratio. *)
Definition mh_propose (d : mh_draws) (old_sample dict_swap_old : dict) : dict * ext :=
  fold_left (fun acc z => match acc with (new_sample, ratio) =>
      let v := d_propose d z dict_swap_old in
      (dict_set new_sample z v, esub ratio (proposal_log_prob z dict_swap_old v)) end)
    proposals (old_sample, Fin 0).

(** Lines 113-117. *)
Definition mh_reverse (dict_swap_old dict_swap_new : dict) (ratio : ext) : option ext :=
  fold_left (fun acc z => match acc with None => None | Some r =>
      with_key dict_swap_old z (fun v => Some (eadd r (proposal_log_prob z dict_swap_new v))) end)
    proposals (Some ratio).

(** Lines 119-125. *)
Definition mh_priors (dict_swap_old dict_swap_new : dict) (ratio : ext) : option ext :=
  fold_left (fun acc z => match acc with None => None | Some r =>
      with_key dict_swap_new z (fun vn => with_key dict_swap_old z (fun vo =>
        Some (esub (eadd r (log_prob z dict_swap_new vn)) (log_prob z dict_swap_old vo)))) end)
    latent (Some ratio).

(** Lines 127-134. *)
Definition mh_likelihoods (dict_swap dict_swap_old dict_swap_new : dict) (ratio : ext) : ext :=
  fold_left (fun r xv => esub (eadd r (log_prob (fst xv) dict_swap_new (snd xv)))
                              (log_prob (fst xv) dict_swap_old (snd xv)))
    dict_swap ratio.

(** Lines 78-134: the new sample and the ratio. *)
Definition mh_ratio (old_sample : dict) (d : mh_draws) : option (dict * ext) :=
  let dict_swap := d_data d in
  let dict_swap_old := dict_update dict_swap old_sample in
  match mh_propose d old_sample dict_swap_old with
  | (new_sample, r1) =>
      let dict_swap_new := dict_update dict_swap new_sample in
      match mh_reverse dict_swap_old dict_swap_new r1 with
      | None => None
      | Some r2 =>
          match mh_priors dict_swap_old dict_swap_new r2 with
          | None => None
          | Some r3 => Some (new_sample, mh_likelihoods dict_swap dict_swap_old dict_swap_new r3)
          end
      end
  end.

(** Lines 136-146: acceptance and the sample as a dictionary; both branches of
    tf.cond must have the same number of values (ValueError otherwise). *)
Definition mh_select (old_sample new_sample : dict) (ratio : ext) (u : R) : option (dict * bool) :=
  let accept := eltb (elog (Fin u)) ratio in
  let values := map snd (if accept then new_sample else old_sample) in
  if Nat.eqb (length new_sample) (length old_sample)
  then Some (combine (map fst new_sample) values, accept) else None.

(** The values of the latent variables in [sample] (lines 150-152). *)
Fixpoint values_of (sample : dict) (keys : list nat) : option (list V) :=
  match keys with
  | [] => Some []
  | z :: zs => match dict_get sample z, values_of sample zs with Some v, Some vs => Some (v :: vs) | _, _ => None end
  end.

(** _mh_sample: [temper] is the identity in metropolis_hastings.py and the
    multiplication by the inverse temperature in replica_exchange_mc.py:201. *)
Definition mh_sample (temper : ext -> ext) (old : list V) (d : mh_draws) : option (list V * bool) :=
  let old_sample := combine latent old in
  match mh_ratio old_sample d with
  | None => None
  | Some (new_sample, ratio) =>
      match mh_select old_sample new_sample (temper ratio) (d_u d) with
      | None => None
      | Some (sample, accept) =>
          match values_of sample latent with None => None | Some vs => Some (vs, accept) end
      end
  end.

(** build_update (lines 64-156) as a move. *)
Definition mh_kernel : kernel V unit mh_draws := fun _ x old d =>
  match mh_sample (fun r => r) old d with None => None | Some (vs, accept) => Some (x, vs, accept) end.
End MH.
