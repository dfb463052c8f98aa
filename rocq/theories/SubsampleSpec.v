(** * Vocabulary for C83: data subsampling. *)
From Coquelicot Require Import Coquelicot.
From Coq Require Import Reals List Arith Bool.
From Verif Require Import Feed Transform HMC VI VISpec.
Import ListNotations.
Local Open Scope R_scope.

(** A random minibatch: the batches that next_batch can return, as lists of data
    indices, each with its probability. *)
Definition batches : Type := list (R * list nat).

(** The expected value of a function of the minibatch. *)
Definition mean_batch (law : batches) (f : list nat -> R) : R := sumR (map (fun wb => fst wb * f (snd wb)) law).

(** Probabilities that sum to 1, of batches of [M] of the [N] data, in which all
    data are expected equally often.  The batches of one pass over the data, all
    subsets of size [M], and [M] independent draws are such. *)
Record fair (N M : nat) (law : batches) : Prop := {
  fair_one : mean_batch law (fun _ => 1) = 1;
  fair_size : forall w b, In (w, b) law -> length b = M;
  fair_range : forall w b i, In (w, b) law -> In i b -> (i < N)%nat;
  fair_equal : forall i j, (i < N)%nat -> (j < N)%nat ->
    mean_batch law (fun b => INR (count_occ Nat.eq_dec b i)) = mean_batch law (fun b => INR (count_occ Nat.eq_dec b j)) }.

(** One of the batches [bs], all equally likely. *)
Definition epoch (bs : list (list nat)) : batches := map (fun b => (/ INR (length bs), b)) bs.

(** [M] independent uniform draws of one of [N] data. *)
Fixpoint with_replacement (N M : nat) : batches :=
  match M with
  | O => [(1, [])]
  | S M' => flat_map (fun i => map (fun wb => (fst wb / INR N, i :: snd wb)) (with_replacement N M')) (seq 0 N)
  end.

(** The indices of a batch are those of data. *)
Definition within (N : nat) (b : list nat) : Prop := forall i, In i b -> (i < N)%nat.

(** The whole data set. *)
Definition whole (N : nat) : list nat := seq 0 N.

(** The scale argument gives N / M for the variables with a plate and 1 for the
    others. *)
Definition plate_scale (local : nat -> bool) (N M : nat) (scale : list (nat * R)) : Prop :=
  forall k, factor scale k = if local k then INR N / INR M else 1.

(** What a variable contributes given batch [b]: if it has a plate, a sum over the
    data of the batch; if not, the same for every batch. *)
Definition by_plate (local : nat -> bool) (each : nat -> nat -> R) (once : nat -> R) (k : nat) (b : list nat) : R :=
  if local k then sumR (map (each k) b) else once k.

(** A model over a minibatch is a subgraph of the model over all data: [d b] gives
    the values of all variables when the batch is [b]; every log density
    contributes by its plate. *)
Record subgraph {V} (log_prob : params -> nat -> list (nat * V) -> V -> list R)
    (latent : list (nat * nat)) (local : nat -> bool) (N : nat) (th : params)
    (d : list nat -> sample V) (each : nat -> nat -> R) (once : nat -> R) : Prop := {
  sub_posed : forall b, within N b -> posed latent (d b);
  sub_keys : forall b, within N b -> map fst (s_data (d b)) = map fst (s_data (d (whole N)));
  sub_terms : forall b k v, within N b -> In (k, v) (bindings latent (d b)) ->
    sumR (log_prob th k (bindings latent (d b)) v) = by_plate local each once k b }.

(** Likewise the approximations. *)
Definition q_subgraph {V} (q_log_prob : params -> nat -> (nat -> V) -> V -> list R)
    (latent : list (nat * nat)) (local : nat -> bool) (N : nat) (th : params)
    (d : list nat -> sample V) (each : nat -> nat -> R) (once : nat -> R) : Prop :=
  forall b z q, within N b -> In (z, q) latent ->
    sumR (q_log_prob th q (s_q (d b)) (s_q (d b) q)) = by_plate local each once z b.

(** Likewise the analytic KL divergences; [own b] are the values of the random
    variables themselves. *)
Definition kl_subgraph {V} (kl : params -> nat -> nat -> (nat -> V) -> list R)
    (latent : list (nat * nat)) (local : nat -> bool) (N : nat) (th : params)
    (own : list nat -> nat -> V) (each : nat -> nat -> R) (once : nat -> R) : Prop :=
  forall b z q, within N b -> In (z, q) latent ->
    sumR (kl th z q (own b)) = by_plate local each once z b.

(** The KL divergences of the variables with a plate, over all data. *)
Definition local_kl (latent : list (nat * nat)) (local : nat -> bool) (N : nat) (each : nat -> nat -> R) : R :=
  sumR (map (fun z => sumR (map (each z) (whole N))) (filter local (map fst latent))).

(** Likewise for samplers: [z b] are the states of the latent variables [keys] and
    [data b] the observed values. *)
Record data_subgraph (log_prob : nat -> list (nat * tensor) -> tensor -> R) (keys : list nat) (local : nat -> bool) (N : nat)
    (data : list nat -> list (nat * tensor)) (z : list nat -> list tensor) (each : nat -> nat -> R) (once : nat -> R) : Prop := {
  data_posed : forall b, within N b -> NoDup keys /\ NoDup (map fst (data b)) /\
    (forall k, In k keys -> ~ In k (map fst (data b))) /\ length (z b) = length keys;
  data_keys : forall b, within N b -> map fst (data b) = map fst (data (whole N));
  data_terms : forall b k v, within N b -> In (k, v) (combine keys (z b) ++ data b) ->
    log_prob k (combine keys (z b) ++ data b) v = by_plate local each once k b }.
