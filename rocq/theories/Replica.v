(** * Replica exchange Monte Carlo.

    Models edward/inferences/replica_exchange_mc.py:44-276.  Conventions are
    those of MH.v.  Sums in the ratio start from zero as in MH.v. *)
From Coq Require Import List Arith Bool Reals.
From Verif Require Import Ext Feed MonteCarlo MH.
Import ListNotations.
Local Open Scope R_scope.

Section Replica.
Context {V : Type}.
Notation dict := (list (nat * V)).
(** See MH.v. *)
Variable log_prob proposal_log_prob : nat -> dict -> V -> ext.
Variable latent proposals : list nat.
(** The arguments inverse_temperatures and exchange_freq (lines 44-45). *)
Variable inverse_temperatures : list R.
Variable exchange_freq : R.

(** The constructor (lines 59-70): the tables of the replicas, all zero;
    [None] is ValueError (IndexError if there is no temperature). *)
Definition new_replicas (zero : V -> V) (tables : list (list V)) : option (list (list (list V))) :=
  match inverse_temperatures with
  | b :: _ => if Req_EM_T b 1 then Some (map (fun _ => map (map zero) tables) inverse_temperatures) else None
  | [] => None
  end.

(** The draws of one session run: those of each replica's move, the observed
    values (the copies in the scope 'conditional' are shared, lines 154 and 248),
    the uniform of line 101, the first pair (line 222) and the uniforms of line
    230 by pair. *)
Record replica_draws : Type := mkreplica {
  r_moves : nat -> @mh_draws V; r_data : dict; r_u : R; r_first : nat; r_us : nat -> R }.

(** The move of one replica at temperature [b] (lines 84-88, 136-214). *)
Definition replica_move (t : nat) (tables : list (list V)) (b : R) (d : @mh_draws V) : option (list V * bool) :=
  match gather_all tables (t - 1) with
  | None => None
  | Some old => mh_sample log_prob proposal_log_prob latent proposals (fun r => emul r (Fin b)) old d
  end.

(** The loop of lines 84-88 from replica [i]. *)
Fixpoint replica_moves (t : nat) (replicas : list (list (list V))) (bs : list R) (d : nat -> @mh_draws V) (i : nat)
  : option (list (list V) * list bool) :=
  match replicas, bs with
  | tables :: rs, b :: bs' =>
      match replica_move t tables b (d i), replica_moves t rs bs' d (S i) with
      | Some (s, a), Some (ss, accs) => Some (s :: ss, a :: accs)
      | _, _ => None
      end
  | _, _ => Some ([], [])
  end.

(** _replica_ratio for one replica (lines 254-275). *)
Definition replica_ratio (data : dict) (sample : list V) : option ext :=
  let dict_swap := dict_update data (combine latent sample) in
  match fold_left (fun acc z => match acc with None => None | Some s =>
      with_key dict_swap z (fun v => Some (eadd s (log_prob z dict_swap v))) end) latent (Some (Fin 0)) with
  | None => None
  | Some s => Some (fold_left (fun s xv => eadd s (log_prob (fst xv) dict_swap (snd xv))) data s)
  end.

(** The loop of lines 253-276. *)
Fixpoint replica_ratios (data : dict) (samples : list (list V)) : option (list ext) :=
  match samples with
  | [] => Some []
  | s :: ss => match replica_ratio data s, replica_ratios data ss with Some r, Some rs => Some (r :: rs) | _, _ => None end
  end.

(** The decision for replicas i and i+1 (lines 228-231). *)
Definition exchange_test (ratios : list ext) (i : nat) (u : R) : bool :=
  eltb (elog (Fin u)) (emul (esub (nth i ratios NaN) (nth (i + 1) ratios NaN))
    (Fin (nth (i + 1) inverse_temperatures 0 - nth i inverse_temperatures 0))).

(** tf.scatter_update(idx, [i, i+1], [i+1, i]) (line 234). *)
Definition scatter_pair (idx : list nat) (i : nat) : list nat :=
  firstn i idx ++ (i + 1)%nat :: i :: skipn (i + 2) idx.

(** The loop of lines 224-238; [fuel] bounds its length, n_replica is enough. *)
Fixpoint exchange_loop (fuel : nat) (ratios : list ext) (us : nat -> R) (i : nat) (idx : list nat) : list nat :=
  match fuel with
  | O => idx
  | S f =>
      if (i <? length inverse_temperatures - 1)%nat
      then exchange_loop f ratios us (i + 2) (if exchange_test ratios i (us i) then scatter_pair idx i else idx)
      else idx
  end.

(** Lines 91-105: new_replica_idx. *)
Definition new_replica_idx (ratios : list ext) (d : replica_draws) : list nat :=
  let n := length inverse_temperatures in
  let idx := seq 0 n in
  if Rlt_dec (r_u d) exchange_freq then exchange_loop n ratios (r_us d) (r_first d) idx else idx.

(** Lines 107-115. *)
Definition reorder (samples : list (list V)) (idx : list nat) : list (list V) :=
  map (fun j => nth j samples (nth 0 samples [])) idx.

(** Lines 125-129. *)
Fixpoint scatter_replicas (t : nat) (replicas : list (list (list V))) (samples : list (list V))
  : option (list (list (list V))) :=
  match replicas, samples with
  | [], [] => Some []
  | tables :: rs, s :: ss =>
      match scatter_all tables t s, scatter_replicas t rs ss with Some r, Some rr => Some (r :: rr) | _, _ => None end
  | _, _ => None
  end.

(** build_update (lines 78-134) as a move; the further state is replica_vars.
    The rows of latent_vars are not read. *)
Definition replica_kernel : kernel V (list (list (list V))) replica_draws := fun t replicas _ d =>
  match replica_moves t replicas inverse_temperatures (r_moves d) 0 with
  | None => None
  | Some (samples, accepts) =>
      match replica_ratios (r_data d) samples with
      | None => None
      | Some ratios =>
          let new := reorder samples (new_replica_idx ratios d) in
          match scatter_replicas t replicas new, new, accepts with
          | Some replicas', first :: _, accept :: _ => Some (replicas', first, accept)
          | _, _, _ => None
          end
      end
  end.
End Replica.
Arguments replica_draws : clear implicits.
