(** * ppc.

    Models edward/criticisms/ppc.py:81-121.  A session run draws every random quantity
    of the graph anew: [world] is such a joint draw and [worlds k] the draw of the k-th
    run of the session. *)
From Coq Require Import List Arith ZArith Bool.
From Verif Require Import Checks.
Import ListNotations.

Section Ppc.
Context {V world : Type}.
(** Shapes and dtypes of placeholders. *)
Variable pl : nat -> tshape * nat.
(** The value of an object in a run: a random variable's or tensor's sample, or the
    Python value itself. *)
Variable value : obj V -> world -> V.

(** x.value() for a RandomVariable, the observation otherwise (lines 98-99). *)
Definition replicated (kv : obj V * obj V) (w : world) : V := match fst kv with ORV _ _ _ => value (fst kv) w | _ => value (snd kv) w end.

(** The discrepancy: the graph built by calling T once on each pair of dictionaries
    (lines 108-109); its value in a run depends on the entries' values and the run. *)
Definition discrepancy : Type := list (obj V * V) -> list (obj V * V) -> world -> V.

(** The dictionary xrep (ppc.py:97-106). *)
Definition xrep (data : list (obj V * obj V)) (w : world) : list (obj V * V) := map (fun kv => (fst kv, replicated kv w)) data.
(** The observed dictionary (ppc.py:97-106). *)
Definition xobs (data : list (obj V * obj V)) (w : world) : list (obj V * V) := map (fun kv => (fst kv, value (snd kv) w)) data.
(** zrep (lines 94-95). *)
Definition zrep (latent : list (obj V * obj V)) (w : world) : list (obj V * V) := map (fun kv => (fst kv, value (snd kv) w)) latent.

(** The loop (lines 110-119): runs numbered from [k]. *)
Fixpoint ppc_loop (T : discrepancy) (data latent : list (obj V * obj V)) (worlds : nat -> world) (k n : nat) : list V * list V :=
  match n with
  | O => ([], [])
  | S n' =>
      let trep := T (xrep data (worlds k)) (zrep latent (worlds k)) (worlds k) in
      let tobs := T (xobs data (worlds (S k))) (zrep latent (worlds (S k))) (worlds (S k)) in
      let (a, b) := ppc_loop T data latent worlds (S (S k)) n' in (trep :: a, tobs :: b)
  end.

(** What ppc returns or raises (ppc.py:81-121). *)
Inductive ppc_result : Type := Arrays (treps ts : list V) | PTypeError | PValueError.

(** ppc (lines 81-121); [T]: [None] if not callable; [latent]: [None] for the default;
    [n_samples]: [None] if not an int.  np.stack of an empty list raises ValueError. *)
Definition ppc (T : option discrepancy) (data : arg V) (latent : option (arg V)) (n_samples : option Z) (worlds : nat -> world) : ppc_result :=
  match T with
  | None => PTypeError
  | Some T =>
  match check_data pl data, data with
  | Checks.Raise _, _ | Ret _, ANotDict => PTypeError
  | Ret _, ADict d =>
  let latent := match latent with None => ADict [] | Some l => l end in
  match check_latent_vars pl latent, latent with
  | Checks.Raise _, _ | Ret _, ANotDict => PTypeError
  | Ret _, ADict l =>
  match n_samples with
  | None => PTypeError
  | Some n =>
      match ppc_loop T d l worlds 0 (Z.to_nat n) with
      | ([], _) => PValueError
      | (a, b) => Arrays a b
      end
  end end end end.
End Ppc.
