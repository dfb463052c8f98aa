(** * The log joint densities that the algorithms build

    [_log_joint] of hmc.py, sgld.py and sghmc.py, the per-sample densities of
    klqp.py, klpq.py and wake_sleep.py, the loss of map.py, and the ratios of
    metropolis_hastings.py and replica_exchange_mc.py, on the graphs of
    [Copy].  A term stands for one [tf.reduce_sum(... copy.log_prob(value))]:
    which variable it belongs to, the copy whose log_prob is called and the
    value it is called with.  The names that [unique_name] returns are
    arguments. *)
From Coq Require Import String List Bool.
From Verif Require Import Copy.
Import ListNotations.
Local Open Scope string_scope.

(** One [reduce_sum(scale.get(z, 1.0) * z_copy.log_prob(dict_swap[z]))],
    klqp.py:677-680, hmc.py:183-185. *)
Record term : Type := mkterm { t_key : elem; t_copy : nat; t_value : elem }.

(** [isinstance(x, RandomVariable)], klqp.py:663-664. *)
Definition is_rv (x : elem) : bool := match x with XRV _ => true | _ => false end.

(** [dict_swap[x] = y], klqp.py:666-668. *)
Fixpoint swap_set (sw : swap) (x y : elem) : swap :=
  match sw with
  | [] => [(x, y)]
  | (k, v) :: sw' => if elem_eqb k x then (k, y) :: sw' else (k, v) :: swap_set sw' x y
  end.

(** [d.update(e)], metropolis_hastings.py:94, 111. *)
Definition swap_update (sw e : swap) : swap := fold_left (fun a kv => swap_set a (fst kv) (snd kv)) e sw.

Section Copying.
Variable fuel : nat.
Variable pick : nat -> nat.

(** A copy of a random variable; the result of copy has [log_prob] and
    [value], klqp.py:672-673, 678. *)
Definition copy_rv (sw : swap) (scope : string) (g : graph) (x : elem) : graph * res nat :=
  match ed_copy fuel pick sw scope false true g x with
  | (g1, Ok (XRV r)) => (g1, Ok r)
  | (g1, Ok _) => (g1, Exc)
  | (g1, Exc) => (g1, Exc)
  | (g1, Fuel) => (g1, Fuel)
  end.

(** The loop over the data, klqp.py:661-668, klpq.py:134-140, hmc.py:173-179,
    sgld.py:101-107, sghmc.py:110-116, wake_sleep.py:88-94, and with the scope
    'conditional' metropolis_hastings.py:84-91, replica_exchange_mc.py:244-251. *)
Fixpoint bind_data (scope : string) (g : graph) (data sw : swap) : graph * res swap :=
  match data with
  | [] => (g, Ok sw)
  | (x, qx) :: data' =>
    if is_rv x then
      if is_rv qx then
        match copy_rv [] scope g qx with
        | (g1, Ok r) =>
          match value_of g1 r with
          | Some v => bind_data scope g1 data' (swap_set sw x (XT v))
          | None => (g1, Exc)
          end
        | (g1, Exc) => (g1, Exc)
        | (g1, Fuel) => (g1, Fuel)
        end
      else bind_data scope g data' (swap_set sw x qx)
    else bind_data scope g data' sw
  end.

(** The loop over the latent variables, klqp.py:670-675, klpq.py:142-147,
    wake_sleep.py:98-106: a sample of each q and the log q term. *)
Fixpoint bind_latents (scope : string) (g : graph) (latents sw : swap) : graph * res (swap * list term) :=
  match latents with
  | [] => (g, Ok (sw, []))
  | (z, qz) :: latents' =>
    match copy_rv [] scope g qz with
    | (g1, Ok r) =>
      match value_of g1 r with
      | Some v =>
        match bind_latents scope g1 latents' (swap_set sw z (XT v)) with
        | (g2, Ok (sw', ts)) => (g2, Ok (sw', mkterm z r (XT v) :: ts))
        | (g2, r') => (g2, r')
        end
      | None => (g1, Exc)
      end
    | (g1, Exc) => (g1, Exc)
    | (g1, Fuel) => (g1, Fuel)
    end
  end.

(** [z_copy = copy(z, dict_swap, scope=scope)] and
    [z_copy.log_prob(dict_swap[z])], klqp.py:677-680; KeyError if the
    dictionary has no such key.  The value is looked up in [at_], the same
    dictionary except in replica_exchange_mc.py:275. *)
Definition model_term (scope : string) (sw at_ : swap) (g : graph) (z : elem) : graph * res term :=
  match copy_rv sw scope g z with
  | (g1, Ok r) =>
    match lookup at_ z with
    | Some y => (g1, Ok (mkterm z r y))
    | None => (g1, Exc)
    end
  | (g1, Exc) => (g1, Exc)
  | (g1, Fuel) => (g1, Fuel)
  end.

(** The loops over latent variables and data, klqp.py:677-686,
    klpq.py:149-156, hmc.py:182-190, sgld.py:109-119, map.py:134-146,
    wake_sleep.py:108-117. *)
Fixpoint model_terms (scope : string) (sw at_ : swap) (g : graph) (keys : list elem) : graph * res (list term) :=
  match keys with
  | [] => (g, Ok [])
  | z :: keys' =>
    match model_term scope sw at_ g z with
    | (g1, Ok t) =>
      match model_terms scope sw at_ g1 keys' with
      | (g2, Ok ts) => (g2, Ok (t :: ts))
      | (g2, r) => (g2, r)
      end
    | (g1, Exc) => (g1, Exc)
    | (g1, Fuel) => (g1, Fuel)
    end
  end.

(** The random variables among the data, in order: the test in
    klqp.py:682-683. *)
Definition observed (data : swap) : list elem := filter is_rv (map fst data).

(** [_log_joint(z_sample)] of hmc.py:161-192, sgld.py:89-121,
    sghmc.py:98-130. *)
Definition log_joint (scope : string) (latents : list elem) (z_sample data : swap) (g : graph)
  : graph * res (list term) :=
  match bind_data scope g data z_sample with
  | (g1, Ok sw) => model_terms scope sw sw g1 (latents ++ observed data)%list
  | (g1, Exc) => (g1, Exc)
  | (g1, Fuel) => (g1, Fuel)
  end.

(** [qz.value()] of a random variable or a tensor, map.py:124-131. *)
Definition direct_value (g : graph) (y : elem) : elem :=
  match y with
  | XRV r => match value_of g r with Some v => XT v | None => y end
  | _ => y
  end.

(** The terms of the loss of MAP and Laplace, map.py:123-146; the dictionary
    is not empty in the loop over the data, so [x_copy = x] at line 144 is not
    reached. *)
Definition map_loss (scope : string) (latents data : swap) (g : graph) : graph * res (list term) :=
  let sw := fold_left (fun a kv => if is_rv (fst kv) then swap_set a (fst kv) (direct_value g (snd kv)) else a)
              data (map (fun kv => (fst kv, direct_value g (snd kv))) latents) in
  model_terms scope sw sw g (map fst latents ++ observed data)%list.

(** One iteration of the loop over samples, klqp.py:657-686, 850-880,
    klpq.py:129-156, wake_sleep.py:83-117: the terms of log q and of log p. *)
Definition vi_sample (scope : string) (latents data : swap) (g : graph)
  : graph * res (list term * list term) :=
  match bind_data scope g data [] with
  | (g1, Ok sw) =>
    match bind_latents scope g1 latents sw with
    | (g2, Ok (sw', qs)) =>
      match model_terms scope sw' sw' g2 (map fst latents ++ observed data)%list with
      | (g3, Ok ps) => (g3, Ok (qs, ps))
      | (g3, Exc) => (g3, Exc)
      | (g3, Fuel) => (g3, Fuel)
      end
    | (g2, Exc) => (g2, Exc)
    | (g2, Fuel) => (g2, Fuel)
    end
  | (g1, Exc) => (g1, Exc)
  | (g1, Fuel) => (g1, Fuel)
  end.

(** The loop over samples, klqp.py:657, klpq.py:129: one scope for each. *)
Fixpoint vi_samples (scopes : list string) (latents data : swap) (g : graph)
  : graph * res (list (list term * list term)) :=
  match scopes with
  | [] => (g, Ok [])
  | s :: scopes' =>
    match vi_sample s latents data g with
    | (g1, Ok t) =>
      match vi_samples scopes' latents data g1 with
      | (g2, Ok ts) => (g2, Ok (t :: ts))
      | (g2, r) => (g2, r)
      end
    | (g1, Exc) => (g1, Exc)
    | (g1, Fuel) => (g1, Fuel)
    end
  end.

(** ** Metropolis-Hastings *)

(** Draw from the proposals given the old sample,
    metropolis_hastings.py:101-108. *)
Fixpoint propose (scope_old : string) (sw_old : swap) (g : graph) (proposals new : swap)
  : graph * res (swap * list term) :=
  match proposals with
  | [] => (g, Ok (new, []))
  | (z, pz) :: proposals' =>
    match copy_rv sw_old scope_old g pz with
    | (g1, Ok r) =>
      match value_of g1 r with
      | Some v =>
        match propose scope_old sw_old g1 proposals' (swap_set new z (XT v)) with
        | (g2, Ok (new', ts)) => (g2, Ok (new', mkterm z r (XT v) :: ts))
        | (g2, r') => (g2, r')
        end
      | None => (g1, Exc)
      end
    | (g1, Exc) => (g1, Exc)
    | (g1, Fuel) => (g1, Fuel)
    end
  end.

(** The reverse proposals, metropolis_hastings.py:113-117. *)
Fixpoint reverse (scope_new : string) (sw_new sw_old : swap) (g : graph) (proposals : swap)
  : graph * res (list term) :=
  match proposals with
  | [] => (g, Ok [])
  | (z, pz) :: proposals' =>
    match copy_rv sw_new scope_new g pz with
    | (g1, Ok r) =>
      match lookup sw_old z with
      | Some y =>
        match reverse scope_new sw_new sw_old g1 proposals' with
        | (g2, Ok ts) => (g2, Ok (mkterm z r y :: ts))
        | (g2, r') => (g2, r')
        end
      | None => (g1, Exc)
      end
    | (g1, Exc) => (g1, Exc)
    | (g1, Fuel) => (g1, Fuel)
    end
  end.

(** The densities at the new and the old sample, metropolis_hastings.py:119-134;
    the value is looked up in the second dictionary. *)
Fixpoint both_terms (scope_new scope_old : string) (sw_new sw_old at_new at_old : swap) (g : graph)
    (keys : list elem) : graph * res (list (term * term)) :=
  match keys with
  | [] => (g, Ok [])
  | z :: keys' =>
    match copy_rv sw_new scope_new g z with
    | (g1, Ok r) =>
      match copy_rv sw_old scope_old g1 z with
      | (g2, Ok r') =>
        match lookup at_new z, lookup at_old z with
        | Some y, Some y' =>
          match both_terms scope_new scope_old sw_new sw_old at_new at_old g2 keys' with
          | (g3, Ok ts) => (g3, Ok ((mkterm z r y, mkterm z r' y') :: ts))
          | (g3, e) => (g3, e)
          end
        | _, _ => (g2, Exc)
        end
      | (g2, Exc) => (g2, Exc)
      | (g2, Fuel) => (g2, Fuel)
      end
    | (g1, Exc) => (g1, Exc)
    | (g1, Fuel) => (g1, Fuel)
    end
  end.

(** The new sample and the terms of the ratio: those subtracted for the
    proposals, those added for the reverse proposals, and for each variable one
    added and one subtracted, metropolis_hastings.py:110-134. *)
Record ratio : Type := mkratio { r_new : swap; r_propose : list term; r_reverse : list term;
  r_latent : list (term * term); r_data : list (term * term) }.

(** build_update up to the acceptance test, metropolis_hastings.py:84-134;
    [base] is the name of line 95, [cond] the scope of line 88. *)
Definition mh_ratio_in (cond base : string) (latents : list elem) (old proposals data : swap) (g : graph)
  : graph * res ratio :=
  match bind_data cond g data [] with
  | (g1, Ok sw) =>
    let sw_old := swap_update sw old in
    match propose (base ++ "old") sw_old g1 proposals old with
    | (g2, Ok (new, pt)) =>
      let sw_new := swap_update sw new in
      match reverse (base ++ "new") sw_new sw_old g2 proposals with
      | (g3, Ok rt) =>
        match both_terms (base ++ "new") (base ++ "old") sw_new sw_old sw_new sw_old g3 latents with
        | (g4, Ok lt) =>
          match both_terms (base ++ "new") (base ++ "old") sw_new sw_old sw sw g4 (observed data) with
          | (g5, Ok dt) => (g5, Ok (mkratio new pt rt lt dt))
          | (g5, Exc) => (g5, Exc)
          | (g5, Fuel) => (g5, Fuel)
          end
        | (g4, Exc) => (g4, Exc)
        | (g4, Fuel) => (g4, Fuel)
        end
      | (g3, Exc) => (g3, Exc)
      | (g3, Fuel) => (g3, Fuel)
      end
    | (g2, Exc) => (g2, Exc)
    | (g2, Fuel) => (g2, Fuel)
    end
  | (g1, Exc) => (g1, Exc)
  | (g1, Fuel) => (g1, Fuel)
  end.

(** metropolis_hastings.py:84-134. *)
Definition mh_ratio : string -> list elem -> swap -> swap -> swap -> graph -> graph * res ratio :=
  mh_ratio_in "conditional".

(** ** Replica exchange *)

(** The loop over the replicas, replica_exchange_mc.py:253-275; each
    sample comes with its [scope_i]. *)
Fixpoint replica_terms (latents : list elem) (data sw : swap) (g : graph) (samples : list (string * swap))
  : graph * res (list (list term)) :=
  match samples with
  | [] => (g, Ok [])
  | (scope, sample) :: samples' =>
    let sw_i := swap_update sw sample in
    match model_terms scope sw_i sw_i g latents with
    | (g1, Ok ts) =>
      match model_terms scope sw_i sw g1 (observed data) with
      | (g2, Ok xs) =>
        match replica_terms latents data sw g2 samples' with
        | (g3, Ok l) => (g3, Ok ((ts ++ xs)%list :: l))
        | (g3, r) => (g3, r)
        end
      | (g2, Exc) => (g2, Exc)
      | (g2, Fuel) => (g2, Fuel)
      end
    | (g1, Exc) => (g1, Exc)
    | (g1, Fuel) => (g1, Fuel)
    end
  end.

(** [_replica_ratio], replica_exchange_mc.py:240-276; [cond] is the scope of line 248. *)
Definition replica_ratio_in (cond : string) (latents : list elem) (data : swap) (g : graph) (samples : list (string * swap))
  : graph * res (list (list term)) :=
  match bind_data cond g data [] with
  | (g1, Ok sw) => replica_terms latents data sw g1 samples
  | (g1, Exc) => (g1, Exc)
  | (g1, Fuel) => (g1, Fuel)
  end.

(** replica_exchange_mc.py:240-276. *)
Definition replica_ratio : list elem -> swap -> graph -> list (string * swap) -> graph * res (list (list term)) :=
  replica_ratio_in "conditional".
End Copying.
