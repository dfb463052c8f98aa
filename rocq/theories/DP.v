(** * DirichletProcess.

    Models edward/models/dirichlet_process.py:39-224.  Tensors of shape [n] + batch
    are functions on sample indices below n; [which j] is the batch element of
    sample j.  An atom is a value for each batch element.  Draws of the base
    distribution, of the Beta and of the coins are arguments. *)
From Coq Require Import Reals List Arith Bool.
Import ListNotations.

(** The check of base (lines 58-59): raises TypeError (false). *)
Definition base_accepted (validate_args base_is_random_variable : bool) : bool :=
  negb (andb validate_args base_is_random_variable).

Section Sample.
Context {V : Type} (zero : V).

(** locs and probs (lines 65-76, 182). *)
Record sticks : Type := mksticks { s_locs : list (nat -> V); s_probs : list (nat -> R) }.

(** Loop variables k, bools, locs, probs, draws (lines 150-166). *)
Record loop_vars : Type := mkvars { l_k : nat; l_bools : nat -> bool; l_sticks : sticks; l_draws : nat -> V }.

Variable n : nat.
Variable which : nat -> nat.
(** The base distribution's draw, the Beta's draw and the coins at each iteration. *)
Variable base : nat -> nat -> V.
Variable beta : nat -> nat -> R.
Variable flips : nat -> nat -> bool.

(** _sample_n_cond (lines 184-186). *)
Definition dp_cond (v : loop_vars) : bool := existsb (l_bools v) (seq 0 n).

(** _sample_n_body (lines 188-224). *)
Definition dp_body (v : loop_vars) : loop_vars :=
  let k := l_k v in
  let s := if Nat.leb (k + 1) (length (s_locs (l_sticks v))) then l_sticks v
           else mksticks (s_locs (l_sticks v) ++ [base k]) (s_probs (l_sticks v) ++ [beta k]) in
  let locs_k := nth k (s_locs s) (fun _ => zero) in
  let draws := fun j => if l_bools v j then locs_k (which j) else l_draws v j in
  let bools := fun j => if flips k j then false else l_bools v j in
  mkvars (k + 1) bools s draws.

(** tf.while_loop (lines 173-179), with [fuel] iterations. *)
Fixpoint dp_loop (fuel : nat) (v : loop_vars) : option loop_vars :=
  if dp_cond v then match fuel with O => None | S f => dp_loop f (dp_body v) end else Some v.

(** _sample_n (lines 123-182): the new sticks and the samples. *)
Definition dp_sample (fuel : nat) (s : sticks) : option (sticks * (nat -> V)) :=
  match dp_loop fuel (mkvars 0 (fun _ => true) s (fun _ => zero)) with
  | Some v => Some (l_sticks v, l_draws v)
  | None => None
  end.

End Sample.

(** Successive calls of sample; each has its own size and draws.  None if a loop did
    not end within its fuel (dirichlet_process.py:123-182). *)
Record call (V : Type) : Type := mkcall
  { c_n : nat; c_which : nat -> nat; c_base : nat -> nat -> V; c_beta : nat -> nat -> R; c_flips : nat -> nat -> bool; c_fuel : nat }.

(** One call after the other on the stored sticks (dirichlet_process.py:123-182). *)
Fixpoint dp_calls {V : Type} (zero : V) (cs : list (call V)) (s : sticks (V := V)) : option (sticks * list (nat -> V)) :=
  match cs with
  | [] => Some (s, [])
  | c :: cs' =>
      match dp_sample zero (c_n V c) (c_which V c) (c_base V c) (c_beta V c) (c_flips V c) (c_fuel V c) s with
      | None => None
      | Some (s', x) => match dp_calls zero cs' s' with Some (s'', xs) => Some (s'', x :: xs) | None => None end
      end
  end.
