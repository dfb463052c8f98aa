(** * compute_multinomial_mode.

    Models edward/util/random_variables.py:920-968.  NumPy floats are reals, without
    rounding.  random_state.choice is an argument. *)
From Coq Require Import Reals List Arith Bool.
From Verif Require Import Transform.
Import ListNotations.
Local Open Scope R_scope.

(** probs >= uniform_prob (random_variables.py:957). *)
Definition leb_R (a b : R) : bool := if Rle_dec a b then true else false.
(** probs < uniform_prob (random_variables.py:955). *)
Definition ltb_R (a b : R) : bool := if Rlt_dec a b then true else false.

(** np.argmax: the first index of a largest entry; [best] is the index of the largest
    so far, [top] its value, [i] the next index (random_variables.py:949). *)
Fixpoint argmax_from (best : nat) (top : R) (i : nat) (l : list R) : nat :=
  match l with
  | [] => best
  | x :: l' => if ltb_R top x then argmax_from i x (S i) l' else argmax_from best top (S i) l'
  end.
(** np.argmax (random_variables.py:949). *)
Definition argmax (l : list R) : nat := match l with [] => 0%nat | x :: l' => argmax_from 0 x 1 l' end.

(** softmax (lines 942-944). *)
Definition softmax (v : list R) : list R := let numerator := map exp v in map (fun a => a / sumR numerator) numerator.

(** mask.sum() (random_variables.py:958). *)
Definition count_true (m : list bool) : nat := length (filter (fun b => b) m).
(** np.where(mask)[0], the indices counted from [i] (random_variables.py:960). *)
Fixpoint where_true (i : nat) (m : list bool) : list nat :=
  match m with [] => [] | b :: m' => if b then i :: where_true (S i) m' else where_true (S i) m' end.
(** mask[cold_indices] = False (random_variables.py:963). *)
Definition clear_mask (m : list bool) (cold : list nat) : list bool :=
  map (fun p => if existsb (Nat.eqb (fst p)) cold then false else snd p) (combine (seq 0 (length m)) m).

(** The caller's array, the local name probs and whether it still is that array, the
    counts and remaining_count (lines 947-952). *)
Record mode_state : Type := mkmode { m_caller : list R; m_probs : list R; m_alias : bool; m_mode : list nat; m_remaining : nat }.

(** What the call returns or raises (random_variables.py:950-968). *)
Inductive mode_result : Type := Returned (mode : list nat) (caller : list R) | OutOfFuel | ZeroDivisionError.

Section Mode.
(** random_state.choice(hot_indices, overflow_count, replace=False) in each round. *)
Variable choice : nat -> list nat -> nat -> list nat.

(** One round (lines 955-967). *)
Definition mode_round (round : nat) (uniform_prob : R) (s : mode_state) : mode_state :=
  let soft := forallb (fun p => ltb_R p uniform_prob) (m_probs s) in
  let probs := if soft then softmax (m_probs s) else m_probs s in
  let alias := if soft then false else m_alias s in
  let mask := map (fun p => leb_R uniform_prob p) probs in
  let overflow_count := (count_true mask - m_remaining s)%nat in
  let mask := if Nat.ltb 0 overflow_count then clear_mask mask (choice round (where_true 0 mask) overflow_count) else mask in
  let mode := map (fun p : nat * bool => if snd p then S (fst p) else fst p) (combine (m_mode s) mask) in
  let probs := map (fun p : R * bool => if snd p then fst p - uniform_prob else fst p) (combine probs mask) in
  mkmode (if alias then probs else m_caller s) probs alias mode (m_remaining s - count_true mask).

(** while remaining_count > 0, with [fuel] rounds (random_variables.py:954-968). *)
Fixpoint mode_loop (fuel round : nat) (uniform_prob : R) (s : mode_state) : mode_result :=
  if Nat.ltb 0 (m_remaining s) then
    match fuel with O => OutOfFuel | S f => mode_loop f (S round) uniform_prob (mode_round round uniform_prob s) end
  else Returned (m_mode s) (m_caller s).

(** compute_multinomial_mode (lines 946-968); 1 / 0 raises. *)
Definition multinomial_mode (fuel : nat) (probs : list R) (total_count : nat) : mode_result :=
  let mode := repeat 0%nat (length probs) in
  if Nat.eqb total_count 1 then Returned (map (fun i => if Nat.eqb i (argmax probs) then 1%nat else 0%nat) (seq 0 (length probs))) probs
  else if Nat.eqb total_count 0 then ZeroDivisionError
  else mode_loop fuel 0 (1 / INR total_count) (mkmode probs probs true mode total_count).

End Mode.
