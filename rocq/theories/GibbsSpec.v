(** * Vocabulary for C27. *)
From Coq Require Import List Arith Bool Reals.
From Verif Require Import Feed MonteCarlo Gibbs.
Import ListNotations.

Section Spec.
Context {V : Type}.
Notation dict := (list (nat * V)).

(** [states] are the values of the variables before, between and after the
    blocks: each variable of a block is drawn given the values before the block,
    and the others keep theirs. *)
Definition sweep (blocks : list (list nat * (nat -> dict -> V))) (states : nat -> dict) : Prop :=
  forall i b draw, nth_error blocks i = Some (b, draw) -> forall k,
    dict_get (states (S i)) k = if in_dec Nat.eq_dec k b then Some (draw k (states i)) else dict_get (states i) k.
End Spec.

(** ** Two binary variables (numbered 0 and 1) with joint distribution [p] *)
Local Open Scope R_scope.
Section Law.
Variable p : bool -> bool -> R.
Definition total (f : bool -> R) : R := f true + f false.
(** The conditional distributions. *)
Definition cond0 (z1 a : bool) : R := p a z1 / total (fun x => p x z1).
Definition cond1 (z0 b : bool) : R := p z0 b / total (fun x => p z0 x).

(** One update that scans 0, then 1, in state (s0, s1), with the values e0, e1
    drawn in the scan and d0, d1 drawn when storing: the new state and what is
    stored. *)
Definition outcome (s0 s1 e0 e1 d0 d1 : bool) : option (list (nat * bool) * list bool) :=
  match gibbs_kernel [0%nat; 1%nat] [] 1%nat [(0%nat, s0); (1%nat, s1)] [s0; s1]
          (mkgibbs [([0%nat], fun _ _ => e0); ([1%nat], fun _ _ => e1)] (fun k _ => if Nat.eqb k 0%nat then d0 else d1) None) with
  | Some (self, stored, _) => Some (self, stored)
  | None => None
  end.

(** The probability of an event about new state and stored row, when the state
    is distributed as [p] and all draws are from the conditionals. *)
Definition probability (event : list (nat * bool) -> list bool -> bool) : R :=
  total (fun s0 => total (fun s1 => p s0 s1 *
    total (fun e0 => cond0 s1 e0 * total (fun e1 => cond1 e0 e1 *
      total (fun d0 => cond0 e1 d0 * total (fun d1 => cond1 e0 d1 *
        match outcome s0 s1 e0 e1 d0 d1 with Some (self, stored) => if event self stored then 1 else 0 | None => 0 end)))))).
End Law.

(** ** Any number of variables with values in a finite set *)
Section Invariant.
Context {V : Type} (veq : forall a b : V, {a = b} + {a <> b}).
(** The variables, their values, the states and their probabilities. *)
Variable latent : list nat.
Variable values : list V.
Variable space : list (list V).
Variable p : list V -> R.

Definition sum_over {A} (l : list A) (f : A -> R) : R := fold_right (fun a s => f a + s) 0 l.

(** All states. *)
Definition all_states : Prop :=
  NoDup values /\ NoDup space /\ forall s, In s space <-> length s = length latent /\ forall v, In v s -> In v values.

(** The state [s] with the value of variable number [i] replaced. *)
Definition replaced (i : nat) (v : V) (s : list V) : list V := firstn i s ++ v :: skipn (S i) s.

(** The complete conditional of variable number [i] given the others. *)
Definition conditional (i : nat) (s : list V) (v : V) : R :=
  p (replaced i v s) / sum_over values (fun w => p (replaced i w s)).

(** The state after the scan of the one variable [k] in which it is drawn as [v]. *)
Definition scanned (k : nat) (s : list V) (v : V) : list (option V) :=
  map (dict_get (gibbs_scan (combine latent s) [([k], fun _ _ => v)])) latent.

Definition option_eq_dec (a b : option V) : {a = b} + {a <> b}.
Proof. decide equality. Defined.

(** The distribution of the state after scanning, in this order, the variables
    with the given numbers, each drawn from its complete conditional. *)
Fixpoint law_after (order : list nat) (q : list V -> R) (r : list V) : R :=
  match order with
  | [] => q r
  | i :: order' => law_after order' (fun r' =>
      sum_over space (fun s => q s * sum_over values (fun v => conditional i s v *
        if list_eq_dec option_eq_dec (scanned (nth i latent O) s v) (map Some r') then 1 else 0))) r
  end.
End Invariant.
