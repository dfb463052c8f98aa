(** * Vocabulary for C72 *)
From Coq Require Import String List Arith Bool.
From Verif Require Import Graph GraphSpec.
From Verif Require Import LogVars.
Import ListNotations.

(** How a variable of known rank is shown: scalars and vectors of one entry as
    curves, anything else as histograms. *)
Inductive shown : option (list (option nat)) -> nat -> content -> Prop :=
| shown_scalar : forall v, shown (Some []) v (Scalar v)
| shown_one : forall v, shown (Some [Some 1]) v (Entry v)
| shown_histogram : forall l v, l <> [] -> l <> [Some 1] -> shown (Some l) v (Histogram v).

(** What an inference adds after its variables. *)
Definition losses (i : inf) : list content :=
  map Part (i_parts i) ++ flat_map (fun vg => [Gradient (fst vg); GradientNorm (fst vg)]) (i_grads i).

(** The program's own summaries in a collection. *)
Definition users (h : list event) (key : string) : list content :=
  flat_map (fun e => match e with
    | EUser _ _ cs n => map (fun _ => User n) (filter (fun c => String.eqb c key) cs)
    | _ => [] end) h.

(** The keys of the inferences that logged. *)
Definition keys (outs : list outcome) : list string :=
  flat_map (fun r => match r with Logged key _ => [key] | _ => [] end) outs.

(** The elements an inference is about: data, latent variables, approximations. *)
Definition about (i : inf) (x : node) : Prop :=
  In x (i_data i) \/ exists zq, In zq (i_latent i) /\ (x = fst zq \/ x = snd zq).
