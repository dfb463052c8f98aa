(** * Vocabulary for C82: what an inference changes and what it looks at. *)
From Coq Require Import List Arith Bool.
From Verif Require Import Schedule.
From Verif Require Import Compose.
Import ListNotations.

Section Spec.
Context {V D : Type}.

(** Loss, gradients and proposals change no variable. *)
Definition reads_only {I} (body : nat -> option (node I V)) : Prop :=
  forall k n, body k = Some n -> (exists f, n_kind n = Pure f) \/ exists y, n_kind n = Var y.
Definition plain (o : object V D) : Prop :=
  match o_prog o with
  | Variational p _ => forall d, reads_only (vi_body (p d))
  | Sampling p _ _ => forall d, reads_only (sp_body (p d))
  end.

(** The variables of inference [o] that it infers, or counts with. *)
Definition own (o : object V D) (y : nat) : Prop :=
  y = v_t \/
  match o_prog o with
  | Variational _ ks => exists k, In k ks /\ y = v_theta k
  | Sampling _ st zs => y = v_accept \/ exists z, In z zs /\ (y = v_params z \/ st = Velocities /\ y = v_velocity z)
  end.
(** As variables of the program. *)
Definition infers (o : object V D) (x : nat) : Prop := exists y, own o y /\ x = o_at o y.
(** The variables that its loss, gradients or proposals look at. *)
Definition looks_at (o : object V D) (x : nat) : Prop :=
  exists d k n y, match o_prog o with
    | Variational p _ => exists n', vi_body (p d) k = Some n' /\ n = n_kind n'
    | Sampling p _ _ => exists n', sp_body (p d) k = Some n' /\ n = n_kind n'
    end /\ n = Var y /\ x = o_at o y.
Definition depends (o : object V D) (x : nat) : Prop := infers o x \/ looks_at o x.

(** An initialisation that includes [x]. *)
Definition initialises (a : action D) (x : nat) : Prop :=
  match a with Init _ None => True | Init _ (Some vs) => In x vs | Update _ _ _ => False end.

(** The updates of object [a], and what only concerns the objects in [mine]: their
    updates and all initialisations. *)
Definition is_update (a : nat) (act : action D) : bool := match act with Update b _ _ => Nat.eqb a b | Init _ _ => false end.
Definition updates (a : nat) (h : list (action D)) : nat := length (filter (is_update a) h).
Definition concerns (mine : nat -> bool) (act : action D) : bool := match act with Update b _ _ => mine b | Init _ _ => true end.

(** The counter is incremented by [inc]. *)
Definition counts_by (o : object V D) (inc : V -> V) : Prop :=
  match o_prog o with
  | Variational p _ => forall d v vs, vi_increment (p d) v vs = inc v
  | Sampling p _ _ => forall d v vs, sp_increment (p d) v vs = inc v
  end.
End Spec.

(** A variational inference whose trained variables are those in [ks], by their numbers
    in the program, and whose counter is variable [t] of the program. *)
Definition training {V D : Type} (p : D -> optimization V) (ks : list nat) (t : nat) : object V D :=
  mkobject (Variational p ks) (fun y => match y with O => t | S k => k end).

(** ** A program with two inferences
    Variable 0 and 1 are trained, by objects 0 and 1, which count with variables 2 and 3;
    each adds to its variable: the first adds 1, the second what the first has. *)
Definition adds (k : nat) (src : option nat) : unit -> optimization nat := fun _ =>
  mkopt (fun j => match j, src with
                  | 0, None => Some (mknode (Pure (fun _ => 1)) [] [])
                  | 0, Some x => Some (mknode (Pure (fun vs => hd 0 vs)) [VBody 1] [])
                  | 1, Some x => Some (mknode (Var x) [] [])
                  | _, _ => None
                  end)
        (fun _ => 0) (fun v vs => v + hd 0 vs) (fun v _ => S v) (fun vs => hd 0 vs) [VBody 0].
(** Where object 1 sees the variable of object 0: variables of the object are numbered from 1. *)
Definition alone : list (object nat unit) := [training (adds 0 None) [0] 2; training (adds 1 None) [1] 3].
Definition conditioned : list (object nat unit) := [training (adds 0 None) [0] 2; training (adds 1 (Some 1)) [1] 3].
Definition order0 : schedule := Once [VarT; VarTheta 0; VBody 0; VUpdate 0; VIncrement; VLoss; VTrain].
Definition order1a : schedule := Once [VarT; VIncrement; VarTheta 1; VBody 0; VLoss; VUpdate 1; VTrain].
Definition order1 : schedule := Once [VarT; VIncrement; VarTheta 1; VBody 1; VBody 0; VLoss; VUpdate 1; VTrain].
