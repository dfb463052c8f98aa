(** * What one session run should compute, whatever its order. *)
From Coq Require Import List Arith Bool.
From Verif Require Import Schedule.
Import ListNotations.

Section S.
Context {I V : Type}.
Variable g : sgraph I V.

(** Every operation has run. *)
Definition complete (s : sstate I V) : Prop := forall i, g i <> None -> s_out s i <> None.

(** [i] is an input or control input of [j]. *)
Definition feeds (i j : I) : Prop := exists n, g j = Some n /\ In i (n_in n ++ n_after n).

(** [j] runs after [i] in every order. *)
Inductive before : I -> I -> Prop :=
| before_one : forall i j, feeds i j -> before i j
| before_more : forall i j k, before i j -> feeds j k -> before i k.

(** [i] returns variable [x] by reference. *)
Definition returns (i : I) (x : nat) : Prop :=
  exists n, g i = Some n /\ (n_kind n = Var x \/ exists f, n_kind n = Write x f).
(** [i] changes [x]. *)
Definition writes (i : I) (x : nat) : Prop := exists n f, g i = Some n /\ n_kind n = Write x f.
(** [i] takes [x] as an input. *)
Definition uses (i : I) (x : nat) : Prop := exists n j, g i = Some n /\ In j (n_in n) /\ returns j x.

(** Two operations of which one changes a variable and the other uses or changes it
    are ordered by the graph. *)
Definition race_free : Prop := forall i j x, i <> j -> writes i x -> uses j x \/ writes j x -> before i j \/ before j i.

(** The value of an operation if no variable changed during the run. *)
Inductive snapshot (m : nat -> V) : I -> V -> Prop :=
| snap_var : forall i x l a, g i = Some (mknode (Var x) l a) -> snapshot m i (m x)
| snap_pure : forall i f l a vs, g i = Some (mknode (Pure f) l a) -> snapshots m l vs -> snapshot m i (f vs)
with snapshots (m : nat -> V) : list I -> list V -> Prop :=
| snap_nil : snapshots m [] []
| snap_cons : forall i v l vs, snapshot m i v -> snapshots m l vs -> snapshots m (i :: l) (v :: vs).

(** Leaving the operations [D] aside: a variable that is changed is changed by one
    operation, and whatever else uses it comes before; what changes a variable is no
    input; and nothing outside [D] depends on [D]. *)
Definition read_first (D : I -> Prop) : Prop :=
  (forall i j x, writes i x -> writes j x -> i = j) /\
  (forall i j x, writes i x -> uses j x -> i <> j -> ~ D j -> before j i) /\
  (forall i j x, writes i x -> forall n, g j = Some n -> ~ D j -> ~ In i (n_in n)) /\
  (forall i j, feeds i j -> D i -> D j).
End S.

(** What the operations between gather and sample may be: they compute from gathered
    rows, from t and from each other, or are variables that the iteration does not change. *)
Definition plain_in (l : list sop) : Prop :=
  forall o, In o l -> (exists z, o = OpGather z) \/ (exists k, o = OpBody k) \/ o = OpT.
Definition plain_body {V} (p : sampler V) (zs : list nat) : Prop :=
  (forall k n, sp_body p k = Some n ->
     (exists f, n_kind n = Pure f /\ plain_in (n_in n) /\ plain_in (n_after n)) \/
     (exists x, n_kind n = Var x /\ n_in n = [] /\ n_after n = [] /\ x <> v_t /\ x <> v_accept /\
        forall z, In z zs -> x <> v_params z /\ x <> v_velocity z)) /\
  (forall z, plain_in (sp_sample_in p z)) /\ plain_in (sp_accept_in p).

(** For optimization likewise; trained variables may be used. *)
Definition plain_vi {V} (p : optimization V) (ks : list nat) : Prop :=
  (forall k n, vi_body p k = Some n ->
     (exists f, n_kind n = Pure f /\ forall o, In o (n_in n ++ n_after n) -> (exists j, o = VBody j) \/ (exists j, o = VarTheta j)) \/
     (exists x, n_kind n = Var x /\ n_in n = [] /\ n_after n = [] /\ x <> v_t /\ forall k', In k' ks -> x <> v_theta k')) /\
  (forall o, In o (vi_loss_in p) -> (exists j, o = VBody j) \/ (exists j, o = VarTheta j)).

(** The terms added one after the other. *)
Fixpoint ratio_sum {V} (zeros : V) (get : nat -> V -> V) (put : nat -> V -> V -> V) (add : V -> V -> V) (term : nat -> V) (k : nat) : V :=
  match k with
  | 0 => zeros
  | S k' => let r := ratio_sum zeros get put add term k' in put k' r (add (get k' r) (term k'))
  end.
