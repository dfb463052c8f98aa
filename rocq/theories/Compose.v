(** * Several inferences in one session.

    Models programs that build several inference objects over one graph and call their
    updates in any order (docs/tex/api/inference-compositionality.tex:30-40, 86-91; README
    of the tutorials does the same): inference.py:97-154 (run), 211-213 (the counter),
    variational_inference.py:133-164 (update), monte_carlo.py:111-150 (update).  A session
    run is that of [Schedule.v], on variables that belong to the whole program. *)
From Coq Require Import List Arith Bool.
From Verif Require Import Schedule.
Import ListNotations.

(** The operations of samplers and optimizations can be told apart (metropolis_hastings.py:64-156,
    variational_inference.py:120-123). *)
Definition sop_dec : forall i j : sop, {i = j} + {i <> j}. Proof. decide equality; apply Nat.eq_dec. Defined.
(** Likewise (variational_inference.py:120-123). *)
Definition vop_dec : forall i j : vop, {i = j} + {i <> j}. Proof. decide equality; apply Nat.eq_dec. Defined.

Section Compose.
(** [V] are values of variables; [D] is what an update gets from outside: its random
    draws and what is fed. *)
Context {V D : Type}.

(** The variables of the program (inference.py:211, monte_carlo.py:98). *)
Definition memory : Type := nat -> V.

(** [Schedule.v] numbers the variables of one inference; [at_ y] is the variable of the
    program that its variable [y] is (inference.py:211, monte_carlo.py:98,
    variational_inference.py:53-66). *)
Definition rename_kind (at_ : nat -> nat) (k : kind V) : kind V :=
  match k with Pure f => Pure f | Var x => Var (at_ x) | Write x f => Write (at_ x) f end.
(** The graph on the variables of the program (monte_carlo.py:138, variational_inference.py:155). *)
Definition rename {I} (at_ : nat -> nat) (g : sgraph I V) : sgraph I V := fun i =>
  match g i with Some n => Some (mknode (rename_kind at_ (n_kind n)) (n_in n) (n_after n)) | None => None end.

(** Inference objects: a variational inference of the variables [ks] (variational_inference.py:51-131),
    or a sampler of the latent variables [zs] (monte_carlo.py:87-110). *)
Inductive program : Type :=
| Variational (p : D -> optimization V) (ks : list nat)
| Sampling (p : D -> sampler V) (st : style) (zs : list nat).
(** With its place in the program (inference.py:211). *)
Record object : Type := mkobject { o_prog : program; o_at : nat -> nat }.

(** sess.run(self.increment_t) (monte_carlo.py:139). *)
Definition increment_graph (p : sampler V) : sgraph sop V := fun o =>
  match o with OpIncrement => Some (mknode (Write v_t (sp_increment p)) [] []) | _ => None end.

(** A session run returns when all its operations have run (monte_carlo.py:138). *)
Definition finished {I} (g : sgraph I V) (s : sstate I V) : Prop := forall i, g i <> None -> s_out s i <> None.

(** sess.run: some order [l], and the state at the end (monte_carlo.py:138-139, variational_inference.py:155). *)
Definition session {I} (I_eq : forall i j : I, {i = j} + {i <> j}) (g : sgraph I V) (m : memory) (l : list I) (s : sstate I V) : Prop :=
  run I_eq g (start m) l = Some s /\ finished g s.

(** What sess.run returns for a fetched operation; a variable is read at the end
    (simplified: TensorFlow reads it when the operation has run; monte_carlo.py:138-139). *)
Definition fetched {I} (s : sstate I V) (i : I) : list V := match s_out s i with Some o => [deref (s_mem s) o] | None => [] end.

(** The orders TensorFlow takes in one update (monte_carlo.py:124-127). *)
Inductive schedule : Type := Once (l : list vop) | Twice (l l' : list sop).

(** What the program does: an update of object [a], or the initialisation of all
    variables or of these, by run (inference.py:127-138) or by the user. *)
Inductive action : Type := Update (a : nat) (d : D) (l : schedule) | Init (d : D) (vs : option (list nat)).

(** The initial values (tf.Variable, inference.py:211); they may depend on draws and on
    what is fed (inference.py:132-138). *)
Variable initial : D -> nat -> V.

(** One action; an update of object [a] returns its t and loss
    (variational_inference.py:155-164) or acceptance rate (monte_carlo.py:138-150). *)
Inductive step (objs : list object) : memory -> action -> memory -> list (nat * list V) -> Prop :=
| step_variational : forall m a d l p ks at_ s, nth_error objs a = Some (mkobject (Variational p ks) at_) ->
    session vop_dec (rename at_ (vi_graph (p d) ks)) m l s ->
    step objs m (Update a d (Once l)) (s_mem s) [(a, fetched s VIncrement ++ fetched s VLoss)]
| step_sampling : forall m a d l l' p st zs at_ s s', nth_error objs a = Some (mkobject (Sampling p st zs) at_) ->
    session sop_dec (rename at_ (sampler_graph (p d) st true false zs)) m l s ->
    session sop_dec (rename at_ (increment_graph (p d))) (s_mem s) l' s' ->
    step objs m (Update a d (Twice l l')) (s_mem s') [(a, fetched s' OpIncrement ++ fetched s OpRate)]
| step_init : forall m d vs,
    step objs m (Init d vs) (fun x => if match vs with None => true | Some l => existsb (Nat.eqb x) l end then initial d x else m x) [].

(** A history, with what its updates return (docs/tex/api/inference-compositionality.tex:37-39; inference.py:145-147). *)
Inductive exec (objs : list object) : memory -> list action -> memory -> list (nat * list V) -> Prop :=
| exec_nil : forall m, exec objs m [] m []
| exec_cons : forall m a m1 r h m2 out, step objs m a m1 r -> exec objs m1 h m2 out -> exec objs m (a :: h) m2 (r ++ out).
End Compose.
Arguments program : clear implicits.
Arguments object : clear implicits.
Arguments action : clear implicits.
Arguments memory : clear implicits.
