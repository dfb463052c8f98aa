(** * Vocabulary for C62-C65. *)
From Coq Require Import Reals String List Bool.
From Verif Require Import Copy CopySpec LogJoint.
Import ListNotations.
Local Open Scope R_scope.

(** Sums whose addends are given by a relation. *)
Inductive sum_is {A : Type} (P : A -> R -> Prop) : list A -> R -> Prop :=
| sum_nil : sum_is P [] 0
| sum_cons : forall a l x y, P a x -> sum_is P l y -> sum_is P (a :: l) (x + y).

Section Values.
Context {V N : Type}.
Variable sem : nat -> N -> list V -> V.
Variable st : nat -> V.

(** The value of a tensor of the program when some tensors are held at given
    values: below them everything is computed as the program says. *)
Inductive held (noise : nat -> N) (env : nat -> option V) (g : graph) : nat -> V -> Prop :=
| held_given : forall t v, env t = Some v -> held noise env g t v
| held_leaf : forall t d, env t = None -> nth_error (ops g) t = Some d -> leaf (okind d) = true ->
    held noise env g t (st t)
| held_op : forall t d ty vs, env t = None -> nth_error (ops g) t = Some d -> okind d = KOp ty ->
    helds noise env g (oins d) vs -> held noise env g t (sem ty (noise t) vs)
with helds (noise : nat -> N) (env : nat -> option V) (g : graph) : list nat -> list V -> Prop :=
| helds_nil : helds noise env g [] []
| helds_cons : forall t v l vs, held noise env g t v -> helds noise env g l vs ->
    helds noise env g (t :: l) (v :: vs).

(** [score z c vs v] is what the algorithm adds for the variable [z]: the log
    density of the class [c] with arguments [vs] at [v], times the scale of
    [z]. *)
Variable score : nat -> nat -> list V -> V -> R.

(** The log density of the variable [x], its arguments computed with the held
    values, at the value given to the variable [z]. *)
Definition density_at (noise : nat -> N) (env at_ : nat -> option V) (g : graph) (z x : elem) (a : R) : Prop :=
  exists i dz j dx vs v, z = XRV i /\ nth_error (rvs g) i = Some dz /\ x = XRV j /\ nth_error (rvs g) j = Some dx /\
    helds noise env g (map (tensor_of g) (rargs dx)) vs /\ at_ (rvalue dz) = Some v /\ a = score i (rclass dx) vs v.

(** The log density of a variable of the model at its own value. *)
Definition density (noise : nat -> N) (env : nat -> option V) (g : graph) (z : elem) : R -> Prop :=
  density_at noise env env g z z.

(** What a term evaluates to in a graph. *)
Definition term_is (noise : nat -> N) (g : graph) (t : term) (a : R) : Prop :=
  exists i d vs v, t_key t = XRV i /\ nth_error (rvs g) (t_copy t) = Some d /\
    evs sem st noise g (map (tensor_of g) (rargs d)) vs /\
    ev sem st noise g (tensor_of g (t_value t)) v /\ a = score i (rclass d) vs v.

(** [env] holds exactly the keys of [d], each at the value [val] says. *)
Definition holds (g : graph) (val : elem -> V -> Prop) (d : swap) (env : nat -> option V) : Prop :=
  (forall k y, In (k, y) d -> exists v, env (tensor_of g k) = Some v /\ val y v) /\
  (forall t, env t <> None -> exists k y, In (k, y) d /\ t = tensor_of g k).

(** The value a binding is to have: that of the tensor; for a random variable,
    when it is to be sampled anew, that of its expression with new noise. *)
Definition given (noise : nat -> N) (g : graph) (y : elem) (v : V) : Prop := ev sem st noise g (tensor_of g y) v.
Definition sampled (noise noise' : nat -> N) (g : graph) (y : elem) (v : V) : Prop :=
  if is_rv y then given noise' g y v else given noise g y v.
End Values.

(** ** What the program passes *)

(** Bindings of random variables to elements of the graph. *)
Definition bindings (g : graph) (d : swap) : Prop :=
  Forall (fun kv => (is_rv (fst kv) = true /\ valid g (fst kv)) /\ valid g (snd kv) /\ is_op (snd kv) = false) d.

(** Those of the data whose keys are random variables. *)
Definition rv_items (d : swap) : swap := filter (fun kv => is_rv (fst kv)) d.

(** No datum of a random variable is itself random. *)
Definition constant_data (d : swap) : Prop := Forall (fun kv => is_rv (snd kv) = false) (rv_items d).

(** No key is an ancestor of a random variable that is sampled anew. *)
Definition unrelated (g : graph) (keys qs : list elem) : Prop :=
  forall k q, In k keys -> In q qs -> is_rv q = true -> ~ depends g (tensor_of g q) (tensor_of g k).

(** New noise: operations that were not there, different for different
    operations. *)
Definition new_noise (g : graph) (rho : nat -> nat) : Prop :=
  (forall o, (length (ops g) <= rho o)%nat) /\
  (forall a b, (a < length (ops g))%nat -> (b < length (ops g))%nat -> rho a = rho b -> a = b).

(** Names in one scope are not names in the other. *)
Definition apart (s s' : string) : Prop := forall n n', (s ++ n)%string <> (s' ++ n')%string.

(** A scope no element has a name in. *)
Definition new_scope (g : graph) (scope : string) : Prop :=
  exists s, with_slash scope = Some s /\ fresh_scope g s.

(** ** Ratios *)

Section Ratios.
Context {V N : Type}.
Variable sem : nat -> N -> list V -> V.
Variable st : nat -> V.
Variable score : nat -> nat -> list V -> V -> R.

(** A draw of the random variable [x] given the values held. *)
Definition draw (noise : nat -> N) (env : nat -> option V) (g : graph) (x : elem) (v : V) : Prop :=
  exists j dx vs, x = XRV j /\ nth_error (rvs g) j = Some dx /\
    helds sem st noise env g (map (tensor_of g) (rargs dx)) vs /\ v = sem (rclass dx) (noise (rvalue dx)) vs.

(** The states before and after a proposal: the old sample has its values, the
    proposed variables are drawn given the old state, and the data are the same
    in both, random ones drawn once. *)
Definition mh_states (noise noise_c noise_o : nat -> N) (g : graph) (old proposals data : swap)
    (env_old env_new : nat -> option V) : Prop :=
  (forall k q, In (k, q) old -> exists v, env_old (tensor_of g k) = Some v /\ given sem st noise g q v) /\
  (forall k q, In (k, q) (rv_items data) -> exists v, env_old (tensor_of g k) = Some v /\
     env_new (tensor_of g k) = Some v /\ sampled sem st noise noise_c g q v) /\
  (forall k p, In (k, p) proposals -> exists v, env_new (tensor_of g k) = Some v /\ draw noise_o env_old g p v) /\
  (forall k, In k (map fst old) -> ~ In k (map fst proposals) -> env_new (tensor_of g k) = env_old (tensor_of g k)) /\
  (forall t, env_old t <> None \/ env_new t <> None ->
     exists k, In k (map fst old ++ map fst (rv_items data))%list /\ t = tensor_of g k).

(** What the ratio evaluates to in a graph: the terms added minus those
    subtracted. *)
Definition pair_is (noise : nat -> N) (g : graph) (p : term * term) (a : R) : Prop :=
  exists x y, term_is sem st score noise g (fst p) x /\ term_is sem st score noise g (snd p) y /\ a = x - y.
Definition ratio_is (noise : nat -> N) (g : graph) (r : ratio) (a : R) : Prop :=
  exists f b l d, sum_is (term_is sem st score noise g) (r_propose r) f /\
    sum_is (term_is sem st score noise g) (r_reverse r) b /\
    sum_is (pair_is noise g) (r_latent r) l /\ sum_is (pair_is noise g) (r_data r) d /\ a = - f + b + l + d.
End Ratios.

(** ** Functions of the sample *)

(** The operations that the densities of [keys] are computed with are
    deterministic, but for the tensors held. *)
Definition settled {V N : Type} (sem : nat -> N -> list V -> V) (g : graph) (keys held : list elem) : Prop :=
  forall i d x t dt ty, In (XRV i) keys -> nth_error (rvs g) i = Some d -> In x (rargs d) ->
    depends g (tensor_of g x) t -> nth_error (ops g) t = Some dt -> okind dt = KOp ty ->
    In t (map (tensor_of g) held) \/ forall n n' vs, sem ty n vs = sem ty n' vs.

(** A graph the program has later: it may have added anything. *)
Definition later (g g' : graph) : Prop :=
  extends g g' /\ wf g' /\ (exists h, acyclic g' h) /\
  (forall r d, (length (rvs g) <= r)%nat -> nth_error (rvs g') r = Some d -> (length (ops g) <= rvalue d)%nat).
