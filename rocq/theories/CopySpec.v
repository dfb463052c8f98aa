(** * Vocabulary for C09-C12. *)
From Coq Require Import String List Arith Bool.
From Verif Require Import Copy.
Import ListNotations.
Local Open Scope string_scope.

(** ** Values

    [st] is the value of variables, placeholders and queue elements, [noise]
    the randomness an operation draws, [sem] what each type of operation
    computes. *)
Definition leaf (k : kind) : bool := match k with KOp _ => false | _ => true end.

Inductive ev {V N : Type} (sem : nat -> N -> list V -> V) (st : nat -> V) (noise : nat -> N) (g : graph)
  : nat -> V -> Prop :=
| ev_leaf : forall o d, nth_error (ops g) o = Some d -> leaf (okind d) = true -> ev sem st noise g o (st o)
| ev_op : forall o d ty vs, nth_error (ops g) o = Some d -> okind d = KOp ty ->
    evs sem st noise g (oins d) vs -> ev sem st noise g o (sem ty (noise o) vs)
with evs {V N : Type} (sem : nat -> N -> list V -> V) (st : nat -> V) (noise : nat -> N) (g : graph)
  : list nat -> list V -> Prop :=
| evs_nil : evs sem st noise g [] []
| evs_cons : forall o v l vs, ev sem st noise g o v -> evs sem st noise g l vs ->
    evs sem st noise g (o :: l) (v :: vs).

(** The tensor that stands for an element. *)
Definition tensor_of (g : graph) (x : elem) : nat :=
  match x with
  | XRV r => match nth_error (rvs g) r with Some d => rvalue d | None => length (ops g) end
  | XT t | XVar t | XOp t => t
  end.

(** What [dict_swap] replaces the tensor [t] by. *)
Definition replacement (g : graph) (sw : swap) (t : nat) : option nat :=
  match find (fun kv => Nat.eqb (tensor_of g (fst kv)) t) sw with
  | Some kv => Some (tensor_of g (snd kv))
  | None => None
  end.

(** The value of [t] in which swapped ancestors are replaced: [sev_tensor] for
    a tensor that may itself be swapped, [sev_node] for one that is not. *)
Inductive sev_tensor {V N : Type} (sem : nat -> N -> list V -> V) (st : nat -> V) (noise noise' : nat -> N)
    (g : graph) (sw : swap) : nat -> V -> Prop :=
| sev_swap : forall t t' v, replacement g sw t = Some t' -> ev sem st noise g t' v ->
    sev_tensor sem st noise noise' g sw t v
| sev_noswap : forall t v, replacement g sw t = None -> sev_node sem st noise noise' g sw t v ->
    sev_tensor sem st noise noise' g sw t v
with sev_node {V N : Type} (sem : nat -> N -> list V -> V) (st : nat -> V) (noise noise' : nat -> N)
    (g : graph) (sw : swap) : nat -> V -> Prop :=
| sev_leaf : forall o d, nth_error (ops g) o = Some d -> leaf (okind d) = true ->
    sev_node sem st noise noise' g sw o (st o)
| sev_op : forall o d ty vs, nth_error (ops g) o = Some d -> okind d = KOp ty ->
    sevs sem st noise noise' g sw (oins d) vs ->
    sev_node sem st noise noise' g sw o (sem ty (noise' o) vs)
with sevs {V N : Type} (sem : nat -> N -> list V -> V) (st : nat -> V) (noise noise' : nat -> N)
    (g : graph) (sw : swap) : list nat -> list V -> Prop :=
| sevs_nil : sevs sem st noise noise' g sw [] []
| sevs_cons : forall o v l vs, sev_tensor sem st noise noise' g sw o v ->
    sevs sem st noise noise' g sw l vs -> sevs sem st noise noise' g sw (o :: l) (v :: vs).

(** ** Well-formed graphs *)

Definition valid (g : graph) (x : elem) : Prop :=
  match x with
  | XRV r => r < length (rvs g)
  | XVar t => exists d, nth_error (ops g) t = Some d /\ okind d = KVar
  | XT t | XOp t => t < length (ops g)
  end.

(** The sampling operation of a random variable. *)
Definition rv_ok (g : graph) (d : rvdef) : Prop :=
  Forall (fun x => valid g x /\ is_op x = false) (rargs d) /\
  nth_error (ops g) (rvalue d) =
    Some (mkop (rname d ++ "sample") (KOp (rclass d)) (map (tensor_of g) (rargs d))).

Record wf (g : graph) : Prop := {
  wf_closed : forall o d, nth_error (ops g) o = Some d -> Forall (fun i => i < length (ops g)) (oins d);
  wf_names : NoDup (map oname (ops g));
  wf_rv_names : NoDup (map rname (rvs g));
  wf_values : NoDup (map rvalue (rvs g));
  wf_rvs : Forall (rv_ok g) (rvs g)
}.

(** No element has a name in the scope. *)
Definition fresh_scope (g : graph) (scope : string) : Prop :=
  (forall d n, In d (ops g) -> oname d <> scope ++ n) /\
  (forall d n, In d (rvs g) -> rname d <> scope ++ n).

(** A dictionary of random variables, tensors and variables, with at most one
    key for each tensor. *)
Definition swap_ok (g : graph) (sw : swap) : Prop :=
  Forall (fun kv => valid g (fst kv) /\ valid g (snd kv) /\
                    is_op (fst kv) = false /\ is_op (snd kv) = false) sw /\
  NoDup (map (fun kv => tensor_of g (fst kv)) sw).

(** Random variables and variables are swapped by themselves, not by the tensor
    that holds them. *)
Definition direct_keys (g : graph) (sw : swap) : Prop :=
  forall t y, In (XT t, y) sw ->
    is_var g t = false /\ (forall d, In d (rvs g) -> rvalue d <> t).

(** Acyclic: a height that decreases along inputs. *)
Definition acyclic (g : graph) (h : nat -> nat) : Prop :=
  forall o d, nth_error (ops g) o = Some d -> Forall (fun i => h i < h o) (oins d).

(** [g'] extends [g]: all elements of [g] are still there, unchanged. *)
Definition extends (g g' : graph) : Prop :=
  (forall o d, nth_error (ops g) o = Some d -> nth_error (ops g') o = Some d) /\
  (forall r d, nth_error (rvs g) r = Some d -> nth_error (rvs g') r = Some d).

(** [t] is computed from [l]: a path of dataflow edges upwards from [t]. *)
Inductive depends (g : graph) : nat -> nat -> Prop :=
| dep_refl : forall t, depends g t t
| dep_step : forall t d i l, nth_error (ops g) t = Some d -> In i (oins d) -> depends g i l -> depends g t l.

(** [l] is a variable, placeholder or queue from which the substituted
    expression of [t] is computed: above a swapped tensor, only by way of its
    replacement. *)
Inductive sdepends (g : graph) (sw : swap) : nat -> nat -> Prop :=
| sdep_leaf : forall t d l, nth_error (ops g) t = Some d -> leaf (okind d) = true -> depends g t l ->
    sdepends g sw t l
| sdep_swap : forall t d i i' l, nth_error (ops g) t = Some d -> leaf (okind d) = false -> In i (oins d) ->
    replacement g sw i = Some i' -> depends g i' l -> sdepends g sw t l
| sdep_step : forall t d i l, nth_error (ops g) t = Some d -> leaf (okind d) = false -> In i (oins d) ->
    replacement g sw i = None -> sdepends g sw i l -> sdepends g sw t l.

(** A history of calls of copy with any arguments; calls that raise or do not
    end included. *)
Record call : Type := mkcall { c_fuel : nat; c_pick : nat -> nat; c_sw : swap; c_scope : string;
  c_itself : bool; c_q : bool; c_parents : bool; c_x : elem }.
Definition run_call (g : graph) (c : call) : graph :=
  fst (ed_copy_at (c_fuel c) (c_pick c) (c_sw c) (c_scope c) (c_itself c) (c_q c) (c_parents c) g (c_x c)).

(** Not the operation of a placeholder or variable: the tensor or variable is
    to be copied instead. *)
Definition plain (g : graph) (x : elem) : Prop :=
  forall o d, x = XOp o -> nth_error (ops g) o = Some d -> okind d <> KPlace /\ okind d <> KVar.

(** Arguments for which copy is to substitute: [s] is the scope with its
    slash. *)
Record good_call (g : graph) (sw : swap) (scope s : string) (x : elem) : Prop := {
  gc_swap : swap_ok g sw;
  gc_keys : direct_keys g sw;
  gc_scope : with_slash scope = Some s;
  gc_fresh : fresh_scope g s;
  gc_valid : valid g x;
  gc_plain : plain g x
}.

(** A history of calls with the default flags that return, each with a scope
    not used before. *)
Inductive calls : graph -> graph -> Prop :=
| calls_nil : forall g, calls g g
| calls_cons : forall g fuel pick sw scope s x g1 y g2, good_call g sw scope s x ->
    ed_copy fuel pick sw scope false true g x = (g1, Ok y) -> calls g1 g2 -> calls g g2.

(** A scope with its slash: the scope itself if it ends in one. *)
Definition slashed (scope s : string) : Prop :=
  scope <> "" /\
  (((exists p, scope = p ++ "/") /\ s = scope) \/ (~ (exists p, scope = p ++ "/") /\ s = scope ++ "/")).

(** What [g'] has more than [g] is named below [s]. *)
Definition named_in (s : string) (g g' : graph) : Prop :=
  exists lo lr, map oname (ops g') = (map oname (ops g) ++ map (append s) lo)%list /\
                map rname (rvs g') = (map rname (rvs g) ++ map (append s) lr)%list.
