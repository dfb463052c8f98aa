(** * complete_conditional on tensors: edward/inferences/conjugacy/conjugacy.py

    Conjugacy.v sees tensors one entry at a time.  Here they have shapes, and
    operations broadcast.  Simplifications: what simplification finds for each
    statistic node (statistic and multiplier, conjugacy.py:113-118) is an input, as
    Simplify.v and Conjugacy.v treat it; tf.gradients is the derivative; Reshape,
    Slice, StridedSlice, Gather, GatherNd, Squeeze, ExpandDims, Concat and Assert are
    not modelled.  Shapes and indices are listed from the last dimension. *)
From Coquelicot Require Import Coquelicot.
From Coq Require Import Reals List Arith Bool String.
From Verif Require Import SimplifySpec ConjLogProb Conjugacy.
Import ListNotations.
Local Open Scope nat_scope.

(** A tensor: its shape and its entries (tensors at conjugacy.py:101-170). *)
Record ten : Type := mkten { sh : list nat; at_ : list nat -> R }.

(** All indices of a shape (of the tensors at conjugacy.py:101-170). *)
Fixpoint indices (s : list nat) : list (list nat) :=
  match s with
  | [] => [[]]
  | n :: s' => flat_map (fun i => map (cons i) (indices s')) (seq 0 n)
  end.
(** The shape two tensors are broadcast to, [None] if there is none (operations
    between conjugacy.py:101 and 170). *)
Fixpoint bshape (a b : list nat) : option (list nat) :=
  match a, b with
  | [], _ => Some b
  | _, [] => Some a
  | m :: a', n :: b' =>
    match bshape a' b' with
    | None => None
    | Some s => if m =? n then Some (m :: s) else if m =? 1 then Some (n :: s)
                else if n =? 1 then Some (m :: s) else None
    end
  end.
(** The same for any number of tensors (operations between conjugacy.py:101 and 170). *)
Fixpoint bshapes (l : list (list nat)) : option (list nat) :=
  match l with
  | [] => Some []
  | s :: l' => match bshapes l' with None => None | Some r => bshape s r end
  end.
(** Which entry of a tensor of shape [s] is used at an index of the broadcast shape
    (operations between conjugacy.py:101 and 170). *)
Fixpoint proj (s idx : list nat) : list nat :=
  match s, idx with
  | [], _ => []
  | n :: s', i :: idx' => (if n =? 1 then 0 else i) :: proj s' idx'
  | _ :: s', [] => 0 :: proj s' []
  end.

(** Operation types: the linear ones (conjugacy.py:259-262), with Sum over all axes
    or the last, and any other, elementwise one. *)
Inductive op : Type := OAdd | OSub | OMul | ONeg | OIdentity | OSumAll | OSumLast | OElem (f : list R -> R).
(** op_type in _linear_types (conjugacy.py:259-261, 273). *)
Definition linear (o : op) : bool := match o with OElem _ => false | _ => true end.

(** The graph below a tensor, cut at the values of random variables, as
    extract_subgraph (conjugacy.py:227-236) builds it; leaves have no inputs. *)
Inductive graph : Type := GT (t : nat) (o : op) (ins : list graph).
(** The tensor at the top (conjugacy.py:230). *)
Definition top (g : graph) : nat := match g with GT t _ _ => t end.

(** An elementwise operation (graphs at conjugacy.py:101-170). *)
Definition elementwise (f : list R -> R) (ts : list ten) : option ten :=
  match bshapes (map sh ts) with
  | Some s => Some (mkten s (fun idx => f (map (fun t => at_ t (proj (sh t) idx)) ts)))
  | None => None
  end.
(** One operation (graphs at conjugacy.py:101-170). *)
Definition apply (o : op) (ts : list ten) : option ten :=
  match o, ts with
  | OAdd, _ => elementwise rsum ts
  | OMul, _ => elementwise rprod ts
  | OSub, [_; _] => elementwise (fun l => hd 0 l - hd 0 (tl l))%R ts
  | ONeg, [_] => elementwise (fun l => - hd 0 l)%R ts
  | OIdentity, [a] => Some a
  | OSumAll, [a] => Some (mkten [] (fun _ => rsum (map (at_ a) (indices (sh a)))))
  | OSumLast, [a] =>
    match sh a with
    | n :: s => Some (mkten s (fun idx => rsum (map (fun i => at_ a (i :: idx)) (seq 0 n))))
    | [] => None
    end
  | OElem f, _ => elementwise f ts
  | _, _ => None
  end.
(** All of them or none (evaluation of the graphs at conjugacy.py:101-170). *)
Fixpoint sequence {A} (l : list (option A)) : option (list A) :=
  match l with
  | [] => Some []
  | Some a :: l' => match sequence l' with Some r => Some (a :: r) | None => None end
  | None :: _ => None
  end.
(** The value of a graph when the tensors are replaced as [sw] says, and the leaves
    have values [en] (copy at conjugacy.py:159-160). *)
Fixpoint eval (sw : nat -> option (option ten)) (en : nat -> ten) (g : graph) : option ten :=
  match g with
  | GT t o ins =>
    match sw t with
    | Some r => r
    | None =>
      match ins with
      | [] => Some (en t)
      | _ => match sequence (map (eval sw en) ins) with Some ts => apply o ts | None => None end
      end
    end
  end.

(** [is_child], conjugacy.py:250-256. *)
Fixpoint depends (base : nat) (g : graph) : bool :=
  match g with GT t _ ins => (t =? base) || existsb (depends base) ins end.
(** [suff_stat_nodes], conjugacy.py:265-284. *)
Fixpoint stat_nodes (base : nat) (g : graph) : list nat :=
  match g with
  | GT t o ins =>
    if t =? base then [t]
    else match ins with
    | [] => []
    | _ => if linear o then flat_map (stat_nodes base) ins
           else if depends base g then [t] else []
    end
  end.

(** What simplification finds for the statistic nodes, in the order in which the
    set of conjugacy.py:109 is iterated over: tensor, statistic, multiplier
    (conjugacy.py:113-118). *)
Definition found : Type := list (nat * (stat * ten)).
(** [s_stat_exprs] (conjugacy.py:112-118). *)
Definition groups : Type := list (stat * list (nat * ten)).
(** defaultdict(list): append to the entry of a key (conjugacy.py:117). *)
Fixpoint add_to (k : stat) (v : nat * ten) (p : groups) : groups :=
  match p with
  | [] => [(k, [v])]
  | (k', vs) :: p' => if stat_eqb k k' then (k', vs ++ [v]) :: p' else (k', vs) :: add_to k v p'
  end.
(** The loop of conjugacy.py:113-118. *)
Definition group (l : found) : groups := fold_left (fun p e => add_to (fst (snd e)) (fst e, snd (snd e)) p) l [].

(** The shape of the placeholder: that of the first tensor of the group
    (conjugacy.py:139-147); [nsh] gives the shapes of the tensors. *)
Definition placeholder_shape (nsh : nat -> list nat) (vs : list (nat * ten)) : list nat :=
  match vs with v :: _ => nsh (fst v) | [] => [] end.
(** swap_dict for the statistic nodes: placeholder * multiplier
    (conjugacy.py:149-152); [ph] gives the values of the placeholders. *)
Definition swapped (p : groups) (ph : stat -> ten) (t : nat) : option (option ten) :=
  match flat_map (fun kv => map (fun v => (fst kv, snd v)) (filter (fun v => t =? fst v) (snd kv))) p with
  | [] => None
  | (k, m) :: _ => Some (elementwise rprod [ph k; m])
  end.
(** The placeholders with entry [j] of that of [k] replaced (differentiation at
    conjugacy.py:161). *)
Definition moved (ph : stat -> ten) (k : stat) (j : list nat) (r : R) (k' : stat) : ten :=
  if stat_eqb k k' then mkten (sh (ph k)) (fun i => if list_eq_dec Nat.eq_dec i j then r else at_ (ph k) i) else ph k'.
(** A scalar (the log joint at conjugacy.py:161). *)
Definition scalar (o : option ten) : R := match o with Some t => at_ t [] | None => 0%R end.
(** nat_params (conjugacy.py:159-170): entry [j] of the parameter of [k] is the
    derivative of the log joint, the placeholders having the values [ph]. *)
Definition nat_param (p : groups) (en : nat -> ten) (g : graph) (ph : stat -> ten) (k : stat) : ten :=
  mkten (sh (ph k)) (fun j => Derive (fun r => scalar (eval (swapped p (moved ph k j r)) en g)) (at_ (ph k) j)).

(** np.argsort of the strings (conjugacy.py:122), as insertion sort. *)
Fixpoint insert_group (x : stat * list (nat * ten)) (p : groups) : groups :=
  match p with
  | [] => [x]
  | y :: p' => if String.leb (stat_str (fst x)) (stat_str (fst y)) then x :: p else y :: insert_group x p'
  end.
(** The keys in the order of conjugacy.py:121-123. *)
Definition sort_groups (p : groups) : groups := fold_right insert_group [] p.

(** The placeholders after swapping back (conjugacy.py:139-147, 164-168): the value
    of the variable, broadcast. *)
Definition placeholders (nsh : nat -> list nat) (p : groups) (x : ten) (k : stat) : ten :=
  match find (fun kv => stat_eqb k (fst kv)) p with
  | Some kv => mkten (placeholder_shape nsh (snd kv)) (fun j => at_ x (proj (sh x) j))
  | None => x
  end.

(** [complete_conditional], conjugacy.py:109-172, for a variable with current value
    [x] and the values [en] of the leaves: the shape of the distribution returned
    and the distribution of each of its entries; [None] if it raises. *)
Definition complete_conditional (sup : support) (nsh : nat -> list nat) (en : nat -> ten)
    (l : found) (g : graph) (x : ten) : option (list nat * (list nat -> option dist)) :=
  let p := group l in
  let ph := placeholders nsh p x in
  let keys := map fst (sort_groups p) in
  match scalar_table sup keys (map (fun _ => 0%R) keys), eval (swapped p ph) en g with
  | Some _, Some _ =>
    let etas := map (nat_param p en g ph) keys in
    match bshapes (map sh etas) with
    | Some s => Some (s, fun idx => scalar_table sup keys (map (fun e => at_ e (proj (sh e) idx)) etas))
    | None => None
    end
  | _, _ => None
  end.
