(** * complete_conditional of edward/inferences/conjugacy/conjugacy.py

    Simplifications.  The log joint is a scalar, and tensors are seen one
    entry at a time, so that operations that only rearrange or sum entries
    (Sum, Reshape, Slice, ...) return their first input.  The graph below the
    log joint is given as the tree of its unfolding, as extract_subgraph
    (conjugacy.py:227-236) builds it.  The graph operations [copy] and
    tf.gradients are replaced by what they compute: the derivative, with
    respect to a placeholder, of the graph in which every statistic node is
    replaced by placeholder * multiplier; all operations above those nodes are
    the linear types.  Concat and Assert are not modelled. *)
From Coq Require Import List Arith ZArith QArith Reals Bool String.
From Verif Require Import Simplify SimplifySpec ConjLogProb.
Import ListNotations.
Local Open Scope nat_scope.

(** Operation types in [_linear_types] (conjugacy.py:259-262) that are not keys
    of [_extractable_nodes]; [LSum] has one important argument
    (conjugacy.py:262). *)
Inductive lin : Type := LNot | LAddN | LNeg | LSum | LFirst.

(** How an operation acts on its inputs, by its type (conjugacy.py:259-262). *)
Inductive kind : Type := KAdd | KSub | KMul | KNeg | KSum | KFirst | KOther.

(** Membership of an operation type in [_linear_types], conjugacy.py:259-262,273. *)
Definition kind_of (lty : nat -> lin) (t : nat) (ty : option sym) : kind :=
  match ty with
  | Some SAdd => KAdd
  | Some SSub => KSub
  | Some SMul => KMul
  | Some SIdentity => KFirst
  | Some _ => KOther
  | None => match lty t with
            | LNot => KOther | LAddN => KAdd | LNeg => KNeg | LSum => KSum | LFirst => KFirst
            end
  end.

(** [in] on a set of tensors (conjugacy.py:232, 268). *)
Definition mem (t : nat) (l : list nat) : bool := existsb (Nat.eqb t) l.
(** The tensor at the root of a tree (conjugacy.py:227-236). *)
Definition root (g : tgraph) : nat := match g with TG t _ _ => t end.

(** [is_child], conjugacy.py:250-256; stop nodes are leaves
    (conjugacy.py:232-233). *)
Fixpoint is_child (base : nat) (stop : list nat) (g : tgraph) : bool :=
  match g with
  | TG t _ ins =>
    if t =? base then true
    else if mem t stop then false
    else existsb (is_child base stop) ins
  end.

(** [suff_stat_nodes], conjugacy.py:265-284. *)
Fixpoint suff_stat_nodes (lty : nat -> lin) (base : nat) (stop : list nat) (g : tgraph)
  : list tgraph :=
  match g with
  | TG t ty ins =>
    if t =? base then [g]
    else if mem t stop then []
    else match kind_of lty t ty with
         | KOther => if is_child base stop g then [g] else []
         | KSum => match ins with i :: _ => suff_stat_nodes lty base stop i | [] => [] end
         | _ => flat_map (suff_stat_nodes lty base stop) ins
         end
  end.

(** The tuples that are keys of the table, conjugacy.py:31-57. *)
Definition classify (items : list item) : stat :=
  match items with
  | [IHead HX] => StX
  | [IHead (HSym SLog); IExpr (Node HX [])] => StLog
  | [IHead (HSym SLog); IExpr (Node (HSym SOneMinus) [Node HX []])] => StLog1m
  | [IHead (HSym SOneHot); IExpr (Node HX [])] => StOneHot
  | [IHead (HCPow q); IExpr (Node HX [])] =>
    if Qeq_bool q (-1) then StRecip else if Qeq_bool q 2 then StSquare else StOther
  | _ => StOther
  end.

(** str() of those tuples, by which they are sorted (conjugacy.py:122); any
    other tuple makes the look-up fail wherever it is sorted. *)
Definition stat_str (s : stat) : string :=
  match s with
  | StX => "('#x',)"
  | StLog => "('#Log', ('#x',))"
  | StLog1m => "('#Log', ('#One_minus', ('#x',)))"
  | StRecip => "('#CPow-1.0000e+00', ('#x',))"
  | StSquare => "('#CPow2.0000e+00', ('#x',))"
  | StOneHot => "('#OneHot', ('#x',))"
  | StOther => ""
  end%string.

(** [s_stat_exprs]: for each statistic, the tensors that are multiples of it
    and the multipliers, conjugacy.py:112-118. *)
Definition plan : Type := list (stat * list (nat * built)).

(** defaultdict(list): append to the entry of a key, conjugacy.py:117. *)
Fixpoint append_to (k : stat) (v : nat * built) (p : plan) : plan :=
  match p with
  | [] => [(k, [v])]
  | (k', vs) :: p' => if stat_eqb k k' then (k', vs ++ [v]) :: p' else (k', vs) :: append_to k v p'
  end.

(** The loop of conjugacy.py:113-118. *)
Fixpoint collect (ti : tinfo) (fuel : nat) (base : nat) (stop : list nat)
    (nodes : list tgraph) (p : plan) : option (outcome plan) :=
  match nodes with
  | [] => Some (Ret p)
  | n :: nodes' =>
    match full_simplify ti fuel (symbolic_suff_stat base stop n) with
    | None => None
    | Some Exc => Some Exc
    | Some (Ret e) =>
      let (ms, items) := extract_s_stat_multipliers e in
      match reconstruct_multiplier ms with
      | Exc => Some Exc
      | Ret b => collect ti fuel base stop nodes' (append_to (classify items) (root n, b) p)
      end
    end
  end.

(** np.argsort of the strings, conjugacy.py:122, as insertion sort. *)
Fixpoint insert_key (x : stat * list (nat * built)) (p : plan) : plan :=
  match p with
  | [] => [x]
  | y :: p' => if String.leb (stat_str (fst x)) (stat_str (fst y)) then x :: p else y :: insert_key x p'
  end.
(** The keys in the order of conjugacy.py:121-123. *)
Definition sort_keys (p : plan) : plan := fold_right insert_key [] p.

(** [swap_dict], conjugacy.py:137-153: the statistic and the multiplier by
    which a tensor is replaced. *)
Definition swapped (p : plan) (t : nat) : option (stat * built) :=
  match flat_map (fun kv => map (fun v => (fst kv, snd v))
                              (filter (fun v => Nat.eqb t (fst v)) (snd kv))) p with
  | [] => None
  | a :: _ => Some a
  end.

Local Open Scope R_scope.

(** Derivative of a product of factors (value, derivative)
    (part of what tf.gradients computes at conjugacy.py:161). *)
Fixpoint dmul (l : list (R * R)) : R :=
  match l with
  | [] => 0
  | (v, d) :: l' => d * rprod (map fst l') + v * dmul l'
  end.

(** Derivative of the log joint with the statistics swapped, with respect to
    the placeholder of statistic [k], the value of the variable being [x]
    (conjugacy.py:155-170). *)
Fixpoint grad (en : env) (own : nat -> R) (lty : nat -> lin) (base : nat) (stop : list nat)
    (p : plan) (k : stat) (x : R) (g : tgraph) : R :=
  match g with
  | TG t ty ins =>
    match swapped p t with
    | Some (k', b) => if stat_eqb k k' then bval en own b else 0
    | None =>
      if mem t stop then 0
      else
        let ds := map (grad en own lty base stop p k x) ins in
        match kind_of lty t ty with
        | KAdd => rsum ds
        | KSub => hd 0 ds - hd 0 (tl ds)
        | KMul => dmul (combine (map (tval en base stop x) ins) ds)
        | KNeg => - hd 0 ds
        | KSum | KFirst => hd 0 ds
        | KOther => 0
        end
    end
  end.

(** [complete_conditional], conjugacy.py:99-172, for a scalar variable with
    current value [x]; [nodes] is the list of statistic nodes in the order in
    which the set of conjugacy.py:109 is iterated over. *)
Definition complete_conditional (ti : tinfo) (fuel : nat) (en : env) (own : nat -> R)
    (lty : nat -> lin) (base : nat) (stop : list nat) (sup : support)
    (nodes : list tgraph) (g : tgraph) (x : R) : option (outcome dist) :=
  match collect ti fuel base stop nodes [] with
  | None => None
  | Some Exc => Some Exc
  | Some (Ret p) =>
    let p' := sort_keys p in
    match scalar_table sup (map fst p')
            (map (fun kv => grad en own lty base stop p (fst kv) x g) p') with
    | Some d => Some (Ret d)
    | None => Some Exc
    end
  end.
