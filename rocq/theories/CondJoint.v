(** * The log joint density from which complete_conditional starts:
      get_log_joint of edward/inferences/conjugacy/conjugacy.py

    Simplifications.  A random variable is its name and whether its class has a
    method [conjugate_log_prob].  Of the graph only the tensors that
    get_log_joint itself names inside its scope are kept, by their names in
    that scope; the operations inside conjugate_log_prob() get names of
    TensorFlow's own ("mul", "Log", ...) and are left out. *)
From Coq Require Import Ascii String List Bool.
Import ListNotations.
Local Open Scope string_scope.

(** A random variable: [b.name] and [getattr(b, "conjugate_log_prob", None)]
    (conjugacy.py:178, 189-194). *)
Record crv : Type := mkcrv { cname : string; conj : bool }.

(** The tensors: tf.reduce_sum(b.conjugate_log_prob()) and tf.add_n(terms)
    (conjugacy.py:197, 201). *)
Inductive ten : Type := LogProb (b : crv) | AddN (l : list ten).

(** The tensors of the scope "conjugate_log_joint/" by name
    (conjugacy.py:181-184). *)
Definition tensors := list (string * ten).

(** [g.get_tensor_by_name(scope + name + ':0')], [None] if it raises
    (conjugacy.py:184, 192). *)
Definition by_name (g : tensors) (n : string) : option ten :=
  match find (fun e => String.eqb (fst e) n) g with Some e => Some (snd e) | None => None end.

(** [name[:-1]], conjugacy.py:178. *)
Fixpoint chop (n : string) : string :=
  match n with
  | String c (String _ _ as n') => String c (chop n')
  | _ => ""
  end.

(** [cond_set_names.sort()], conjugacy.py:179, as insertion sort. *)
Fixpoint insert (n : string) (l : list string) : list string :=
  match l with
  | [] => [n]
  | m :: l' => if String.leb n m then n :: l else m :: insert n l'
  end.
(** The same for a list (conjugacy.py:179). *)
Fixpoint sort_names (l : list string) : list string :=
  match l with [] => [] | n :: l' => insert n (sort_names l') end.

(** ['_'.join(cond_set_names)], conjugacy.py:180. *)
Fixpoint join (l : list string) : string :=
  match l with
  | [] => ""
  | [n] => n
  | n :: l' => n ++ "_" ++ join l'
  end.

(** [cond_set_name], conjugacy.py:178-180. *)
Definition joint_name (l : list crv) : string :=
  "log_joint_of_" ++ join (sort_names (map (fun b => chop (cname b)) l)).

(** [replace(':', '_')], conjugacy.py:189. *)
Fixpoint no_colons (n : string) : string :=
  match n with
  | "" => ""
  | String c n' => String (if Ascii.eqb c ":" then "_"%char else c) (no_colons n')
  end.

(** The name of a term, conjugacy.py:189. *)
Definition term_name (b : crv) : string := no_colons (cname b) ++ "_conjugate_log_prob".

(** The loop over [cond_set], conjugacy.py:187-199; [None] for the
    NotImplementedError.  The terms built before it stay in the graph. *)
Fixpoint terms (g : tensors) (l : list crv) : tensors * option (list ten) :=
  match l with
  | [] => (g, Some [])
  | b :: l' =>
    match by_name g (term_name b) with
    | Some t =>
      match terms g l' with
      | (g', Some ts) => (g', Some (t :: ts))
      | (g', None) => (g', None)
      end
    | None =>
      if conj b then
        match terms (g ++ [(term_name b, LogProb b)])%list l' with
        | (g', Some ts) => (g', Some (LogProb b :: ts))
        | (g', None) => (g', None)
        end
      else (g, None)
    end
  end.

(** [get_log_joint], conjugacy.py:175-202; [l] is the set in the order in which
    it is iterated over. *)
Definition get_log_joint (g : tensors) (l : list crv) : tensors * option ten :=
  match by_name g (joint_name l) with
  | Some t => (g, Some t)
  | None =>
    match terms g l with
    | (g', Some ts) => ((g' ++ [(joint_name l, AddN ts)])%list, Some (AddN ts))
    | (g', None) => (g', None)
    end
  end.

(** ** The default conditioning set *)

(** [s in n] for strings, conjugacy.py:97. *)
Fixpoint within (s n : string) : bool :=
  prefix s n || match n with "" => false | String _ n' => within s n' end.

(** [cond_set is None]: the blanket without earlier conditionals,
    conjugacy.py:92-97. *)
Definition default_cond (blanket : list crv) : list crv :=
  filter (fun i => negb (within "complete_conditional" (cname i) && within "cond_dist" (cname i))) blanket.

(** The name of the random variable that complete_conditional returns: tf.name_scope
    enters a name that ends in a slash as it is (conjugacy.py:100, 172); [k] is what
    TensorFlow appends to make the name unique. *)
Definition result_name (rv : crv) (k : string) : string :=
  "complete_conditional_" ++ cname rv ++ "cond_dist" ++ k ++ "/".
