(** * What an inference writes to TensorBoard

    Models Inference._set_log_variables and the summaries of the algorithms
    (edward/inferences/inference.py:266-276 and 340-376, variational_inference.py:70-81,
    monte_carlo.py:106-109, gan_inference.py:109-114).

    Simplifications.  Summaries are values; the files are not modelled.  Only the
    names of summaries and those the program asks for are in use; others only add
    further names.  The set of logged variables is traversed in the order in which
    they are found. *)
From Coq Require Import Ascii String List Arith Bool.
From Verif Require Import ResetOps.
From Verif Require Import Graph.
Import ListNotations.
Local Open Scope string_scope.

(** What a summary shows: a variable, its only entry, a histogram of its entries
    (inference.py:367-376); a loss or counter by its name (monte_carlo.py:107,
    klqp.py:691-698, variational_inference.py:71, gan_inference.py:110-114); a gradient and
    its norm (variational_inference.py:74-79); [User n] is one the program itself
    creates. *)
Inductive content : Type :=
| Scalar (v : nat) | Entry (v : nat) | Histogram (v : nat)
| Part (name : string) | Gradient (v : nat) | GradientNorm (v : nat)
| User (n : nat).
(** A summary: its tag, the inference it was created by (their number in order of
    initialisation, [None] for the program) and what it shows (inference.py:369-376). *)
Record summary : Type := mksum { s_tag : string; s_owner : option nat; s_what : content }.
(** The graph: names in use with their counters, and collections of summaries
    (inference.py:273, 369-376). *)
Record gstate : Type := mkgstate { used : list (string * nat); colls : list (string * summary) }.

(** Graph._names_in_use.get(name, 0) (used by inference.py:273). *)
Definition count (u : list (string * nat)) (n : string) : nat :=
  match find (fun e => String.eqb (fst e) n) u with Some e => snd e | None => 0 end.
(** name in Graph._names_in_use (used by inference.py:273). *)
Definition in_use (u : list (string * nat)) (n : string) : bool := existsb (fun e => String.eqb (fst e) n) u.
(** Graph._names_in_use[name] = c (used by inference.py:273). *)
Fixpoint set_count (u : list (string * nat)) (n : string) (c : nat) : list (string * nat) :=
  match u with
  | [] => [(n, c)]
  | e :: u' => if String.eqb (fst e) n then (n, c) :: u' else e :: set_count u' n c
  end.
(** The loop of Graph.unique_name: name_i, name_i+1, ... (used by inference.py:273). *)
Fixpoint search (fuel : nat) (u : list (string * nat)) (base : string) (i : nat) : string :=
  let n := base ++ "_" ++ str i in
  match fuel with
  | 0 => n
  | S f => if in_use u n then search f u base (S i) else n
  end.
(** Graph.unique_name (inference.py:273); also names the scope, hence the tag, of a
    summary (inference.py:369-376). *)
Definition unique_name (u : list (string * nat)) (n : string) : list (string * nat) * string :=
  let i := count u n in
  let u1 := set_count u n (S i) in
  match i with
  | 0 => (u1, n)
  | _ => let m := search (length u1) u1 n i in (set_count u1 m 1, m)
  end.
(** A name below the current name scope, [""] if there is none (inference.py:273). *)
Definition scoped (stack n : string) : string := if String.eqb stack "" then n else stack ++ "/" ++ n.

(** tf.summary.*(name, ..., collections=cs) (inference.py:369-376). *)
Definition add_summary (s : gstate) (stack name : string) (cs : list string) (o : option nat) (w : content) : gstate :=
  let (u, tag) := unique_name (used s) (scoped stack name) in
  mkgstate u (colls s ++ map (fun c => (c, mksum tag o w)) cs)%list.

(** name.replace(':', '/') (inference.py:365). *)
Fixpoint slashes (n : string) : string :=
  match n with
  | "" => ""
  | String c n' => String (if Ascii.eqb c ":" then "/"%char else c) (slashes n')
  end.

(** What an inference is to log: [i_log] is [None] without logdir, [Some None] for
    log_vars=None and [Some (Some l)] for a list; [i_parts] are the names of losses
    and counters in order (see [content]); [i_grads] the variables with whether their gradient
    is not None, none for samplers and GANs (inference.py:266-274,
    variational_inference.py:70-79). *)
Record inf : Type := mkinf {
  i_log : option (option (list nat));
  i_data : list node;
  i_latent : list (node * node);
  i_parts : list string;
  i_grads : list (nat * bool)
}.
(** How an initialisation ends: without logging, with the merged summaries of its
    key, or by an exception (inference.py:266-278, variational_inference.py:81). *)
Inductive outcome : Type := Silent | Logged (key : string) (merged : list summary) | Raised.

Section Log.
Variable g : graph.
(** tf.global_variables() (random_variables.py:750-751). *)
Variable globals : list nat.
Variables (pick : nat -> nat) (fuel : nat).
(** Names and shapes of variables: [None] if the rank is unknown, entries [None] for
    unknown dimensions (inference.py:365-370). *)
Variable vname : nat -> string.
Variable vshape : nat -> option (list (option nat)).

(** Lines 352-361: [None] if a query ran out of fuel (inference.py:352-361). *)
Fixpoint all_variables (l : list node) : option (list nat) :=
  match l with
  | [] => Some []
  | x :: l' =>
    match get_variables g globals pick fuel x, all_variables l' with
    | Some a, Some b => Some (a ++ b)%list
    | _, _ => None
    end
  end.
(** The variables to log (inference.py:352-361). *)
Definition to_log (i : inf) (log_vars : option (list nat)) : option (list nat) :=
  match log_vars with
  | Some l => Some l
  | None =>
    match all_variables (i_data i ++ flat_map (fun zq => [fst zq; snd zq]) (i_latent i))%list with
    | Some l => Some (nodup Nat.eq_dec l)
    | None => None
    end
  end.

(** One pass of the loop at inference.py:363-376; [None] if len(var.shape) raises. *)
Definition log_variable (s : gstate) (stack key : string) (o v : nat) : option gstate :=
  let add w := Some (add_summary s stack ("parameter/" ++ slashes (vname v)) [key] (Some o) w) in
  match vshape v with
  | None => None
  | Some [] => add (Scalar v)
  | Some [Some 1] => add (Entry v)
  | Some _ => add (Histogram v)
  end.
(** The loop at inference.py:363-376. *)
Fixpoint log_variables (s : gstate) (stack key : string) (o : nat) (vs : list nat) : gstate * bool :=
  match vs with
  | [] => (s, true)
  | v :: vs' =>
    match log_variable s stack key o v with
    | Some s1 => log_variables s1 stack key o vs'
    | None => (s, false)
    end
  end.
(** The loop at variational_inference.py:72-79: a summary of None raises. *)
Fixpoint log_gradients (s : gstate) (stack key : string) (o : nat) (gs : list (nat * bool)) : gstate * bool :=
  match gs with
  | [] => (s, true)
  | (v, true) :: gs' =>
    let s1 := add_summary s stack ("gradient/" ++ slashes (vname v)) [key] (Some o) (Gradient v) in
    log_gradients (add_summary s1 stack ("gradient_norm/" ++ slashes (vname v)) [key] (Some o) (GradientNorm v))
      stack key o gs'
  | (_, false) :: _ => (s, false)
  end.
(** Losses and counters in order (klqp.py:691-698, variational_inference.py:71,
    monte_carlo.py:107, gan_inference.py:109-113). *)
Definition log_parts (s : gstate) (stack key : string) (o : nat) (ps : list string) : gstate :=
  fold_left (fun s p => add_summary s stack p [key] (Some o) (Part p)) ps s.
(** tf.summary.merge_all(key) (variational_inference.py:81, monte_carlo.py:109,
    gan_inference.py:114). *)
Definition merge_all (s : gstate) (key : string) : list summary :=
  map snd (filter (fun e => String.eqb (fst e) key) (colls s)).

(** initialize of inference number [o] in the name scope [stack]
    (inference.py:266-278, then variational_inference.py:68-81, monte_carlo.py:101-109
    or gan_inference.py:95-114). *)
Definition initialize (s : gstate) (stack : string) (o : nat) (i : inf) : gstate * outcome :=
  match i_log i with
  | None => (s, Silent)
  | Some lv =>
    let (u, key) := unique_name (used s) (scoped stack "summaries") in
    let s0 := mkgstate u (colls s) in
    match to_log i lv with
    | None => (s0, Raised)
    | Some vs =>
      match log_variables s0 stack key o vs with
      | (s1, false) => (s1, Raised)
      | (s1, true) =>
        match log_gradients (log_parts s1 stack key o (i_parts i)) stack key o (i_grads i) with
        | (s2, false) => (s2, Raised)
        | (s2, true) => (s2, Logged key (merge_all s2 key))
        end
      end
    end
  end.

(** ** Programs *)

(** What a program does to the graph: it uses a name, creates a summary of its own
    in some collections, or initialises an inference, in the current name scope
    (around inference.py:266-276). *)
Inductive event : Type :=
| EName (stack name : string)
| EUser (stack name : string) (cs : list string) (n : nat)
| EInit (stack : string) (i : inf).
(** The program with the outcomes of its initialisations (around inference.py:266-276). *)
Fixpoint program (s : gstate) (outs : list outcome) (l : list event) : gstate * list outcome :=
  match l with
  | [] => (s, outs)
  | EName stack n :: l' => program (mkgstate (fst (unique_name (used s) (scoped stack n))) (colls s)) outs l'
  | EUser stack n cs k :: l' => program (add_summary s stack n cs None (User k)) outs l'
  | EInit stack i :: l' => let (s1, r) := initialize s stack (length outs) i in program s1 (outs ++ [r])%list l'
  end.
End Log.

(** tf.Graph() (before inference.py:266). *)
Definition new_graph : gstate := mkgstate [] [].
(** tf.GraphKeys.SUMMARIES, the collection of summaries by default (compare
    inference.py:273). *)
Definition default_collection : string := "summaries".
