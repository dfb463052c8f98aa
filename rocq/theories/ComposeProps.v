(** * C82: inferences compose *)
From Coq Require Import List Arith Bool.
From Verif Require Import Graph GraphSpec VI VISpec Schedule.
From Verif Require Import Compose ComposeSpec ComposeProofs ComposeExampleProofs.
Import ListNotations.

(** Whatever inferences a program has and in whatever order it updates them, a variable
    changes only if an updated inference trains it, samples into it or counts with it, or if it
    is initialised. *)
Theorem C82_frame : forall V D (initial : D -> nat -> V) objs m h m' out x, (forall a o, nth_error objs a = Some o -> plain o) ->
  exec initial objs m h m' out ->
  (forall a d l o, In (Update a d l) h -> nth_error objs a = Some o -> ~ infers o x) -> (forall act, In act h -> ~ initialises act x) -> m' x = m x.
Proof. exact @frame. Qed.
Print Assumptions C82_frame.

(** Each inference counts its own updates, and the k-th returns k, however those of the
    others are interleaved. *)
Theorem C82_counters : forall V D (initial : D -> nat -> V) objs inc a o m h m' out, (forall b o', nth_error objs b = Some o' -> plain o') ->
  nth_error objs a = Some o -> counts_by o inc ->
  (forall b o', nth_error objs b = Some o' -> b <> a -> ~ infers o' (o_at o v_t)) ->
  (forall y, own o y -> o_at o y = o_at o v_t -> y = v_t) -> (forall act, In act h -> ~ initialises act (o_at o v_t)) ->
  exec initial objs m h m' out ->
  m' (o_at o v_t) = Nat.iter (updates a h) inc (m (o_at o v_t)) /\
  map (fun r => hd_error (snd r)) (filter (fun r => Nat.eqb a (fst r)) out) =
  map (fun k => Some (Nat.iter k inc (m (o_at o v_t)))) (seq 1 (updates a h)).
Proof. exact @counted. Qed.
Print Assumptions C82_counters.

(** Inferences that look at nothing the others infer do, in a program with the others,
    exactly what they do without them: the same values returned, the same variables. *)
Theorem C82_isolated : forall V D (initial : D -> nat -> V) objs mine m h m' out, (forall a o, nth_error objs a = Some o -> plain o) ->
  (forall a b o o' x, nth_error objs a = Some o -> mine a = true -> nth_error objs b = Some o' -> mine b = false -> infers o' x -> ~ depends o x) ->
  exec initial objs m h m' out ->
  exists m0, exec initial objs m (filter (concerns mine) h) m0 (filter (fun r => mine (fst r)) out) /\
    forall a o x, nth_error objs a = Some o -> mine a = true -> depends o x -> m0 x = m' x.
Proof. exact @isolated. Qed.
Print Assumptions C82_isolated.

(** If no inference looks at what another infers, the order in which different
    inferences are updated does not matter. *)
Theorem C82_order : forall V D (initial : D -> nat -> V) objs m h1 h2 m1 m2 out1 out2, (forall a o, nth_error objs a = Some o -> plain o) ->
  (forall a b o o' x, nth_error objs a = Some o -> nth_error objs b = Some o' -> a <> b -> infers o' x -> ~ depends o x) ->
  (forall a, filter (concerns (Nat.eqb a)) h1 = filter (concerns (Nat.eqb a)) h2) ->
  exec initial objs m h1 m1 out1 -> exec initial objs m h2 m2 out2 ->
  (forall x, m1 x = m2 x) /\ forall a, filter (fun r => Nat.eqb a (fst r)) out1 = filter (fun r => Nat.eqb a (fst r)) out2.
Proof. exact @any_order. Qed.
Print Assumptions C82_order.

(** Two variational inferences that share nothing. *)
Example C82_order_demo : (forall a o, nth_error alone a = Some o -> plain o) /\
  (forall a b o o' x, nth_error alone a = Some o -> nth_error alone b = Some o' -> a <> b -> infers o' x -> ~ depends o x) /\
  exists m1 m2 out1 out2,
  exec (fun (_ : unit) _ => 0) alone (fun _ => 0) [Update 0 tt order0; Update 1 tt order1a; Update 0 tt order0] m1 out1 /\
  exec (fun (_ : unit) _ => 0) alone (fun _ => 0) [Update 1 tt order1a; Update 0 tt order0; Update 0 tt order0] m2 out2 /\
  map m1 [0; 1; 2; 3; 4] = [2; 1; 2; 1; 0] /\ map m2 [0; 1; 2; 3; 4] = [2; 1; 2; 1; 0] /\
  out1 = [(0, [1; 1]); (1, [1; 1]); (0, [2; 1])] /\ out2 = [(1, [1; 1]); (0, [1; 1]); (0, [2; 1])].
Proof. exact (conj alone_plain (conj alone_apart alone_runs)). Qed.

(** Two of which the second is conditioned on the first: what the first found is used by
    the second, unless all variables are initialised in between, as run() does. *)
Example C82_conditioned_demo : (forall a o, nth_error conditioned a = Some o -> plain o) /\
  (forall a o, nth_error conditioned a = Some o ->
    counts_by o S /\ (forall b o', nth_error conditioned b = Some o' -> b <> a -> ~ infers o' (o_at o v_t)) /\
    (forall y, own o y -> o_at o y = o_at o v_t -> y = v_t)) /\
  exists m1 m2 out1 out2,
  exec (fun (_ : unit) _ => 0) conditioned (fun _ => 0) [Update 0 tt order0; Update 1 tt order1; Update 0 tt order0; Update 1 tt order1] m1 out1 /\
  exec (fun (_ : unit) _ => 0) conditioned (fun _ => 0) [Update 0 tt order0; Init tt None; Update 1 tt order1] m2 out2 /\
  map m1 [0; 1; 2; 3; 4] = [2; 3; 2; 2; 0] /\ map m2 [0; 1; 2; 3; 4] = [0; 0; 0; 1; 0] /\
  out1 = [(0, [1; 1]); (1, [1; 1]); (0, [2; 1]); (1, [2; 2])] /\ out2 = [(0, [1; 1]); (1, [1; 0])].
Proof. exact (conj conditioned_plain (conj conditioned_counts conditioned_runs)). Qed.

(** Conditional inference, where [data] binds a latent variable [beta] to its
    approximation [qbeta], does not leave [qbeta] fixed: if the approximation of what is
    inferred depends on [qbeta], the default var_list has the variables of [qbeta] too,
    even those of no part of the model. *)
Theorem C82_fixed_refuted : exists g latent data beta qbeta v p ks t (m m' : memory nat) l out,
  single_producer g /\ In (beta, (true, true)) data /\ up g anything (value g qbeta) (vref g v) /\
  (forall x, (exists q, In (x, q) latent) \/ (exists k, In (x, k) data) -> ~ up g anything (value g x) (vref g v)) /\
  (forall z, ~ In (z, qbeta) latent) /\
  default_var_list latent g (fun _ => 0) (enough g) [v] data = Some ks /\ plain (training p ks t) /\ v <> t /\
  exec (fun (_ : unit) _ => 0) [training p ks t] m [Update 0 tt l] m' out /\ m' v <> m v.
Proof. exact fixed_refuted. Qed.
Print Assumptions C82_fixed_refuted.

(** What holds: with the default var_list a trainable variable that no latent variable,
    no approximation of one and no variable observed as numbers depends on keeps its value
    in every number of updates.  (Missing, and false by the above: variables of
    approximations in [data] that those depend on.) *)
Theorem C82_fixed_partial : forall V D (initial : D -> nat -> V) latent g pick fuel trainables data ks p t m h m' out v,
  single_producer g -> (forall v w, In v trainables -> In w trainables -> vref g v = vref g w -> v = w) -> enough g <= fuel ->
  default_var_list latent g pick fuel trainables data = Some ks -> plain (training (V := V) (D := D) p ks t) ->
  exec initial [training p ks t] m h m' out -> (forall act, In act h -> ~ initialises act v) ->
  In v trainables -> v <> t ->
  (forall x, (exists q, In (x, q) latent) \/ (exists z, In (z, x) latent) \/ In (x, (true, false)) data -> ~ up g anything (value g x) (vref g v)) ->
  m' v = m v.
Proof. exact conditional. Qed.
Print Assumptions C82_fixed_partial.

Example C82_fixed_demo : single_producer separate /\
  default_var_list [(23, 27)] separate (fun _ => 0) (enough separate) [5; 8] [(24, (true, false)); (26, (true, true))] = Some [8] /\
  plain (training (adds 8 None) [8] 2) /\
  (forall x, (exists q, In (x, q) [(23, 27)]) \/ (exists z, In (z, x) [(23, 27)]) \/ In (x, (true, false)) [(24, (true, false)); (26, (true, true))] ->
     ~ up separate anything (value separate x) (vref separate 5)).
Proof. exact separate_fixed. Qed.
