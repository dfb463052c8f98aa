(** * C81: debug=True checks the computations for NaN and Inf *)
From Coq Require Import ZArith List Arith Bool Lia.
From Verif Require Import Debug.
From Verif Require Import DebugSpec DebugProofs.
Import ListNotations.

(** It does not check what the algorithm computes, only what was in the graph when
    Inference.initialize was called, before the algorithm made its operations: an update
    returns though its loss is NaN, in its own session run and in that of the checks. *)
Theorem C81_algorithm_refuted : exists (model rest : dgraph number (option Z)) fetches e e' g checks vs,
  algorithm (fun _ _ => Some 0%Z) None model [] (Some 0%Z) [] rest = (g, checks) /\ ordered g /\ floats_fed g nowhere /\
  update is_number true g checks fetches nowhere e e' = Returned vs /\
  (exists i, computed g nowhere (fun j => In j fetches) i /\ bad is_number g nowhere e i) /\ (exists i, computed g nowhere (fun j => In j fetches) i /\ bad is_number g nowhere e' i).
Proof. exact algorithm_refuted. Qed.
Print Assumptions C81_algorithm_refuted.

(** The checks are made in a session run of their own, with other random draws: also a
    value that is checked may be NaN in the update, and the update returns. *)
Theorem C81_draws_refuted : exists (model : dgraph number (option Z)) fetches e e' g checks vs,
  algorithm (fun _ _ => Some 0%Z) None model [] (Some 0%Z) [] [] = (g, checks) /\ ordered g /\ floats_fed g nowhere /\
  update is_number true g checks fetches nowhere e e' = Returned vs /\ exists i, In i checks /\ computed g nowhere (fun j => In j fetches) i /\ bad is_number g nowhere e i.
Proof. exact draws_refuted. Qed.
Print Assumptions C81_draws_refuted.

(** With data of floating point type given as a Python or NumPy value no update ever
    returns, whatever the model, the algorithm and the values: the constructor's
    placeholder is checked too, and it is fed only once, by the constructor.  ([feed]
    is what the user can feed: operations of the model.) *)
Theorem C81_numpy_refuted : forall {V E} mem u finite (model : dgraph V E) items zero before rest fetches feed e e',
  In (true, true) items -> (forall i, length model <= i -> feed i = None) ->
  forall g checks, algorithm mem u model items zero before rest = (g, checks) ->
  forall vs, update finite true g checks fetches feed e e' <> Returned vs.
Proof. exact @numpy_raises. Qed.
Print Assumptions C81_numpy_refuted.

(** All finite, and the update raises. *)
Example C81_numpy_demo :
  let '(g, checks) := algorithm (fun _ _ => Some 3%Z) None one_draw [(true, true)] (Some 0%Z) [] (its_log 0) in
  update is_number false g checks [10] nowhere (Some 1%Z) (Some 1%Z) = Returned [Some 0%Z] /\
  update is_number true g checks [10] nowhere (Some 1%Z) (Some 1%Z) = CheckRaised.
Proof. split; reflexivity. Qed.

(** The algorithm itself does not need the placeholder: what reads the data variable
    has the variable's value in every session run, though nothing is fed. *)
Theorem C81_data : forall {V E} mem u (model : dgraph V E) items float items' rest feed e at_,
  at_ = length (construct mem u model items) -> (forall i, length model <= i -> feed i = None) ->
  session_run (construct mem u model (items ++ (float, true) :: items') ++ rest) feed e [at_ + 3] = Some [mem e (S at_)].
Proof. exact @reads_data. Qed.
Print Assumptions C81_data.

Example C81_data_demo :
  session_run (construct (fun _ _ => Some 3%Z) None one_draw [(true, true)] ++ its_log 0) nowhere (Some 1%Z) [4] = Some [Some 3%Z].
Proof. reflexivity. Qed.

(** A session run returns what the operations come out as, and raises if one does not. *)
Theorem C81_session : forall {V E} (g : dgraph V E) feed e fetches vs, ordered g ->
  (session_run g feed e fetches = Some vs <-> Forall2 (comes_out g feed e) fetches vs).
Proof. exact @session_out. Qed.
Print Assumptions C81_session.

(** An operation with two inputs, of which the second is fed. *)
Example C81_session_demo : session_run [mkdop true false [] (fun e _ => e); mkdop true true [] (fun _ _ => None);
    mkdop true false [0; 1] (fun _ vs => match vs with [Some a; Some b] => Some (a - b)%Z | _ => None end)]
  (fun i => if Nat.eqb i 1 then Some (Some 2%Z) else None) (Some 5%Z) [2] = Some [Some 3%Z].
Proof. reflexivity. Qed.

(** What holds: when all placeholders they need are fed, the checks raise exactly if
    something that was there when initialize was called comes out NaN or infinite in
    their session run.  (Missing, and false by the above: what the algorithm computes,
    and the values of the update itself.) *)
Theorem C81_checked_partial : forall {V E} mem u finite (model : dgraph V E) items zero before rest fetches feed e e' g checks there,
  algorithm mem u model items zero before rest = (g, checks) ->
  there = construct mem u model items ++ counter_ops mem u (length (construct mem u model items)) zero ++ before ->
  ordered there -> floats_fed there feed ->
  forall vs, session_run g feed e fetches = Some vs ->
  (update finite true g checks fetches feed e e' = CheckRaised <-> exists i, bad finite there feed e' i) /\
  (update finite true g checks fetches feed e e' = Returned vs <-> forall i, ~ bad finite there feed e' i).
Proof. exact @checked. Qed.
Print Assumptions C81_checked_partial.

(** Integer data given as a NumPy value: the checks see the draw, NaN or not. *)
Example C81_checked_demo :
  let g := fst (algorithm (fun _ _ => Some 3%Z) None one_draw [(false, true)] (Some 0%Z) [] (its_log 0)) in
  let checks := snd (algorithm (fun _ _ => Some 3%Z) None one_draw [(false, true)] (Some 0%Z) [] (its_log 0)) in
  let there := construct (fun _ _ => Some 3%Z) None one_draw [(false, true)] ++
    counter_ops (fun _ _ => Some 3%Z) None (length (construct (fun _ _ => Some 3%Z) None one_draw [(false, true)])) (Some 0%Z) ++ [] in
  ordered there /\ floats_fed there nowhere /\
  checks = [0] /\ update is_number true g checks [10] nowhere (Some 1%Z) (Some 1%Z) = Returned [Some 0%Z] /\
  update is_number true g checks [10] nowhere (Some 1%Z) None = CheckRaised.
Proof.
  cbv zeta. destruct (integers_fed _ _ eq_refl) as [O F]. split; [exact O|]. split; [exact F|]. repeat split.
Qed.
