(** * Properties C17, C18 and C20: the life of an inference. *)
From Coq Require Import List Arith Bool Lia.
From Verif Require Import Lifecycle LifecycleSpec LifecycleProofs Feed FeedSpec FeedProofs.
Import ListNotations.

(** ** C17: run performs exactly n_iter updates and finalises once

    Missing from the full statement: run(variables=...) with variables that do
    not include the counter the run itself creates, for which it is false, see
    below. *)

Theorem C17_run_partial : forall c faults, c_vars c = AllVars \/ c_vars c = SomeVars true ->
  (forall k, 1 <= k <= c_iter c -> quiet c faults k) ->
  exists ev, run c faults = (Some (c_iter c), ev, true) /\
    updates ev = seq 1 (c_iter c) /\
    phases ev = [EInitialize; EInitVars] ++ (if c_coord c then [EStart] else []) ++
      [EFinalize] ++ (if c_logging c then [ECloseWriter] else []) ++ (if c_coord c then [EStop] else []) /\
    (exists body, ev = [EInitialize; EInitVars] ++ (if c_coord c then [EStart] else []) ++ body ++
       [EFinalize] ++ (if c_logging c then [ECloseWriter] else []) ++ (if c_coord c then [EStop] else []) /\
       phases body = []).
Proof. exact run_complete. Qed.
Print Assumptions C17_run_partial.

(** An exception in update k, or in printing after it, the first of the run. *)
Theorem C17_crash_partial : forall c faults k, c_vars c = AllVars \/ c_vars c = SomeVars true -> 1 <= k <= c_iter c ->
  (forall j, 1 <= j < k -> quiet c faults j) ->
  (update_fault c k (faults k) ->
   exists t ev, run c faults = (Some t, ev, false) /\ updates ev = seq 1 (k - 1) /\ (t = k - 1 \/ t = k) /\
     phases ev = [EInitialize; EInitVars] ++ (if c_coord c then [EStart] else [])) /\
  (print_fault c k (faults k) ->
   exists ev, run c faults = (Some k, ev, false) /\ updates ev = seq 1 k /\
     phases ev = [EInitialize; EInitVars] ++ (if c_coord c then [EStart] else [])).
Proof. exact run_crash. Qed.
Print Assumptions C17_crash_partial.

(** run(variables=[]), documented for keeping all values, performs no update:
    the counter is new in every run and is not initialised either. *)
Theorem C17_no_variables_refuted : forall c faults, c_vars c = SomeVars false -> 0 < c_iter c ->
  exists ev, run c faults = (None, ev, false) /\ updates ev = [] /\ ~ In EFinalize ev.
Proof. exact run_uninitialized. Qed.
Print Assumptions C17_no_variables_refuted.

Example C17_no_variables_demo : run (mkconfig 1000 None false false (SomeVars false) true) (fun _ => None) =
  (None, [EInitialize; EInitVars; EStart], false).
Proof. reflexivity. Qed.
Example C17_demo : run (mkconfig 3 (Some 2) true false AllVars true) (fun _ => None) =
  (Some 3, [EInitialize; EInitVars; EStart; ESummary 1; EUpdate 1; EPrint 1; ESummary 2; EUpdate 2; EPrint 2;
            EUpdate 3; EFinalize; ECloseWriter; EStop], true).
Proof. reflexivity. Qed.
Example C17_demo_crash :
  run (mkconfig 5 None true true AllVars false) (fun k => if Nat.eqb k 3 then Some FDebug else None) =
  (Some 3, [EInitialize; EInitVars; EUpdate 1; EUpdate 2], false).
Proof. reflexivity. Qed.

(** ** C18: progress and summaries at exactly the documented iterations *)

Theorem C18_run_reports : forall c faults, c_vars c = AllVars \/ c_vars c = SomeVars true ->
  (forall k, 1 <= k <= c_iter c -> quiet c faults k) ->
  exists ev, run c faults = (Some (c_iter c), ev, true) /\
    lists (prints ev) (c_iter c) (reported (n_print c)) /\
    lists (summaries ev) (c_iter c) (fun t => c_logging c = true /\ reported (n_print c) t).
Proof. exact run_reports. Qed.
Print Assumptions C18_run_reports.

(** Step by step, after any history of updates (also failing ones) and
    resets. *)
Theorem C18_history_reports : forall c os f, let t := since_reset 0 os + 1 in
  ~ update_fault c t f -> ~ print_fault c t f ->
  exists ev, snd (op_run c 0 (os ++ [OUpdate f])) = snd (op_run c 0 os) ++ ev /\
    updates ev = [t] /\
    (reported (n_print c) t -> prints ev = [t]) /\ (~ reported (n_print c) t -> prints ev = []) /\
    (c_logging c = true /\ reported (n_print c) t -> summaries ev = [t]) /\
    (~ (c_logging c = true /\ reported (n_print c) t) -> summaries ev = []).
Proof. exact history_reports'. Qed.
Print Assumptions C18_history_reports.

Theorem C18_default : forall c, c_print c = None -> n_print c * 100 <= c_iter c < (n_print c + 1) * 100.
Proof. exact default_print. Qed.
Print Assumptions C18_default.

Example C18_demo : prints (snd (fst (run (mkconfig 7 (Some 3) false false AllVars true) (fun _ => None)))) = [1; 3; 6].
Proof. reflexivity. Qed.
Example C18_demo_history :
  op_run (mkconfig 7 (Some 2) true false AllVars true) 0
    [OUpdate None; OUpdate (Some FAfter); OUpdate None; OReset; OUpdate None] =
  (1, [ESummary 1; EUpdate 1; EPrint 1; EUpdate 3; ESummary 1; EUpdate 1; EPrint 1]).
Proof. reflexivity. Qed.

(** ** C20: bound data reaches the session

    Missing from the full statement: Gibbs, if the caller passes a key that is
    bound in data; for this it is false, see below. *)

Theorem C20_bound_data_partial : forall V a check log (dt : @data V) fd, distinct dt ->
  (forall runs, fst (feeds a check log dt fd) = Some runs -> forall f, In (Some f) runs -> feeds_bound dt (passed fd) f) /\
  feeds_bound dt (passed fd) (snd (feeds a check log dt fd)).
Proof. exact @feeds_ok. Qed.
Print Assumptions C20_bound_data_partial.

(** The run that trains or samples is one of these. *)
Theorem C20_main_run_partial : forall V a check log (dt : @data V) fd runs, a <> ABase ->
  fst (feeds a check log dt fd) = Some runs -> exists f rest, runs = Some f :: rest.
Proof. exact @feeds_main. Qed.
Print Assumptions C20_main_run_partial.

(** Gibbs, over all histories in which the caller passes other keys: the
    placeholders and also the values of observed variables. *)
Theorem C20_gibbs_partial : forall V (latent : dict) (dt : @data V) draw calls self, distinct dt ->
  (self = [] \/ (forall k v, given dt k v -> dict_get self k = Some v)) ->
  (forall fd blocks check log, In (fd, blocks, check, log) calls ->
     (forall k v, In (k, v) (passed fd) -> ungiven dt k) /\
     (forall b k, In b blocks -> In k b -> ungiven dt k)) ->
  (forall runs f, In runs (fst (gibbs_run latent dt draw self calls)) -> In f runs ->
     forall k v, given dt k v -> dict_get f k = Some v).
Proof. exact @gibbs_history. Qed.
Print Assumptions C20_gibbs_partial.

(** What the caller passes for variables that are not drawn reaches every run. *)
Theorem C20_gibbs_passed : forall V (latent : dict) (dt : @data V) draw blocks check log self fd runs self',
  gibbs_update latent dt draw blocks check log self (Some fd) = (runs, self') -> NoDup (map fst fd) ->
  forall k v, In (k, v) fd -> (forall b, In b blocks -> ~ In k b) -> forall f, In f runs -> dict_get f k = Some v.
Proof. exact @gibbs_passes. Qed.
Print Assumptions C20_gibbs_passed.

(** Gibbs lets the caller's value win over the bound one, and feeds it in later
    updates too. *)
Theorem C20_gibbs_refuted : exists (latent : dict) (dt : data) draw (k : nat) (v : nat), distinct dt /\ bound dt k v /\
  (exists fd runs self, gibbs_update latent dt draw [[0]] false false [] (Some fd) = (runs, self) /\
     exists f, In f runs /\ dict_get f k <> Some v /\
     exists runs' self', gibbs_update latent dt draw [[0]] false false self None = (runs', self') /\
       exists f', In f' runs' /\ dict_get f' k <> Some v).
Proof. exact gibbs_refuted. Qed.
Print Assumptions C20_gibbs_refuted.

Example C20_demo : feeds AVariational true false [(1, DPlace, 10); (2, DObserved, 20)] (Some [(1, 99); (3, 30)]) =
  (Some [Some [(1, 10); (3, 30)]; Some [(1, 10); (3, 30)]], [(1, 10); (3, 30)]).
Proof. reflexivity. Qed.
Example C20_demo_gibbs :
  gibbs_run [(0, 7)] [(1, DPlace, 5); (2, DObserved, 6)] (fun z d => z + length d) []
    [(Some [(9, 90)], [[0]], false, true); (None, [[0]], false, false)] =
  ([[[(0, 7); (1, 5); (2, 6); (9, 90)]; [(0, 4); (1, 5); (2, 6); (9, 90)]; [(0, 4); (1, 5); (2, 6); (9, 90)]];
    [[(0, 4); (1, 5); (2, 6); (9, 90)]; [(0, 4); (1, 5); (2, 6); (9, 90)]]], [(0, 4); (1, 5); (2, 6); (9, 90)]).
Proof. reflexivity. Qed.
Example C20_demo_given : let dt := [(1, DPlace, 5); (2, DObserved, 6)] in
  distinct dt /\ given dt 1 5 /\ given dt 2 6 /\ ungiven dt 9 /\ ungiven dt 0.
Proof.
  cbv zeta. split; [repeat constructor; simpl; lia|]. split; [left; simpl; auto|]. split; [right; simpl; auto|].
  split; intros v [H|H]; simpl in H; intuition congruence.
Qed.
