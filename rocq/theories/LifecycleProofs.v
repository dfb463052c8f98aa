From Coq Require Import List Arith Bool Lia.
From Verif Require Import Lifecycle LifecycleSpec.
Import ListNotations.

Lemma due_spec : forall p t, due p t = true <-> reported p t.
Proof.
  intros p t. unfold due, reported. rewrite andb_true_iff, negb_true_iff, orb_true_iff, Nat.eqb_neq, !Nat.eqb_eq. split.
  - intros [Hp H]. split; [lia|]. destruct H as [H|H]; auto. right. exists (t / p).
    pose proof (Nat.div_mod t p Hp). lia.
  - intros [Hp H]. split; [lia|]. destruct H as [H|[m ->]]; auto. right. apply Nat.mod_mul; lia.
Qed.

(** The events of one quiet iteration. *)
Definition iter_events (c : config) (t : nat) : list event :=
  (if c_logging c && due (n_print c) t then [ESummary t] else []) ++ [EUpdate t] ++
  (if due (n_print c) t then [EPrint t] else []).

Lemma quiet_step : forall c faults t, quiet c faults (S t) ->
  exists ev ev', update c (Some t) (faults (S t)) = (Some (S t), ev, Some (S t)) /\
    print_progress c (S t) (faults (S t)) = (ev', true) /\ ev ++ ev' = iter_events c (S t).
Proof.
  intros c faults t [H1 H2]. unfold update, print_progress, iter_events, update_fault, print_fault in *.
  rewrite <- due_spec in *. destruct (faults (S t)) as [[]|] eqn:E; try tauto.
  - destruct (c_debug c); [destruct H1; auto|].
    destruct (c_logging c), (due (n_print c) (S t)); simpl; do 2 eexists; repeat split.
  - rewrite <- due_spec in H1. destruct (c_logging c), (due (n_print c) (S t)); simpl; try (destruct H1; auto; fail); do 2 eexists; repeat split.
  - destruct (c_logging c), (due (n_print c) (S t)); simpl; try (destruct H2; auto; fail); do 2 eexists; repeat split.
  - destruct (c_logging c), (due (n_print c) (S t)); simpl; do 2 eexists; repeat split.
Qed.

Lemma loop_quiet : forall c faults n t, (forall k, t < k <= t + n -> quiet c faults k) ->
  loop c faults n (S t) (Some t) = (Some (t + n), flat_map (iter_events c) (seq (S t) n), true).
Proof.
  intros c faults n. induction n as [|n IH]; intros t H; cbn [loop seq flat_map].
  - rewrite Nat.add_0_r; auto.
  - destruct (quiet_step c faults t) as (ev & ev' & E1 & E2 & E3). { apply H; lia. }
    rewrite E1, E2, (IH (S t)). 2:{ intros k Hk; apply H; lia. }
    rewrite <- E3, app_assoc. do 2 f_equal. f_equal. lia.
Qed.

Lemma loop_app : forall c faults m n t, (forall k, t < k <= t + m -> quiet c faults k) ->
  loop c faults (m + n) (S t) (Some t) =
  match loop c faults n (S (t + m)) (Some (t + m)) with
  | (t', ev, b) => (t', flat_map (iter_events c) (seq (S t) m) ++ ev, b) end.
Proof.
  intros c faults m. induction m as [|m IH]; intros n t H; cbn [loop seq flat_map Nat.add].
  - rewrite Nat.add_0_r. destruct (loop _ _ _ _ _) as [[? ?] ?]; auto.
  - destruct (quiet_step c faults t) as (ev & ev' & E1 & E2 & E3). { apply H; lia. }
    rewrite E1, E2, (IH n (S t)). 2:{ intros k Hk; apply H; lia. }
    replace (S t + m) with (t + S m) by lia.
    destruct (loop c faults n (S (t + S m)) (Some (t + S m))) as [[t' ev2] b].
    rewrite <- E3. rewrite !app_assoc. auto.
Qed.

Lemma fault_step : forall c faults t, update_fault c (S t) (faults (S t)) ->
  exists t', update c (Some t) (faults (S t)) = (Some t', [], None) /\ (t' = t \/ t' = S t).
Proof.
  intros c faults t H. unfold update, update_fault in *.
  destruct (faults (S t)) as [[]|]; try tauto; eauto.
  - rewrite H. eauto.
  - rewrite <- due_spec in H. destruct H as [-> ->]. simpl. eauto.
Qed.

Lemma print_fault_step : forall c faults t, print_fault c (S t) (faults (S t)) ->
  exists ev, update c (Some t) (faults (S t)) = (Some (S t), ev, Some (S t)) /\
    print_progress c (S t) (faults (S t)) = ([], false) /\
    ev = (if c_logging c && due (n_print c) (S t) then [ESummary (S t)] else []) ++ [EUpdate (S t)].
Proof.
  intros c faults t [H1 H2]. rewrite <- due_spec in H2. rewrite H1. unfold update, print_progress. rewrite H2.
  destruct (c_logging c); simpl; eauto.
Qed.

(** ** Projections *)
Lemma updates_app : forall a b, updates (a ++ b) = updates a ++ updates b.
Proof. intros; apply flat_map_app. Qed.
Lemma summaries_app : forall a b, summaries (a ++ b) = summaries a ++ summaries b.
Proof. intros; apply flat_map_app. Qed.
Lemma prints_app : forall a b, prints (a ++ b) = prints a ++ prints b.
Proof. intros; apply flat_map_app. Qed.
Lemma phases_app : forall a b, phases (a ++ b) = phases a ++ phases b.
Proof. intros; apply filter_app. Qed.

Lemma iters_updates : forall c l, updates (flat_map (iter_events c) l) = l.
Proof.
  intros c l. induction l; simpl; auto. rewrite updates_app, IHl. unfold iter_events.
  destruct (c_logging c), (due (n_print c) a); simpl; auto.
Qed.
Lemma iters_summaries : forall c l, summaries (flat_map (iter_events c) l) =
  filter (fun t => c_logging c && due (n_print c) t) l.
Proof.
  intros c l. induction l; simpl; auto. rewrite summaries_app, IHl. unfold iter_events.
  destruct (c_logging c), (due (n_print c) a); simpl; auto.
Qed.
Lemma iters_prints : forall c l, prints (flat_map (iter_events c) l) = filter (due (n_print c)) l.
Proof.
  intros c l. induction l; simpl; auto. rewrite prints_app, IHl. unfold iter_events.
  destruct (c_logging c), (due (n_print c) a); simpl; auto.
Qed.
Lemma iters_phases : forall c l, phases (flat_map (iter_events c) l) = [].
Proof.
  intros c l. induction l; simpl; auto. rewrite phases_app, IHl. unfold iter_events.
  destruct (c_logging c), (due (n_print c) a); simpl; auto.
Qed.

Definition head_events (c : config) := [EInitialize; EInitVars] ++ (if c_coord c then [EStart] else []).
Definition tail_events (c : config) :=
  [EFinalize] ++ (if c_logging c then [ECloseWriter] else []) ++ (if c_coord c then [EStop] else []).

Lemma run_quiet : forall c faults, init_t (c_vars c) = Some 0 -> (forall k, 1 <= k <= c_iter c -> quiet c faults k) ->
  run c faults = (Some (c_iter c), head_events c ++ flat_map (iter_events c) (seq 1 (c_iter c)) ++ tail_events c, true).
Proof.
  intros c faults Hi H. unfold run. rewrite Hi. rewrite (loop_quiet c faults (c_iter c) 0).
  - unfold head_events, tail_events, finalize. simpl. destruct (c_coord c); reflexivity.
  - intros; apply H; lia.
Qed.

Lemma head_proj : forall c, updates (head_events c) = [] /\ summaries (head_events c) = [] /\ prints (head_events c) = [] /\
  phases (head_events c) = head_events c.
Proof. intros c. unfold head_events. destruct (c_coord c); repeat split. Qed.
Lemma tail_proj : forall c, updates (tail_events c) = [] /\ summaries (tail_events c) = [] /\ prints (tail_events c) = [] /\
  phases (tail_events c) = tail_events c.
Proof. intros c. unfold tail_events. destruct (c_coord c), (c_logging c); repeat split. Qed.

Lemma run_complete : forall c faults, c_vars c = AllVars \/ c_vars c = SomeVars true ->
  (forall k, 1 <= k <= c_iter c -> quiet c faults k) ->
  exists ev, run c faults = (Some (c_iter c), ev, true) /\
    updates ev = seq 1 (c_iter c) /\
    phases ev = [EInitialize; EInitVars] ++ (if c_coord c then [EStart] else []) ++
      [EFinalize] ++ (if c_logging c then [ECloseWriter] else []) ++ (if c_coord c then [EStop] else []) /\
    (exists body, ev = [EInitialize; EInitVars] ++ (if c_coord c then [EStart] else []) ++ body ++
       [EFinalize] ++ (if c_logging c then [ECloseWriter] else []) ++ (if c_coord c then [EStop] else []) /\
       phases body = []).
Proof.
  intros c faults Hv H. eexists. split.
  - apply run_quiet; auto. destruct Hv as [-> | ->]; auto.
  - destruct (head_proj c) as (H1 & _ & _ & H4). destruct (tail_proj c) as (T1 & _ & _ & T4).
    rewrite !updates_app, !phases_app, H1, T1, H4, T4, iters_updates, iters_phases, app_nil_r. split; auto. split.
    + unfold head_events, tail_events. destruct (c_coord c); reflexivity.
    + exists (flat_map (iter_events c) (seq 1 (c_iter c))). split; [|apply iters_phases].
      unfold head_events, tail_events. destruct (c_coord c); reflexivity.
Qed.

Lemma run_crash : forall c faults k, c_vars c = AllVars \/ c_vars c = SomeVars true -> 1 <= k <= c_iter c ->
  (forall j, 1 <= j < k -> quiet c faults j) ->
  (update_fault c k (faults k) ->
   exists t ev, run c faults = (Some t, ev, false) /\ updates ev = seq 1 (k - 1) /\ (t = k - 1 \/ t = k) /\
     phases ev = [EInitialize; EInitVars] ++ (if c_coord c then [EStart] else [])) /\
  (print_fault c k (faults k) ->
   exists ev, run c faults = (Some k, ev, false) /\ updates ev = seq 1 k /\
     phases ev = [EInitialize; EInitVars] ++ (if c_coord c then [EStart] else [])).
Proof.
  intros c faults k Hv Hk Hq. assert (Hi : init_t (c_vars c) = Some 0) by (destruct Hv as [-> | ->]; auto).
  destruct k as [|k]; [lia|]. destruct (head_proj c) as (H1 & _ & _ & H4).
  assert (El : loop c faults (c_iter c) 1 (Some 0) =
    match loop c faults (c_iter c - k) (S k) (Some k) with
    | (t', ev, b) => (t', flat_map (iter_events c) (seq 1 k) ++ ev, b) end).
  { replace (c_iter c) with (k + (c_iter c - k)) at 1 by lia. apply (loop_app c faults k (c_iter c - k) 0).
    intros j Hj. apply Hq. lia. }
  destruct (c_iter c - k) as [|m] eqn:Em; [lia|]. cbn [loop] in El.
  split; intros Hf.
  - destruct (fault_step c faults k Hf) as (t' & E & Ht). rewrite E in El.
    exists t', (head_events c ++ flat_map (iter_events c) (seq 1 k)). split.
    { unfold run, head_events. rewrite Hi, El, app_nil_r. destruct (c_coord c); reflexivity. }
    rewrite updates_app, phases_app, iters_updates, iters_phases, app_nil_r, H1, H4. simpl.
    rewrite Nat.sub_0_r. repeat split; auto.
  - destruct (print_fault_step c faults k Hf) as (ev & E & E2 & Eev). rewrite E, E2 in El.
    exists (head_events c ++ flat_map (iter_events c) (seq 1 k) ++ ev). split.
    { unfold run, head_events. rewrite Hi, El, app_nil_r. destruct (c_coord c); reflexivity. }
    rewrite !updates_app, !phases_app, iters_updates, iters_phases, H1, H4. subst ev. rewrite updates_app, phases_app.
    split.
    + rewrite seq_S. simpl. f_equal. destruct (_ && _); auto.
    + destruct (_ && _); rewrite app_nil_r; auto.
Qed.

Lemma run_uninitialized : forall c faults, c_vars c = SomeVars false -> 0 < c_iter c ->
  exists ev, run c faults = (None, ev, false) /\ updates ev = [] /\ ~ In EFinalize ev.
Proof.
  intros c faults Hv Hn. unfold run. rewrite Hv. simpl. destruct (c_iter c) as [|n]; [lia|]. simpl.
  eexists. split; [reflexivity|]. destruct (c_coord c); simpl; split; auto; intuition discriminate.
Qed.

(** ** C18 *)
Lemma filter_lists : forall n f P, (forall t, f t = true <-> P t) -> lists (filter f (seq 1 n)) n P.
Proof.
  intros n f P H. split.
  - intros t. rewrite filter_In, in_seq, H. intuition lia.
  - generalize 1. induction n as [|n IH]; intros s i j a b Hij Ha Hb; simpl in *.
    + destruct i; discriminate.
    + destruct (f s); [|eapply IH; eauto]. destruct j; [lia|]. simpl in Hb. destruct i; simpl in Ha.
      * inversion Ha; subst. apply nth_error_In in Hb. apply filter_In in Hb as [Hb _]. apply in_seq in Hb. lia.
      * eapply IH with (i := i) (j := j); eauto. lia.
Qed.

Lemma run_reports : forall c faults, c_vars c = AllVars \/ c_vars c = SomeVars true ->
  (forall k, 1 <= k <= c_iter c -> quiet c faults k) ->
  exists ev, run c faults = (Some (c_iter c), ev, true) /\
    lists (prints ev) (c_iter c) (reported (n_print c)) /\
    lists (summaries ev) (c_iter c) (fun t => c_logging c = true /\ reported (n_print c) t).
Proof.
  intros c faults Hv H. eexists. split.
  - apply run_quiet; auto. destruct Hv as [-> | ->]; auto.
  - destruct (head_proj c) as (_ & H2 & H3 & _). destruct (tail_proj c) as (_ & T2 & T3 & _).
    rewrite !prints_app, !summaries_app, H2, H3, T2, T3, iters_prints, iters_summaries, !app_nil_r. simpl. split.
    + apply filter_lists. apply due_spec.
    + apply filter_lists. intros t. rewrite andb_true_iff, due_spec. tauto.
Qed.

Lemma default_print : forall c, c_print c = None -> n_print c * 100 <= c_iter c < (n_print c + 1) * 100.
Proof.
  intros c H. unfold n_print. rewrite H. pose proof (Nat.div_mod (c_iter c) 100 ltac:(lia)) as E.
  pose proof (Nat.mod_upper_bound (c_iter c) 100 ltac:(lia)). lia.
Qed.

(** Step by step. *)
Lemma op_step_counter : forall c t o, fst (op_step c t o) = since_reset t [o].
Proof.
  intros c t [f|]; simpl; auto. destruct f as [[]|]; simpl; try lia; destruct (c_debug c), (c_logging c && due (n_print c) (S t)); simpl; lia.
Qed.
Lemma op_run_counter : forall c os t, fst (op_run c t os) = since_reset t os.
Proof.
  intros c os. induction os as [|o os IH]; intros t; simpl; auto.
  pose proof (op_step_counter c t o) as H. destruct (op_step c t o) as [t' ev]. simpl in H.
  specialize (IH t'). destruct (op_run c t' os). simpl in *. rewrite IH, H. destruct o; auto.
Qed.
Lemma op_run_app : forall c os o t, op_run c t (os ++ [o]) =
  (fst (op_step c (fst (op_run c t os)) o), snd (op_run c t os) ++ snd (op_step c (fst (op_run c t os)) o)).
Proof.
  intros c os. induction os as [|a os IH]; intros o t; simpl.
  - destruct (op_step c t o). rewrite app_nil_r; auto.
  - destruct (op_step c t a) as [t' ev]. rewrite IH. destruct (op_run c t' os). simpl. rewrite app_assoc; auto.
Qed.

Lemma history_reports : forall c os f, let t := since_reset 0 os + 1 in
  ~ update_fault c t f -> ~ print_fault c t f ->
  exists ev, snd (op_run c 0 (os ++ [OUpdate f])) = snd (op_run c 0 os) ++ ev /\
    updates ev = [t] /\
    (prints ev = if due (n_print c) t then [t] else []) /\
    (summaries ev = if c_logging c && due (n_print c) t then [t] else []).
Proof.
  intros c os f t H1 H2. rewrite op_run_app, op_run_counter.
  exists (snd (op_step c (since_reset 0 os) (OUpdate f))). split; [reflexivity|]. destruct (quiet_step c (fun _ => f) (since_reset 0 os)) as (ev & ev' & E1 & E2 & E3).
  { split; replace (S (since_reset 0 os)) with t by (unfold t; lia); auto. }
  assert (E : snd (op_step c (since_reset 0 os) (OUpdate f)) = iter_events c (S (since_reset 0 os))).
  { unfold op_step. rewrite E1, E2. exact E3. }
  rewrite E. unfold t. rewrite Nat.add_1_r.
  generalize (S (since_reset 0 os)). intros n. unfold iter_events.
  destruct (c_logging c), (due (n_print c) n); simpl; auto.
Qed.

Lemma history_reports' : forall c os f, let t := since_reset 0 os + 1 in
  ~ update_fault c t f -> ~ print_fault c t f ->
  exists ev, snd (op_run c 0 (os ++ [OUpdate f])) = snd (op_run c 0 os) ++ ev /\
    updates ev = [t] /\
    (reported (n_print c) t -> prints ev = [t]) /\ (~ reported (n_print c) t -> prints ev = []) /\
    (c_logging c = true /\ reported (n_print c) t -> summaries ev = [t]) /\
    (~ (c_logging c = true /\ reported (n_print c) t) -> summaries ev = []).
Proof.
  intros c os f t H1 H2. destruct (history_reports c os f H1 H2) as (ev & E & Eu & Ep & Es).
  exists ev. split; auto. split; auto. fold t in Ep, Es. rewrite Ep, Es, <- due_spec.
  destruct (due (n_print c) t), (c_logging c); simpl; intuition congruence.
Qed.
