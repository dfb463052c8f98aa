(** * Proofs for C81. *)
From Coq Require Import ZArith List Arith Bool Lia.
From Verif Require Import Debug.
From Verif Require Import DebugSpec.
Import ListNotations.

Section Proofs.
Context {V E : Type}.
Notation dgraph := (dgraph V E).

Definition one (feed : nat -> option V) (e : E) (vals : list (option V)) (o : dop V E) : option V :=
  match feed (length vals) with
  | Some v => Some v
  | None => if d_place o then None else option_map (d_fun o e) (taken vals (d_in o))
  end.
Lemma values_snoc : forall (g : dgraph) o feed e, values (g ++ [o]) feed e = values g feed e ++ [one feed e (values g feed e) o].
Proof. intros. unfold values. rewrite fold_left_app. reflexivity. Qed.
Lemma values_length : forall (g : dgraph) feed e, length (values g feed e) = length g.
Proof.
  intros g feed e. induction g as [|o g IH] using rev_ind; [reflexivity|]. rewrite values_snoc, !app_length, IH. reflexivity.
Qed.
Lemma values_app : forall (g h : dgraph) feed e i, i < length g -> nth i (values (g ++ h) feed e) None = nth i (values g feed e) None.
Proof.
  intros g h feed e i Hi. induction h as [|o h IH] using rev_ind; [rewrite app_nil_r; reflexivity|].
  rewrite app_assoc, values_snoc, app_nth1, IH; auto. rewrite values_length, app_length. lia.
Qed.
Lemma values_at : forall (g : dgraph) feed e i o, nth_error g i = Some o ->
  nth i (values g feed e) None = one feed e (values (firstn i g) feed e) o.
Proof.
  intros g feed e i o Ho. assert (Hi : i < length g) by (apply nth_error_Some; congruence).
  apply nth_error_split in Ho. destruct Ho as (a & b & -> & La). subst i.
  replace (a ++ o :: b) with ((a ++ [o]) ++ b) by (rewrite <- app_assoc; reflexivity).
  rewrite values_app by (rewrite app_length; cbn; lia). rewrite values_snoc, app_nth2; rewrite values_length; [|lia].
  rewrite Nat.sub_diag. cbn [nth]. rewrite <- app_assoc, firstn_app, Nat.sub_diag, firstn_all, app_nil_r. reflexivity.
Qed.
Lemma unfed_none : forall (g : dgraph) feed e i o, nth_error g i = Some o -> d_place o = true -> feed i = None ->
  nth i (values g feed e) None = None.
Proof.
  intros g feed e i o Ho P F. rewrite (values_at g feed e i o Ho). unfold one. rewrite values_length, firstn_length.
  assert (Hi : i < length g) by (apply nth_error_Some; congruence). rewrite Nat.min_l by lia. rewrite F, P. reflexivity.
Qed.
Lemma check_ops_spec : forall (g : dgraph) i, In i (check_ops g) <-> exists o, nth_error g i = Some o /\ d_float o = true.
Proof.
  intros g i. unfold check_ops. rewrite filter_In, in_seq. split.
  - intros [_ H]. destruct (nth_error g i) as [o|] eqn:Eo; [eauto|discriminate].
  - intros (o & Ho & F). rewrite Ho. split; [|exact F]. split; [lia|]. apply nth_error_Some. congruence.
Qed.

(** The graph only grows. *)
Lemma construct_app : forall mem u items (g : dgraph), exists h, construct mem u g items = g ++ h.
Proof.
  intros mem u items. induction items as [|[f p] items IH]; intros g; [exists []; rewrite app_nil_r; reflexivity|].
  cbn [construct fold_left]. change (exists h, construct mem u (data_ops mem u g (f, p)) items = g ++ h).
  destruct p; cbn [data_ops]; [|apply IH]. destruct (IH (g ++ mkdop f true [] (fun _ _ => u) :: variable_ops mem u f (S (length g)) (length g))) as [h Hh].
  rewrite Hh, <- app_assoc. eauto.
Qed.
Lemma construct_place : forall mem u items (g : dgraph), In (true, true) items ->
  exists i o, length g <= i /\ nth_error (construct mem u g items) i = Some o /\ d_float o = true /\ d_place o = true.
Proof.
  intros mem u items. induction items as [|[f p] items IH]; intros g Hin; [destruct Hin|].
  change (construct mem u g ((f, p) :: items)) with (construct mem u (data_ops mem u g (f, p)) items).
  destruct Hin as [Ei|Hin].
  - inversion Ei; subst. cbn [data_ops]. destruct (construct_app mem u items (g ++ mkdop true true [] (fun _ _ => u) :: variable_ops mem u true (S (length g)) (length g))) as [h Hh].
    rewrite Hh. exists (length g), (mkdop true true [] (fun _ _ => u)). split; [lia|]. split; [|auto].
    rewrite nth_error_app1 by (rewrite app_length; cbn; lia). rewrite nth_error_app2 by lia. rewrite Nat.sub_diag. reflexivity.
  - destruct (IH (data_ops mem u g (f, p)) Hin) as (i & o & Li & R). exists i, o. split; [|exact R].
    destruct p; cbn [data_ops] in Li; [rewrite app_length in Li|]; lia.
Qed.

(** What reads a variable that the constructor made. *)
Lemma reads_data : forall mem u (model : dgraph) items float items' rest feed e at_,
  at_ = length (construct mem u model items) -> (forall i, length model <= i -> feed i = None) ->
  session_run (construct mem u model (items ++ (float, true) :: items') ++ rest) feed e [at_ + 3] = Some [mem e (S at_)].
Proof.
  intros mem u model items float items' rest feed e at_ Ha F.
  set (g := construct mem u model items) in *. subst at_.
  assert (L : length model <= length g).
  { destruct (construct_app mem u items model) as (h & Eh). unfold g. rewrite Eh, app_length. lia. }
  assert (X : exists h, construct mem u model (items ++ (float, true) :: items') ++ rest =
    (((g ++ [mkdop float true [] (fun _ _ => u)]) ++ [mkdop false false [] (fun e _ => mem e (S (length g)))]) ++
      [mkdop false false [S (length g); length g] (fun _ _ => u)]) ++ [mkdop float false [S (length g)] (fun _ vs => hd u vs)] ++ h).
  { destruct (construct_app mem u items' (data_ops mem u g (float, true))) as (h & Eh). exists (h ++ rest).
    unfold construct in *. rewrite fold_left_app. cbn [fold_left]. fold g. rewrite Eh. cbn [data_ops variable_ops]. rewrite <- !app_assoc. reflexivity. }
  destruct X as (h & ->). set (g3 := ((g ++ _) ++ _) ++ _).
  assert (L3 : length g3 = length g + 3) by (unfold g3; rewrite !app_length; cbn [length]; lia).
  unfold session_run. cbn [taken]. rewrite app_assoc, (values_app (g3 ++ _)) by (rewrite app_length; cbn [length]; lia).
  rewrite values_snoc, app_nth2 by (rewrite values_length; lia). rewrite values_length, L3, Nat.sub_diag. cbn [nth].
  unfold one. rewrite values_length, L3, (F (length g + 3)) by lia. cbn [d_place d_in d_fun taken].
  assert (V1 : nth (S (length g)) (values g3 feed e) None = Some (mem e (S (length g)))).
  { unfold g3. rewrite (values_app (_ ++ _)) by (rewrite !app_length; cbn [length]; lia).
    rewrite values_snoc, app_nth2 by (rewrite values_length, app_length; cbn [length]; lia).
    rewrite values_length, app_length. cbn [length]. replace (S (length g) - (length g + 1)) with 0 by lia. cbn [nth].
    unfold one. rewrite values_length, app_length. cbn [length]. rewrite (F (length g + 1)) by lia. reflexivity. }
  rewrite V1. reflexivity.
Qed.

Lemma checks_run : forall finite (g h : dgraph) feed e, check_passes finite (g ++ h) (check_ops g) feed e = true <->
  forall i o, nth_error g i = Some o -> d_float o = true -> exists v, nth i (values g feed e) None = Some v /\ finite v = true.
Proof.
  intros finite g h feed e. unfold check_passes. rewrite forallb_forall. split.
  - intros H i o Ho F. assert (Hi : i < length g) by (apply nth_error_Some; congruence).
    specialize (H i (proj2 (check_ops_spec g i) (ex_intro _ o (conj Ho F)))). rewrite values_app in H by auto.
    destruct (nth i (values g feed e) None) as [v|]; [eauto|discriminate].
  - intros H i Hi. apply check_ops_spec in Hi. destruct Hi as (o & Ho & F). destruct (H i o Ho F) as (v & Ev & Fv).
    assert (Li : i < length g) by (apply nth_error_Some; congruence). rewrite values_app by auto. rewrite Ev. exact Fv.
Qed.

(** With NumPy data of floating point type nothing gets past the checks. *)
Theorem numpy_raises : forall mem u finite (model : dgraph) items zero before rest fetches feed e e',
  In (true, true) items -> (forall i, length model <= i -> feed i = None) ->
  forall g checks, algorithm mem u model items zero before rest = (g, checks) ->
  forall vs, update finite true g checks fetches feed e e' <> Returned vs.
Proof.
  intros mem u finite model items zero before rest fetches feed e e' Hin Hfeed g checks Ha vs H.
  unfold algorithm, initialize in Ha. inversion Ha; subst; clear Ha.
  destruct (construct_place mem u items model Hin) as (i & o & Li & Ho & F & P).
  unfold update in H. destruct (session_run _ _ _ _) as [vs'|]; [|discriminate]. cbn [andb] in H.
  destruct (check_passes finite _ _ feed e') eqn:Ec; [|discriminate].
  rewrite checks_run in Ec. assert (Hi : i < length (construct mem u model items)) by (apply nth_error_Some; congruence).
  assert (Ho' : nth_error (construct mem u model items ++ counter_ops mem u (length (construct mem u model items)) zero ++ before) i = Some o)
    by (rewrite nth_error_app1; auto).
  destruct (Ec i o Ho' F) as (v & Ev & _).
  pose proof (unfed_none _ feed e' i o Ho' P (Hfeed i Li)) as Q. discriminate (eq_trans (eq_sym Ev) Q).
Qed.

(** All inputs there: everything can be computed. *)
Lemma taken_some : forall (vals : list (option V)) l, (forall i, In i l -> nth i vals None <> None) -> exists vs, taken vals l = Some vs.
Proof.
  intros vals l. induction l as [|i l IH]; intros H; [exists []; reflexivity|]. cbn [taken].
  destruct (nth i vals None) as [v|] eqn:Ev; [|exfalso; apply (H i); simpl; auto].
  destruct IH as [vs ->]; [intros; apply H; simpl; auto|]. eauto.
Qed.
Lemma fed_some : forall (g : dgraph) feed e, ordered g -> floats_fed g feed -> forall i, computed g feed (floating g) i -> i < length g ->
  nth i (values g feed e) None <> None.
Proof.
  intros g feed e O A i. induction i as [i IH] using lt_wf_ind. intros C Hi. destruct (nth_error g i) as [o|] eqn:Ho; [|apply nth_error_None in Ho; lia].
  rewrite (values_at g feed e i o Ho). unfold one. rewrite values_length, firstn_length, Nat.min_l by lia.
  destruct (feed i) eqn:F; [discriminate|]. destruct (d_place o) eqn:P; [exfalso; exact (A i o C Ho P F)|].
  destruct (taken_some (values (firstn i g) feed e) (d_in o)) as [vs Hvs]; [|rewrite Hvs; discriminate].
  intros j Hj. pose proof (O i o Ho) as Oi. rewrite Forall_forall in Oi. specialize (Oi j Hj).
  assert (Lj : j < length (firstn i g)) by (rewrite firstn_length; lia). pose proof (values_app (firstn i g) (skipn i g) feed e j Lj) as Q.
  rewrite firstn_skipn in Q. rewrite <- Q. apply IH; try lia. exact (comp_input g feed (floating g) i j o C F Ho Hj).
Qed.

Lemma taken_before : forall (g : dgraph) feed e i l, i <= length g -> Forall (fun j => j < i) l -> taken (values (firstn i g) feed e) l = taken (values g feed e) l.
Proof.
  intros g feed e i l Hi H. induction H as [|j l Hj H IH]; [reflexivity|]. cbn [taken]. rewrite IH.
  assert (Lj : j < length (firstn i g)) by (rewrite firstn_length; lia). pose proof (values_app (firstn i g) (skipn i g) feed e j Lj) as Q.
  rewrite firstn_skipn in Q. rewrite Q. reflexivity.
Qed.
Lemma taken_all : forall (vals : list (option V)) (P : nat -> V -> Prop) l vs, (forall i v, In i l -> (nth i vals None = Some v <-> P i v)) ->
  (taken vals l = Some vs <-> Forall2 P l vs).
Proof.
  intros vals P l. induction l as [|i l IH]; intros vs H; cbn [taken].
  - split; intros Q; inversion Q; [constructor|reflexivity].
  - assert (H' : forall j v, In j l -> (nth j vals None = Some v <-> P j v)) by (intros; apply H; right; assumption). split; intros Q.
    + destruct (nth i vals None) as [v|] eqn:Ev; [|discriminate]. destruct (taken vals l) as [ws|] eqn:Ew; [|discriminate]. inversion Q; subst.
      constructor; [apply H; [left; reflexivity|exact Ev]|apply IH; auto].
    + inversion Q as [|? v ? ws A B]; subst. apply (H i v (or_introl eq_refl)) in A. rewrite A. apply (IH ws H') in B. rewrite B. reflexivity.
Qed.
Lemma values_out : forall (g : dgraph) feed e, ordered g -> forall i v, nth i (values g feed e) None = Some v <-> comes_out g feed e i v.
Proof.
  intros g feed e O i. induction i as [i IH] using lt_wf_ind. intros v. destruct (nth_error g i) as [o|] eqn:Ho.
  - assert (Hi : i < length g) by (apply nth_error_Some; congruence). rewrite (values_at g feed e i o Ho). unfold one.
    rewrite values_length, firstn_length, Nat.min_l by lia. pose proof (O i o Ho) as Oi. rewrite taken_before by (auto; lia).
    assert (T := fun vs => taken_all (values g feed e) (comes_out g feed e) (d_in o) vs (fun j u Hj => IH j (proj1 (Forall_forall _ _) Oi j Hj) u)).
    split; intros H.
    + destruct (feed i) as [u|] eqn:F; [inversion H; subst; apply out_fed; auto|]. destruct (d_place o) eqn:P; [discriminate|].
      destruct (taken (values g feed e) (d_in o)) as [vs|] eqn:Ev; [|discriminate]. inversion H; subst. apply out_run; auto. apply T. reflexivity.
    + inversion H as [? ? L F|? o' vs Ho' F P A]; subst; rewrite F; [reflexivity|]. assert (o' = o) by congruence. subst o'. rewrite P.
      apply T in A. rewrite A. reflexivity.
  - apply nth_error_None in Ho. rewrite nth_overflow by (rewrite values_length; exact Ho). split; [discriminate|].
    intros H. inversion H as [? ? L F|? o' vs Ho' F P A]; subst; [lia|]. assert (i < length g) by (apply nth_error_Some; congruence). lia.
Qed.
Theorem session_out : forall (g : dgraph) feed e fetches vs, ordered g ->
  (session_run g feed e fetches = Some vs <-> Forall2 (comes_out g feed e) fetches vs).
Proof. intros g feed e fetches vs O. apply taken_all. intros i v _. apply values_out. exact O. Qed.

(** What the checks do: they look at what was there when initialize was called. *)
Theorem checked : forall mem u finite (model : dgraph) items zero before rest fetches feed e e' g checks there,
  algorithm mem u model items zero before rest = (g, checks) ->
  there = construct mem u model items ++ counter_ops mem u (length (construct mem u model items)) zero ++ before ->
  ordered there -> floats_fed there feed ->
  forall vs, session_run g feed e fetches = Some vs ->
  (update finite true g checks fetches feed e e' = CheckRaised <-> exists i, bad finite there feed e' i) /\
  (update finite true g checks fetches feed e e' = Returned vs <-> forall i, ~ bad finite there feed e' i).
Proof.
  intros mem u finite model items zero before rest fetches feed e e' g checks there Ha Et O A vs Hs.
  unfold algorithm, initialize in Ha. rewrite <- Et in Ha. inversion Ha; subst g checks; clear Ha.
  unfold update. rewrite Hs. cbn [andb]. pose proof (checks_run finite there rest feed e') as Q.
  destruct (check_passes finite (there ++ rest) (check_ops there) feed e') eqn:Ec; cbn [negb].
  - assert (N : forall i, ~ bad finite there feed e' i).
    { intros i (o & v & Ho & F & Ev & Fv). apply (values_out there feed e' O) in Ev. destruct (proj1 Q eq_refl i o Ho F) as (v' & Ev' & Fv'). congruence. }
    split; split; intros H; auto; try discriminate. destruct H as [i Hi]. destruct (N i Hi).
  - assert (B : ~ forall i, ~ bad finite there feed e' i).
    { intros N. assert (false = true); [|discriminate]. apply Q. intros i o Ho F. assert (Hi : i < length there) by (apply nth_error_Some; congruence).
      destruct (nth i (values there feed e') None) as [v|] eqn:Ev; [|destruct (fed_some there feed e' O A i (comp_fetched _ _ _ i (ex_intro _ o (conj Ho F))) Hi Ev)].
      exists v. split; [reflexivity|]. destruct (finite v) eqn:Fv; [reflexivity|]. destruct (N i). exists o, v. repeat split; auto. apply values_out; auto. }
    split; split; intros H; auto; try discriminate; [|destruct (B H)].
    unfold check_passes in Ec.
    assert (X : exists i, In i (check_ops there) /\ (match nth i (values (there ++ rest) feed e') None with Some v => finite v | None => false end) = false).
    { clear - Ec. induction (check_ops there) as [|i l IH]; [discriminate|]. cbn [forallb] in Ec. apply andb_false_iff in Ec. destruct Ec as [Ec|Ec].
      - exists i. split; [left; reflexivity|exact Ec].
      - destruct (IH Ec) as (j & Hj & Ej). exists j. split; [right; exact Hj|exact Ej]. }
    destruct X as (i & Hi & Ei). apply check_ops_spec in Hi. destruct Hi as (o & Ho & F). exists i.
    assert (Li : i < length there) by (apply nth_error_Some; congruence). rewrite values_app in Ei by auto.
    destruct (nth i (values there feed e') None) as [v|] eqn:Ev; [|destruct (fed_some there feed e' O A i (comp_fetched _ _ _ i (ex_intro _ o (conj Ho F))) Li Ev)]. exists o, v. repeat split; auto. apply values_out; auto.
Qed.
End Proofs.

(** ** Witnesses *)
Definition nowhere : nat -> option number := fun _ => None.
Lemma algorithm_refuted : exists (model rest : dgraph number (option Z)) fetches e e' g checks vs,
  algorithm (fun _ _ => Some 0%Z) None model [] (Some 0%Z) [] rest = (g, checks) /\ ordered g /\ floats_fed g nowhere /\
  update is_number true g checks fetches nowhere e e' = Returned vs /\
  (exists i, computed g nowhere (fun j => In j fetches) i /\ bad is_number g nowhere e i) /\ (exists i, computed g nowhere (fun j => In j fetches) i /\ bad is_number g nowhere e' i).
Proof.
  exists one_draw, (its_log 0), [6], (Some (-1)%Z), (Some (-1)%Z). do 3 eexists. split; [reflexivity|].
  match goal with |- ordered ?g /\ _ => assert (O : ordered g) end.
  { intros i o H. do 8 (destruct i as [|i]; [cbn in H; inversion H; subst; repeat constructor|]); try (cbn in H; destruct i; discriminate). }
  split; [exact O|split; [|split; [reflexivity|]]].
  - intros i o _ H P. do 8 (destruct i as [|i]; [cbn in H; inversion H; subst; discriminate|]); cbn in H; destruct i; discriminate.
  - split; exists 6; (split; [apply comp_fetched; simpl; auto|]); do 2 eexists; (split; [reflexivity|]); (split; [reflexivity|]); (split; [apply (values_out _ _ _ O); reflexivity|reflexivity]).
Qed.
Lemma draws_refuted : exists (model : dgraph number (option Z)) fetches e e' g checks vs,
  algorithm (fun _ _ => Some 0%Z) None model [] (Some 0%Z) [] [] = (g, checks) /\ ordered g /\ floats_fed g nowhere /\
  update is_number true g checks fetches nowhere e e' = Returned vs /\ exists i, In i checks /\ computed g nowhere (fun j => In j fetches) i /\ bad is_number g nowhere e i.
Proof.
  exists one_draw, [0], None, (Some 1%Z). do 3 eexists. split; [reflexivity|].
  match goal with |- ordered ?g /\ _ => assert (O : ordered g) end.
  { intros i o H. do 7 (destruct i as [|i]; [cbn in H; inversion H; subst; repeat constructor|]); try (cbn in H; destruct i; discriminate). }
  split; [exact O|split; [|split; [reflexivity|]]].
  - intros i o _ H P. do 7 (destruct i as [|i]; [cbn in H; inversion H; subst; discriminate|]); cbn in H; destruct i; discriminate.
  - exists 0. split; [simpl; auto|]. split; [apply comp_fetched; simpl; auto|]. do 2 eexists. split; [reflexivity|]. split; [reflexivity|]. split; [apply (values_out _ _ _ O); reflexivity|reflexivity].
Qed.

(** Integer data given as a NumPy value. *)
Lemma integers_fed : forall g checks, algorithm (fun _ _ => Some 3%Z) None one_draw [(false, true)] (Some 0%Z) [] (its_log 0) = (g, checks) ->
  let there := construct (fun _ _ => Some 3%Z) None one_draw [(false, true)] ++
    counter_ops (fun _ _ => Some 3%Z) None (length (construct (fun _ _ => Some 3%Z) None one_draw [(false, true)])) (Some 0%Z) ++ [] in
  ordered there /\ floats_fed there nowhere.
Proof.
  intros g checks _. split.
  - intros i o H. do 10 (destruct i as [|i]; [cbn in H; inversion H; subst; repeat constructor|]); try (cbn in H; destruct i; discriminate).
  - intros i o C H P.
    assert (Q : i = 0). { clear o H P. induction C as [i (o & H & F)|i j o C IH F H Hj].
      - do 10 (destruct i as [|i]; [cbn in H; inversion H; subst; try discriminate; reflexivity|]); cbn in H; destruct i; discriminate.
      - subst i. cbn in H. inversion H; subst. destruct Hj. }
    subst i. cbn in H. inversion H; subst. discriminate.
Qed.
