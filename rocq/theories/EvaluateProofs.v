From Coq Require Import String List Arith ZArith Bool Lia.
From Verif Require Import Checks Evaluate EvaluateSpec.
Import ListNotations.
Local Open Scope string_scope.

(** ** The table of names *)

Lemma documented_dispatch : forall s m b, In (s, m) documented ->
  dispatch_name (resolve b s) = match m with MFn f => DFn f | MAvg f => DAveraged f | MLogLik => DLogLik end /\
  match m with MFn f => is_kl f = false | _ => True end.
Proof.
  intros s m b H. unfold documented in H. cbn [In] in H.
  repeat match type of H with _ \/ _ => destruct H as [H|H]; [injection H as <- <-; split; reflexivity || exact I|] end. contradiction.
Qed.

Lemma asked : forall out b e v, out <> OutTensor -> asks e v -> evaluate_one out b e = inl v.
Proof.
  intros out b e v Ho H. destruct H; destruct (documented_dispatch _ _ b H) as [E K]; cbn [evaluate_one evaluate_plain]; rewrite E; try rewrite K; cbn; auto;
    destruct out; auto; congruence.
Qed.

Lemma asked_tensor : forall b e v, asks e v -> v <> EvLogLik -> evaluate_one OutTensor b e = inl v.
Proof.
  intros b e v H N. destruct H; destruct (documented_dispatch _ _ b H) as [E K]; cbn [evaluate_one evaluate_plain]; rewrite E; try rewrite K; cbn; auto; congruence.
Qed.

Lemma loop_asked : forall out b l vs, (forall e v, In v vs -> asks e v -> evaluate_one out b e = inl v) -> Forall2 asks l vs -> evaluate_loop out b l = inl vs.
Proof.
  intros out b l vs H F. induction F as [|e v l vs A F IH]; [reflexivity|].
  cbn. rewrite (H e v), IH; auto; [|now left]. intros e' v' I'. apply H. now right.
Qed.

(** Exactly the names in the two lists are accepted. *)
Lemma dispatch_known : forall b s, dispatch_name (resolve b s) <> DUnknown -> In s (map fst documented) \/ In s undocumented.
Proof.
  intros b s H. unfold resolve in H.
  destruct (String.eqb_spec s "accuracy") as [E1|N1]; [subst s; right; cbn; auto|].
  destruct (String.eqb_spec s "crossentropy") as [E1|N2]; [subst s; right; cbn; auto|]. cbn [orb] in H.
  unfold dispatch_name in H.
  repeat match type of H with
  | (if (String.eqb s ?x || _) || _ then _ else _) <> _ => destruct (String.eqb_spec s x) as [E|?]; [clear H; subst s; cbn; tauto|cbn [orb] in H]
  | (if String.eqb s ?x || _ then _ else _) <> _ => destruct (String.eqb_spec s x) as [E|?]; [clear H; subst s; cbn; tauto|cbn [orb] in H]
  | (if String.eqb s ?x then _ else _) <> _ => destruct (String.eqb_spec s x) as [E|?]; [clear H; subst s; cbn; tauto|]
  end. congruence.
Qed.

(** ** The data *)

Lemma has_shape_true : forall V (v : obj V), ~ is_python v -> has_shape v = true.
Proof. intros V [] H; simpl; auto. exfalso. apply H. eexists. eexists. reflexivity. Qed.
Lemma has_shape_false : forall V (v : obj V), is_python v -> has_shape v = false.
Proof. intros V v (a & b & ->). reflexivity. Qed.
Ltac shape_of S := first [apply has_shape_true in S | apply has_shape_false in S].

Section Data.
Context {V : Type}.
Variable pl : nat -> tshape * nat.
Variable discrete : nat -> bool.
Variable small_support : obj V -> bool.

Lemma same_key_refl : forall k : obj V, is_placeholder k = true \/ is_rv k \/ (exists i s t, k = OTensor i s t) -> same_key k k = true.
Proof. intros k [H|[(i & s & t & ->)|(i & s & t & ->)]]; try apply Nat.eqb_refl. destruct k; try discriminate. apply Nat.eqb_refl. Qed.

Lemma filter_none : forall {A} (f : A -> bool) l, (forall a, In a l -> f a = false) -> filter f l = [].
Proof. induction l as [|a l IH]; intro H; auto. cbn. rewrite (H a) by now left. apply IH. intros; apply H; now right. Qed.

Lemma only_filter : forall (d : list (obj V * obj V)) k v, only_output d k v -> filter (fun kv => negb (is_placeholder (fst kv))) d = [(k, v)].
Proof.
  intros d k v (b & a & -> & K & P). rewrite filter_app. cbn. rewrite K. cbn.
  rewrite !filter_none; auto; intros kv I; rewrite P; auto; apply in_or_app; auto.
Qed.

Lemma get_app : forall (a b : list (obj V * obj V)) k, (forall kv, In kv a -> same_key (fst kv) k = false) -> data_get (a ++ b)%list k = data_get b k.
Proof.
  induction a as [|[k' v'] a IH]; intros b k H; auto. cbn. pose proof (H (k', v') (or_introl eq_refl)) as E. cbn in E. rewrite E. apply IH. intros; apply H; now right.
Qed.

Lemma only_get : forall (d : list (obj V * obj V)) k v, only_output d k v -> same_key k k = true -> data_get d k = Some v.
Proof.
  intros d k v (b & a & -> & K & P) S. rewrite get_app.
  - cbn. now rewrite S.
  - intros [k' v'] I. specialize (P (k', v') (in_or_app _ _ _ (or_introl I))). cbn in *. destruct k'; try discriminate. destruct k; auto. discriminate.
Qed.

Lemma checked_key : forall (d : list (obj V * obj V)) k v, check_data pl (ADict d) = Ret tt -> In (k, v) d -> is_placeholder k = true \/ is_rv k \/ (exists i s t, k = OTensor i s t).
Proof.
  intros d k v H I. cbn in H. destruct (forallb (check_item pl) d) eqn:E; [|discriminate].
  rewrite forallb_forall in E. specialize (E _ I). destruct k; cbn in E; try discriminate; unfold is_rv; eauto 6.
Qed.

Lemma choose_default : forall (d : list (obj V * obj V)) k v, check_data pl (ADict d) = Ret tt -> only_output d k v ->
  choose_output d None = inl k /\ data_get d k = Some v /\ (is_rv k \/ exists i s t, k = OTensor i s t).
Proof.
  intros d k v C O. assert (I : In (k, v) d) by (destruct O as (b & a & -> & _); apply in_or_app; right; now left).
  pose proof (checked_key d k v C I) as Q. cbn. rewrite (only_filter d k v O). split; auto.
  split; [apply only_get; auto; apply same_key_refl; auto|]. destruct Q as [Q|Q]; auto. destruct O as (_ & _ & _ & K & _). congruence.
Qed.

Lemma chosen_spec : forall (d : list (obj V * obj V)) ok (k v : obj V), check_data pl (ADict d) = Ret tt -> chosen d ok k v ->
  choose_output d ok = inl k /\ data_get d k = Some v /\ (is_rv k \/ exists i s t, k = OTensor i s t).
Proof.
  intros d [k'|] k v C H; cbn in H.
  - destruct H as (-> & R & G). destruct R as (i & s & t & ->). cbn. unfold is_rv. eauto 8.
  - now apply choose_default.
Qed.

Lemma class_rv : forall k : obj V, is_rv k -> output_class discrete k <> OutTensor.
Proof. intros k (i & s & t & ->). cbn. try destruct (discrete i); discriminate. Qed.

Theorem accepts : forall metrics vs (d : list (obj V * obj V)) n ok k v,
  asks_all metrics vs -> (forall e, metrics <> MTuple e) ->
  check_data pl (ADict d) = Ret tt -> (1 <= n)%Z -> chosen d ok k v -> is_rv k -> ~ is_python v ->
  evaluate pl discrete small_support metrics (ADict d) (Some n) ok = packed vs.
Proof.
  intros metrics vs d n ok k v A NT C Hn Ch R S. shape_of S. destruct (chosen_spec _ _ _ _ C Ch) as (E1 & E2 & _).
  assert (L : exists l, metrics_list metrics = Some l /\ Forall2 asks l vs).
  { destruct A as [l vs F|s v' F|e v' F].
    - exists l. split; auto.
    - exists [EPlain (EStr s)]. split; auto.
    - exfalso. eapply NT; eauto. }
  destruct L as (l & Ll & F). unfold evaluate. rewrite Ll, C, E1, E2.
  destruct (Z.ltb_spec n 1); [lia|]. rewrite S; cbn [negb]; rewrite Bool.andb_false_r.
  rewrite (loop_asked (output_class discrete k) (small_support v) l vs); [| |exact F].
  - destruct vs as [|a [|b vs]]; reflexivity.
  - intros. apply asked; auto. now apply class_rv.
Qed.

Theorem accepts_log_lik : forall s d n ok (k v : obj V), In (s, MLogLik) documented ->
  check_data pl (ADict d) = Ret tt -> (1 <= n)%Z -> chosen d ok k v -> is_rv k ->
  evaluate pl discrete small_support (MStr s) (ADict d) (Some n) ok = Single EvLogLik.
Proof.
  intros s d n ok k v I C Hn Ch R. destruct (chosen_spec _ _ _ _ C Ch) as (E1 & E2 & _). unfold evaluate. cbn [metrics_list]. rewrite C, E1, E2.
  destruct (Z.ltb_spec n 1); [lia|].
  assert (U : supervised [EPlain (EStr s)] = false).
  { unfold documented in I. cbn [In] in I.
    repeat match type of I with _ \/ _ => destruct I as [I|I]; [first [discriminate I|injection I as <-; reflexivity]|] end. contradiction. }
  rewrite U. cbn [andb]. rewrite (loop_asked _ _ _ [EvLogLik]); [reflexivity| |].
  - intros. apply asked; auto. now apply class_rv.
  - constructor; auto. now constructor.
Qed.

Theorem undocumented_names : forall s d n ok (k v : obj V), In s undocumented ->
  check_data pl (ADict d) = Ret tt -> (1 <= n)%Z -> chosen d ok k v -> ~ is_python v ->
  evaluate pl discrete small_support (MStr s) (ADict d) (Some n) ok =
  if String.eqb s "accuracy" then Single (EvMetric (if small_support v then FBinaryAccuracy else FSparseCategoricalAccuracy))
  else if String.eqb s "crossentropy" then Single (EvMetric (if small_support v then FBinaryCrossentropy else FSparseCategoricalCrossentropy))
  else if String.eqb s "multinomial_accuracy" then Single (EvMetric FMultinomialAccuracy)
  else match k with ORV i _ _ => if discrete i then Single (EvMetric FKlDivergence) else Raise UnboundLocalError | _ => Raise UnboundLocalError end.
Proof.
  intros s d n ok k v I C Hn Ch S. shape_of S. destruct (chosen_spec _ _ _ _ C Ch) as (E1 & E2 & _). unfold evaluate. cbn [metrics_list]. rewrite C, E1, E2.
  destruct (Z.ltb_spec n 1); [lia|]. rewrite S; cbn [negb]; rewrite Bool.andb_false_r.
  cbn [In undocumented] in I. destruct I as [<-|[<-|[<-|[<-|[]]]]]; cbn [evaluate_loop evaluate_one]; unfold evaluate_plain, output_class;
    destruct (small_support v), k; try destruct (discrete _); reflexivity.
Qed.

(** ** Everything else raises *)

Lemma loop_values : forall out b l vs, evaluate_loop out b l = inl vs -> Forall2 (fun e v => evaluate_one out b e = inl v) l vs.
Proof.
  intros out b l. induction l as [|e l IH]; intros vs H; cbn in H.
  - injection H as <-. constructor.
  - destruct (evaluate_one out b e) eqn:E; [|discriminate]. destruct (evaluate_loop out b l) eqn:E'; [|discriminate].
    injection H as <-. constructor; auto.
Qed.

Lemma one_recognised : forall out b e v, evaluate_one out b e = inl v -> recognised e.
Proof.
  intros out b e v H.
  assert (P : forall p ps, evaluate_plain out b p ps = inl v -> (exists s, p = EStr s /\ (In s (map fst documented) \/ In s undocumented)) \/ exists f, p = ECall f).
  { intros p ps E. destruct p as [s|f|]; cbn in E; [left|right; eauto|discriminate]. exists s. split; auto.
    apply (dispatch_known b). intro D. rewrite D in E. discriminate. }
  destruct e as [p|p ps|]; cbn in H; [exists p|exists p|discriminate].
  - split; [now left|eapply P; eauto].
  - split; [right; destruct ps as [kw|]; [exists kw; auto|exists []; auto]|eapply P; eauto].
Qed.

Theorem rejects : forall metrics data n ok vs, values_of (evaluate pl discrete small_support metrics data n ok) = Some vs ->
  exists l d k v m, metrics_list metrics = Some l /\ data = ADict d /\ check_data pl data = Ret tt /\ n = Some m /\
    choose_output d ok = inl k /\ data_get d k = Some v /\
    evaluate pl discrete small_support metrics data n ok = packed vs /\ length vs = length l /\
    Forall recognised l /\ Forall2 (fun e x => evaluate_one (output_class discrete k) (small_support v) e = inl x) l vs.
Proof.
  intros metrics data n ok vs. unfold evaluate. destruct (metrics_list metrics) as [l|]; [|discriminate].
  destruct (check_data pl data) as [[]|] eqn:C; [|discriminate]. destruct data as [d|]; [|discriminate].
  destruct n as [m|]; [|discriminate]. destruct (choose_output d ok) as [k|] eqn:E1; [|discriminate].
  destruct (data_get d k) as [v|] eqn:E2; [|discriminate]. destruct (Z.ltb m 1); [discriminate|].
  destruct (supervised l && negb (has_shape v)); [discriminate|].
  destruct (evaluate_loop (output_class discrete k) (small_support v) l) as [es|] eqn:E3; [|discriminate].
  intro H. assert (es = vs) as <-. { destruct es as [|a [|b es]]; cbn in H; injection H; auto. }
  exists l, d, k, v, m. do 6 (split; [now auto|]). split; [|split; [|split]].
  - destruct es as [|a [|b es]]; reflexivity.
  - apply loop_values in E3. clear - E3. induction E3; simpl; auto.
  - apply loop_values in E3. clear - E3. induction E3; constructor; auto. eapply one_recognised; eauto.
  - now apply loop_values.
Qed.

Theorem unknown_name : forall s before after b d n ok (k v : obj V), ~ In s (map fst documented) -> ~ In s undocumented ->
  evaluate_loop (output_class discrete k) (small_support v) before = inl b ->
  check_data pl (ADict d) = Ret tt -> (1 <= n)%Z -> chosen d ok k v -> ~ is_python v ->
  evaluate pl discrete small_support (MList (before ++ EPlain (EStr s) :: after)%list) (ADict d) (Some n) ok = Raise NotImplementedError.
Proof.
  intros s before after b d n ok k v N1 N2 B C Hn Ch S. shape_of S. destruct (chosen_spec _ _ _ _ C Ch) as (E1 & E2 & _).
  unfold evaluate. cbn [metrics_list]. rewrite C, E1, E2. destruct (Z.ltb_spec n 1); [lia|]. rewrite S; cbn [negb]; rewrite Bool.andb_false_r.
  assert (L : evaluate_loop (output_class discrete k) (small_support v) (before ++ EPlain (EStr s) :: after)%list = inr NotImplementedError).
  { revert b B. induction before as [|e before IH]; intros b B; cbn.
    - destruct (dispatch_name (resolve (small_support v) s)) eqn:D; auto; exfalso; destruct (dispatch_known (small_support v) s); auto; congruence.
    - cbn in B. destruct (evaluate_one _ _ e); [|discriminate]. destruct (evaluate_loop _ _ before) eqn:E; [|discriminate]. rewrite (IH _ eq_refl). reflexivity. }
  rewrite L. reflexivity.
Qed.

Theorem no_output : forall metrics l d n, metrics_list metrics = Some l -> check_data pl (ADict d) = Ret tt -> 
  (forall k v, ~ only_output d k v) -> evaluate pl discrete small_support metrics (ADict d) (Some n) None = Raise KeyError.
Proof.
  intros metrics l d n Hl C H. unfold evaluate. rewrite Hl, C. cbn [choose_output].
  destruct (filter (fun kv => negb (is_placeholder (fst kv))) d) as [|[k v] [|x f]] eqn:E; auto.
  exfalso. apply (H k v). clear - E. revert E. induction d as [|[k' v'] d IH]; intro E; cbn in E; [discriminate|].
  destruct (is_placeholder k') eqn:P; cbn in E.
  - destruct (IH E) as (b & a & -> & K & Q). exists ((k', v') :: b), a. split; auto. split; auto. intros kv [<-|I]; auto.
  - injection E as -> -> E. exists [], d. split; auto. split; auto. cbn. intros kv I.
    destruct (is_placeholder (fst kv)) eqn:Pk; auto. exfalso.
    assert (X : In kv (filter (fun kv => negb (is_placeholder (fst kv))) d)) by (apply filter_In; split; auto; now rewrite Pk). rewrite E in X. contradiction.
Qed.

(** ** Where the documentation is not met *)

Theorem tuple_raises : forall e data n ok, evaluate pl discrete small_support (MTuple e) data n ok = Raise TypeError.
Proof. reflexivity. Qed.

Theorem tensor_output_raises : forall metrics l d n i s t, metrics_list metrics = Some l -> check_data pl (ADict d) = Ret tt ->
  evaluate pl discrete small_support metrics (ADict d) (Some n) (Some (OTensor i s t)) = Raise TypeError.
Proof. intros metrics l d n i s t Hl C. unfold evaluate. rewrite Hl, C. reflexivity. Qed.

Theorem default_tensor_output : forall l vs d n k v, Forall2 asks l vs -> ~ In EvLogLik vs -> check_data pl (ADict d) = Ret tt -> (1 <= n)%Z ->
  only_output d k v -> ~ is_rv k -> ~ is_python v -> evaluate pl discrete small_support (MList l) (ADict d) (Some n) None = packed vs.
Proof.
  intros l vs d n k v F NL C Hn O NR S. shape_of S. destruct (choose_default d k v C O) as (E1 & E2 & [R|(i & s & t & ->)]); [contradiction|].
  unfold evaluate. cbn [metrics_list]. rewrite C, E1, E2. destruct (Z.ltb_spec n 1); [lia|]. rewrite S; cbn [negb]; rewrite Bool.andb_false_r. cbn [output_class].
  rewrite (loop_asked _ _ _ vs); [| |exact F].
  - destruct vs as [|a [|b vs]]; reflexivity.
  - intros e x I A. apply asked_tensor; auto. intros ->. contradiction.
Qed.

Theorem python_value : forall metrics l d n ok (k v : obj V), metrics_list metrics = Some l -> supervised l = true -> check_data pl (ADict d) = Ret tt -> (1 <= n)%Z -> chosen d ok k v ->
  is_python v -> evaluate pl discrete small_support metrics (ADict d) (Some n) ok = Raise AttributeError.
Proof.
  intros metrics l d n ok k v Hl U C Hn Ch S. shape_of S. destruct (chosen_spec _ _ _ _ C Ch) as (E1 & E2 & _).
  unfold evaluate. rewrite Hl, C, E1, E2. destruct (Z.ltb_spec n 1); [lia|]. now rewrite U, S.
Qed.

(** A misspelt key of the params is ignored. *)
Theorem stray_param : forall s f x val d n ok (k v : obj V), In (s, MAvg f) documented -> x <> "average" ->
  check_data pl (ADict d) = Ret tt -> (1 <= n)%Z -> chosen d ok k v -> ~ is_python v ->
  evaluate pl discrete small_support (MList [ETuple (EStr s) (PDict [(x, val)])]) (ADict d) (Some n) ok = Single (EvAveraged f AMacro).
Proof.
  intros s f x val d n ok k v I N C Hn Ch S. shape_of S. destruct (chosen_spec _ _ _ _ C Ch) as (E1 & E2 & _).
  unfold evaluate. cbn [metrics_list]. rewrite C, E1, E2. destruct (Z.ltb_spec n 1); [lia|]. rewrite S; cbn [negb]; rewrite Bool.andb_false_r.
  destruct (documented_dispatch s _ (small_support v) I) as [D _]. cbn. rewrite D. cbn. apply String.eqb_neq in N. rewrite N. reflexivity.
Qed.

Theorem bad_average : forall s f val d n ok (k v : obj V), In (s, MAvg f) documented -> val <> VNone -> val <> VStr "macro" -> val <> VStr "micro" ->
  check_data pl (ADict d) = Ret tt -> (1 <= n)%Z -> chosen d ok k v -> ~ is_python v ->
  evaluate pl discrete small_support (MList [ETuple (EStr s) (PDict [("average", val)])]) (ADict d) (Some n) ok = Raise NameError.
Proof.
  intros s f val d n ok k v I N1 N2 N3 C Hn Ch S. shape_of S. destruct (chosen_spec _ _ _ _ C Ch) as (E1 & E2 & _).
  unfold evaluate. cbn [metrics_list]. rewrite C, E1, E2. destruct (Z.ltb_spec n 1); [lia|]. rewrite S; cbn [negb]; rewrite Bool.andb_false_r.
  destruct (documented_dispatch s _ (small_support v) I) as [D _]. cbn. rewrite D. cbn.
  destruct val as [|x|]; cbn; auto; [congruence|].
  destruct (String.eqb_spec x "macro"); [congruence|]. destruct (String.eqb_spec x "micro"); [congruence|]. reflexivity.
Qed.
End Data.
