(** * Proofs for C29. *)
From Coq Require Import Ascii String DecimalString DecimalNat Decimal DecimalFacts List Arith Bool Lia FinFun.
From Verif Require Import Gibbs ResetOps ResetSpec.
Import ListNotations.

(** ** Decimal numbers *)
Lemma prefix_app : forall a b, prefix a (a ++ b)%string = true.
Proof. induction a as [|c a IH]; intros b; simpl; [destruct b; auto|]. destruct (ascii_dec c c); [auto|congruence]. Qed.

Lemma prefix_common : forall a b c, prefix (a ++ b)%string (a ++ c)%string = prefix b c.
Proof. induction a as [|x a IH]; intros b c; simpl; auto. destruct (ascii_dec x x); [auto|congruence]. Qed.

Lemma prefix_trans_app : forall a b s, prefix (a ++ b)%string s = true -> prefix a s = true.
Proof.
  induction a as [|x a IH]; intros b s H; simpl in *; [destruct s; auto|]. destruct s as [|y s]; [cbn in H; discriminate|].
  cbn in *. destruct (ascii_dec x y); [eauto|discriminate].
Qed.

Definition digits := NilEmpty.string_of_uint.

Lemma str_digits : forall n, exists u, str n = digits u /\ Nat.of_uint u = n.
Proof.
  intros n. unfold str, NilZero.string_of_uint. destruct (Nat.to_uint n) eqn:E; 
    [exists (D0 Nil); split; auto; rewrite <- (Unsigned.of_to n), E; auto|..]; eexists; split; try reflexivity; rewrite <- E; apply Unsigned.of_to.
Qed.

Lemma acc_app_ge : forall w a, a <= Nat.of_uint_acc w a.
Proof.
  induction w; intros a; simpl; try lia; rewrite ?Nat.tail_mul_spec; 
  (eapply Nat.le_trans; [|apply IHw]; rewrite ?Nat.tail_mul_spec; simpl; lia).
Qed.

(** A number whose digits are a prefix is not greater. *)
Lemma digits_prefix : forall u v r a, prefix (digits u) (digits v ++ String "/" r)%string = true ->
  Nat.of_uint_acc u a <= Nat.of_uint_acc v a.
Proof.
  induction u; intros v r a H; [apply acc_app_ge|..]; destruct v; simpl in H; try discriminate;
    simpl; eauto.
Qed.

Lemma str_prefix : forall i j r, prefix (str i) (str j ++ String "/" r)%string = true -> i <= j.
Proof.
  intros i j r. destruct (str_digits i) as (u & -> & Hu), (str_digits j) as (v & -> & Hv). intros H.
  apply (digits_prefix u v r 0) in H. unfold Nat.of_uint in *. lia.
Qed.

Lemma str_inj : forall i j, str i = str j -> i = j.
Proof.
  assert (G : forall i j, str i = str j -> i <= j). { intros i j E. apply (str_prefix i j ""). rewrite E. apply prefix_app. }
  intros i j E. apply Nat.le_antisymm; auto.
Qed.

(** The name of the scope number [k]. *)
Definition opt_scope (k : nat) : string := match k with O => "optimizer" | S _ => "optimizer_" ++ str k end.

Lemma opt_inj : forall i j, opt_scope i = opt_scope j -> i = j.
Proof.
  intros [|i] [|j] E; cbn [opt_scope] in E; auto; try discriminate.
  assert (H : str (S i) = str (S j)).
  { change ("optimizer_" ++ str (S i) = "optimizer_" ++ str (S j))%string in E. simpl in E. 
    repeat match goal with H : String _ _ = String _ _ |- _ => injection H; clear H; intros H end. exact E. }
  apply str_inj in H. auto.
Qed.

Lemma opt_prefix : forall i j r, 0 < i -> prefix (opt_scope i) (opt_scope j ++ String "/" r)%string = true -> i <= j.
Proof.
  intros [|i] j r Hi H; [lia|]. destruct j as [|j]; cbn [opt_scope] in H.
  - simpl in H. discriminate.
  - assert (E : forall a b c, ((a ++ b) ++ c = a ++ (b ++ c))%string).
    { induction a; intros; simpl; auto. rewrite IHa; auto. }
    rewrite E, prefix_common in H. eapply str_prefix; eauto.
Qed.

(** ** Which name is next *)
Lemma next_scope_spec : forall fuel scopes i k, 0 < i -> i <= k -> (forall j, In (opt_scope j) scopes <-> j < k) -> k - i <= fuel ->
  next_scope fuel scopes "optimizer" i = opt_scope k.
Proof.
  induction fuel as [|fuel IH]; intros scopes i k Hi Hk Hs Hf; cbn [next_scope].
  - assert (i = k) by lia. subst. destruct k; [lia|]. auto.
  - change ("optimizer" ++ "_" ++ str i)%string with ("optimizer_" ++ str i)%string.
    assert (E : ("optimizer_" ++ str i)%string = opt_scope i) by (destruct i; [lia|auto]). rewrite E.
    destruct (in_dec string_dec (opt_scope i) scopes) as [H|H].
    + apply Hs in H. apply IH; auto; lia.
    + assert (~ i < k) by (intros X; apply H, Hs; auto). assert (i = k) by lia. subst; auto.
Qed.

Lemma seq_in_length : forall k scopes, (forall j, j < k -> In (opt_scope j) scopes) -> k <= length scopes.
Proof.
  intros k scopes H. rewrite <- (seq_length k 0), <- (map_length opt_scope). apply NoDup_incl_length.
  - apply FinFun.Injective_map_NoDup; [|apply seq_NoDup]. intros i j. apply opt_inj.
  - intros x Hx. apply in_map_iff in Hx. destruct Hx as (j & <- & Hj). apply in_seq in Hj. apply H. lia.
Qed.

Lemma unique_scope_spec : forall scopes k, (forall j, In (opt_scope j) scopes <-> j < k) ->
  unique_scope scopes "optimizer" = opt_scope k.
Proof.
  intros scopes k H. unfold unique_scope. destruct (in_dec string_dec "optimizer"%string scopes) as [Hin|Hin].
  - change "optimizer"%string with (opt_scope 0) in Hin. apply H in Hin. apply next_scope_spec; auto; try lia.
    pose proof (seq_in_length k scopes (fun j Hj => proj2 (H j) Hj)). lia.
  - change "optimizer"%string with (opt_scope 0) in Hin. destruct k; auto. exfalso. apply Hin, H. lia.
Qed.

Section P.
Context {V : Type} (zero : V).
Notation graph := (graph V).

Lemma collection_spec : forall (g : graph) scope v, In v (collection g scope) <->
  exists x, nth_error (g_vars g) v = Some x /\ prefix scope (v_name x) = true.
Proof.
  intros g scope v. unfold collection. rewrite in_map_iff.
  assert (G : forall (l : list (variable V)) s i x, In (i, x) (combine (seq s (length l)) l) <-> s <= i /\ nth_error l (i - s) = Some x).
  { induction l as [|a l IH]; intros s i x; simpl.
    - split; [tauto|]. intros [_ H]. destruct (i - s); discriminate.
    - rewrite IH. split.
      + intros [E|[H1 H2]]; [inversion E; subst; rewrite Nat.sub_diag; auto|]. split; [lia|].
        replace (i - s) with (S (i - S s)) by lia. auto.
      + intros [H1 H2]. destruct (Nat.eq_dec i s) as [->|N]; [rewrite Nat.sub_diag in H2; inversion H2; auto|].
        right. replace (i - s) with (S (i - S s)) in H2 by lia. split; [lia|auto]. }
  split.
  - intros ([i x] & E & H). simpl in E. subst i. apply filter_In in H. destruct H as [H P]. apply G in H.
    rewrite Nat.sub_0_r in H. exists x. simpl in P. tauto.
  - intros (x & H & P). exists (v, x). split; auto. apply filter_In. split; auto. apply G. rewrite Nat.sub_0_r. split; [lia|auto].
Qed.

(** The optimizers' scopes are numbered from 0 to k-1, and names that start with
    "optimizer" are in one of them. *)
Definition numbered (g : graph) (k : nat) : Prop :=
  (forall j, In (opt_scope j) (g_scopes g) <-> j < k) /\
  forall x, In x (g_vars g) -> prefix "optimizer" (v_name x) = true ->
    exists j r, j < k /\ v_name x = (opt_scope j ++ String "/" r)%string.

Lemma add_plain : forall g k vs, numbered g k -> plain (map fst vs) -> numbered (fst (add_vars g vs)) k.
Proof.
  intros g k vs [H1 H2] Hp. split; auto. simpl. intros x Hx P. apply in_app_or in Hx. destruct Hx as [Hx|Hx]; auto.
  apply in_map_iff in Hx. destruct Hx as (nv & <- & Hin). simpl in P. rewrite Hp in P; [discriminate|]. apply in_map; auto.
Qed.

Lemma opt_starts : forall k, exists r, opt_scope k = ("optimizer" ++ r)%string.
Proof. intros [|k]; [exists ""%string; auto|]. exists ("_" ++ str (S k))%string. auto. Qed.

Lemma app_assoc_s : forall a b c, ((a ++ b) ++ c = a ++ (b ++ c))%string.
Proof. induction a; intros; simpl; auto. rewrite IHa; auto. Qed.

Lemma captured : forall (g : graph) k v, numbered g k -> ~ In v (collection g (opt_scope k)).
Proof.
  intros g k v [H1 H2] H. apply collection_spec in H. destruct H as (x & E & P).
  destruct (opt_starts k) as (r0 & E0). assert (P0 : prefix "optimizer" (v_name x) = true).
  { rewrite E0 in P. eapply prefix_trans_app; eauto. }
  destruct (H2 x) as (j & r & Hj & En); [eapply nth_error_In; eauto|auto|]. rewrite En in P.
  destruct k as [|k]; [lia|]. apply opt_prefix in P; lia.
Qed.

Lemma collection_app : forall (g : graph) vs scopes scope v, In v (collection (mkgraph (g_vars g ++ vs) scopes) scope) ->
  In v (collection g scope) \/ In v (seq (length (g_vars g)) (length vs)).
Proof.
  intros g vs scopes scope v H. apply collection_spec in H. destruct H as (x & E & P). simpl in E.
  destruct (Nat.lt_ge_cases v (length (g_vars g))) as [Hv|Hv].
  - left. apply collection_spec. exists x. rewrite nth_error_app1 in E by auto. auto.
  - right. apply in_seq. split; auto. assert (nth_error (g_vars g ++ vs) v <> None) as N by congruence.
    apply nth_error_Some in N. rewrite app_length in N. auto.
Qed.

Lemma initialize_numbered : forall g k t a, numbered g k -> plain (step_names (Initialize t a)) ->
  exists k', numbered (fst (initialize zero g "" t a)) k' /\
    incl (i_reset (snd (initialize zero g "" t a))) (i_own (snd (initialize zero g "" t a))).
Proof.
  intros g k t a Hn Hp. destruct a as [n further|gs slots|gs slots]; simpl in Hp.
  - exists k. unfold initialize. cbn [add_vars]. split.
    + assert (A : numbered (fst (add_vars g further)) k) by (apply add_plain; auto; intros x Hx; apply Hp; simpl; auto).
      assert (B : numbered (fst (add_vars (fst (add_vars g further)) [(t, zero)])) k).
      { apply add_plain; auto. intros x [<-|[]]. apply Hp. simpl; auto. }
      assert (C : numbered (fst (add_vars (fst (add_vars (fst (add_vars g further)) [(t, zero)])) [(n, zero)])) k).
      { apply add_plain; auto. intros x [<-|[]]. apply Hp. simpl; auto. }
      exact C.
    + simpl. intros v Hv. apply in_or_app. right. auto.
  - set (g1 := fst (add_vars g [(t, zero)])).
    set (g2 := fst (add_vars g1 (match gs with Some s => [(s, zero)] | None => [] end))).
    assert (A : numbered g1 k) by (apply add_plain; auto; intros x [<-|[]]; apply Hp; simpl; auto).
    assert (B : numbered g2 k).
    { apply add_plain; auto. intros x Hx. apply Hp. simpl. destruct gs; simpl in *; tauto. }
    assert (Es : unique_scope (g_scopes g2) ("" ++ "optimizer") = opt_scope k) by (apply unique_scope_spec; apply B).
    assert (Ei : initialize zero g "" t (Variational gs slots) =
      let '(g3, own3) := add_vars (mkgraph (g_vars g2) (opt_scope k :: g_scopes g2))
                           (map (fun nv => ((opt_scope k ++ "/" ++ fst nv)%string, snd nv)) slots) in
      (g3, mkinf (snd (add_vars g [(t, zero)]) ++ snd (add_vars g1 (match gs with Some s => [(s, zero)] | None => [] end)) ++ own3)
          (snd (add_vars g [(t, zero)]) ++ collection g3 (opt_scope k)))).
    { rewrite <- Es. reflexivity. }
    rewrite Ei. cbn [add_vars fst snd]. exists (S k). split.
    + destruct B as [B1 B2]. split.
      * intros j. cbn [g_scopes In]. rewrite B1. split; [intros [E|E]; [apply opt_inj in E|]; lia|].
        intros Hj. destruct (Nat.eq_dec k j) as [->|]; auto. right. lia.
      * cbn [g_vars]. intros x Hx P. apply in_app_or in Hx. destruct Hx as [Hx|Hx].
        -- destruct (B2 x Hx P) as (j & r & Hj & E). exists j, r. split; auto.
        -- apply in_map_iff in Hx. destruct Hx as (nv & <- & Hin). apply in_map_iff in Hin. destruct Hin as (nv' & <- & _).
           exists k, (fst nv'). split; auto.
    + intros v Hv. cbn [i_reset i_own] in *. apply in_app_or in Hv. destruct Hv as [Hv|Hv]; [apply in_or_app; auto|].
      apply in_or_app. right. apply in_or_app. right. apply collection_app in Hv. destruct Hv as [Hv|Hv].
      * exfalso. apply (captured g2 k v B). exact Hv.
      * rewrite map_length in Hv. exact Hv.
  - exists k. unfold initialize. cbn [add_vars]. split.
    + assert (A : numbered (fst (add_vars g [(t, zero)])) k) by (apply add_plain; auto; intros x [<-|[]]; apply Hp; simpl; auto).
      assert (B : numbered (fst (add_vars (fst (add_vars g [(t, zero)])) (map (fun s => (s, zero)) gs))) k).
      { apply add_plain; auto. intros x Hx. apply Hp. rewrite map_map in Hx. simpl in Hx. rewrite map_id in Hx.
        right. apply in_or_app. auto. }
      assert (C : numbered (fst (add_vars (fst (add_vars (fst (add_vars g [(t, zero)])) (map (fun s => (s, zero)) gs))) slots)) k).
      { apply add_plain; auto. intros x Hx. apply Hp. right. apply in_or_app. auto. }
      exact C.
    + cbn [i_reset i_own snd]. intros v Hv. apply in_or_app. auto.
Qed.

Lemma seq_parts : forall s a b c s1 s2 n, s1 = s + a -> s2 = s + a + b -> n = a + b + c ->
  seq s a ++ seq s1 b ++ seq s2 c = seq s n.
Proof. intros s a b c s1 s2 n -> -> ->. rewrite (seq_app (a + b) c), (seq_app a b), <- app_assoc, Nat.add_assoc. auto. Qed.

Lemma initialize_own : forall (g : graph) outer t a, exists vs,
  g_vars (fst (initialize zero g outer t a)) = g_vars g ++ vs /\
  i_own (snd (initialize zero g outer t a)) = seq (length (g_vars g)) (length vs).
Proof.
  intros g outer t a. destruct a as [n further|gs slots|gs slots]; unfold initialize; cbn [add_vars fst snd g_vars i_own g_scopes].
  - exists (map (fun nv => mkv (fst nv) (snd nv)) further ++ [mkv t zero] ++ [mkv n zero]). rewrite <- !app_assoc. split; auto.
    apply seq_parts; rewrite ?app_length, ?map_length; cbn [length]; lia.
  - match goal with |- exists vs, ((_ ++ ?a) ++ ?b) ++ ?c = _ /\ _ => exists (a ++ b ++ c) end.
    split; [rewrite <- !app_assoc; auto|]. apply seq_parts; rewrite ?app_length, ?map_length; cbn [length]; lia.
  - match goal with |- exists vs, ((_ ++ ?a) ++ ?b) ++ ?c = _ /\ _ => exists (a ++ b ++ c) end.
    split; [rewrite <- !app_assoc; auto|]. apply seq_parts; rewrite ?app_length, ?map_length; cbn [length]; lia.
Qed.

Lemma build_spec : forall steps g k, numbered g k -> (forall s, In s steps -> plain (step_names s)) ->
  (exists vs, g_vars (fst (build zero g steps)) = g_vars g ++ vs) /\
  (forall i, In i (snd (build zero g steps)) -> incl (i_reset i) (i_own i)) /\
  (forall i v, In i (snd (build zero g steps)) -> In v (i_own i) -> length (g_vars g) <= v) /\
  (forall a b i j v, nth_error (snd (build zero g steps)) a = Some i -> nth_error (snd (build zero g steps)) b = Some j ->
     In v (i_own i) -> In v (i_own j) -> a = b).
Proof.
  induction steps as [|s steps IH]; intros g k Hn Hp.
  - simpl. split; [exists []; rewrite app_nil_r; auto|]. split; [tauto|]. split; [tauto|]. intros [|a] b i j v E; discriminate.
  - destruct s as [vs|t a].
    + cbn [build]. destruct (IH (fst (add_vars g vs)) k) as (A & B & C & D).
      { apply add_plain; auto. apply (Hp (Declare vs)). simpl; auto. } { intros; apply Hp; simpl; auto. }
      split; [destruct A as (w & A); rewrite A; simpl; rewrite <- app_assoc; eauto|]. split; auto. split; auto.
      intros i v Hi Hv. specialize (C i v Hi Hv). simpl in C. rewrite app_length in C. lia.
    + cbn [build]. destruct (initialize_numbered g k t a Hn) as (k' & N & I). { apply (Hp (Initialize t a)). simpl; auto. }
      destruct (initialize_own g "" t a) as (ws & W1 & W2).
      destruct (initialize zero g "" t a) as [g1 i1]. cbn [fst snd] in *.
      destruct (IH g1 k' N) as (A & B & C & D); [intros; apply Hp; simpl; auto|].
      destruct (build zero g1 steps) as [g2 is]. cbn [fst snd] in *.
      assert (L : length (g_vars g1) = length (g_vars g) + length ws) by (rewrite W1, app_length; auto).
      assert (O1 : forall v, In v (i_own i1) -> length (g_vars g) <= v < length (g_vars g1)).
      { intros v Hv. rewrite W2 in Hv. apply in_seq in Hv. lia. }
      split; [destruct A as (w & A); rewrite A, W1, <- app_assoc; eauto|].
      split; [intros i [<-|Hi]; auto|]. split.
      * intros i v [<-|Hi] Hv; [apply O1 in Hv; lia|]. specialize (C i v Hi Hv). lia.
      * intros [|x] [|y] i j v Ei Ej Hi Hj; simpl in *; auto.
        -- inversion Ei; subst. apply nth_error_In in Ej. specialize (C j v Ej Hj). apply O1 in Hi. lia.
        -- inversion Ej; subst. apply nth_error_In in Ei. specialize (C i v Ei Hi). apply O1 in Hj. lia.
        -- f_equal. eapply D; eauto.
Qed.

(** ** Theorems *)
Definition empty : graph := mkgraph [] [].
Lemma empty_numbered : numbered empty 0.
Proof. split; simpl; [intros; split; [tauto|lia]|tauto]. Qed.

Lemma reset_isolated : forall steps, (forall s, In s steps -> plain (step_names s)) ->
  let '(g, is) := build zero (mkgraph [] []) steps in
  forall a b i j values v, nth_error is a = Some i -> nth_error is b = Some j -> a <> b -> In v (i_own j) ->
    run_reset g i values v = values v.
Proof.
  intros steps Hp. destruct (build_spec steps empty 0 empty_numbered Hp) as (_ & B & _ & D). unfold empty in *.
  destruct (build zero (mkgraph [] []) steps) as [g is]. cbn [fst snd] in *. intros a b i j values v Ei Ej Hne Hv.
  unfold run_reset. destruct (in_dec Nat.eq_dec v (i_reset i)) as [H|H]; auto.
  exfalso. apply Hne. apply (D a b i j v Ei Ej); auto. apply (B i); auto. eapply nth_error_In; eauto.
Qed.

Lemma reset_value : forall (g g' : graph) i values v x, extends g g' -> nth_error (g_vars g) v = Some x -> In v (i_reset i) ->
  initial_value g' (run_reset g' i values) v.
Proof.
  intros g g' i values v x (vs & E) Hx Hv. assert (Hx' : nth_error (g_vars g') v = Some x).
  { rewrite E, nth_error_app1; auto. apply nth_error_Some. congruence. }
  exists x. split; auto. unfold run_reset. destruct (in_dec Nat.eq_dec v (i_reset i)); [|tauto]. rewrite Hx'. auto.
Qed.

Lemma sampler_reset : forall (g : graph) outer t n g', let '(g1, i) := initialize zero g outer t (Sampler n []) in
  extends g1 g' -> forall values v,
    (In v (i_own i) -> initial_value g' (run_reset g' i values) v) /\
    (~ In v (i_own i) -> run_reset g' i values v = values v).
Proof.
  intros g outer t n g'. cbn [initialize add_vars map length seq app]. rewrite !app_nil_r.
  intros Hx values v. split.
  - intros Hv. cbn [i_own] in Hv.
    assert (E : exists x, nth_error ((g_vars g ++ [mkv t zero]) ++ [mkv n zero]) v = Some x).
    { destruct (nth_error _ v) eqn:E; eauto. apply nth_error_None in E. rewrite !app_length in E. simpl in *.
      rewrite app_length in Hv. simpl in Hv. destruct Hv as [<-|[<-|[]]]; lia. }
    destruct E as (x & E). eapply reset_value; [exact Hx|exact E|]. exact Hv.
  - intros Hv. unfold run_reset. destruct (in_dec _ v _); [|auto]. tauto.
Qed.

Lemma variational_reset : forall (g : graph) outer t gs slots g', let '(g1, i) := initialize zero g outer t (Variational gs slots) in
  extends g1 g' -> forall values,
    initial_value g' (run_reset g' i values) (length (g_vars g)) /\
    forall j, j < length slots ->
      initial_value g' (run_reset g' i values) (length (g_vars g) + (1 + match gs with Some _ => 1 | None => 0 end) + j).
Proof.
  intros g outer t gs slots g'. destruct (initialize zero g outer t (Variational gs slots)) as [g1 i] eqn:E.
  intros Hx values. unfold initialize in E. cbn [add_vars fst snd g_scopes g_vars] in E.
  set (g2v := (g_vars g ++ _) ++ _) in E. set (scope := unique_scope _ _) in E. injection E as E1 E2.
  assert (L2 : length g2v = length (g_vars g) + (1 + match gs with Some _ => 1 | None => 0 end)).
  { unfold g2v. rewrite !app_length, !map_length. destruct gs; simpl; lia. }
  split.
  - apply (reset_value g1 g' i values _ (mkv t zero) Hx).
    + rewrite <- E1. cbn [g_vars]. unfold g2v. rewrite <- app_assoc, <- app_assoc, nth_error_app2 by lia.
      rewrite Nat.sub_diag. auto.
    + rewrite <- E2. cbn [i_reset]. left. auto.
  - intros j Hj. rewrite <- L2.
    destruct (nth_error slots j) as [[n x]|] eqn:En; [|apply nth_error_None in En; lia].
    assert (Hn : nth_error (g_vars g1) (length g2v + j) = Some (mkv (scope ++ "/" ++ n) x)).
    { rewrite <- E1. cbn [g_vars]. rewrite nth_error_app2 by lia. replace (length g2v + j - length g2v) with j by lia.
      rewrite nth_error_map, nth_error_map, En. auto. }
    apply (reset_value g1 g' i values _ _ Hx Hn).
    rewrite <- E2. cbn [i_reset]. right. rewrite ?E1. apply collection_spec.
    eexists. split; [exact Hn|]. cbn [v_name]. apply prefix_app.
Qed.

Lemma velocity_refuted : forall (g : graph) outer t n name x further,
  let '(g1, i) := initialize zero g outer t (Sampler n ((name, x) :: further)) in
  In (length (g_vars g)) (i_own i) /\
  forall y, y <> x -> let values := fun _ => y in
    run_reset g1 i values (length (g_vars g)) = y /\ ~ initial_value g1 (run_reset g1 i values) (length (g_vars g)).
Proof.
  intros g outer t n name x further. cbn [initialize add_vars map length seq app fst snd g_vars].
  split; [left; auto|]. intros y Hy. cbv zeta. set (values := fun _ : nat => y).
  match goal with |- run_reset ?g ?i _ _ = _ /\ _ => set (g1 := g); set (i1 := i) end.
  assert (R : run_reset g1 i1 values (length (g_vars g)) = y).
  { unfold run_reset. destruct (in_dec _ _ _) as [H|H]; [|auto]. exfalso. unfold i1 in H. cbn [i_reset] in H.
    rewrite !app_length in H. simpl in H. destruct H as [H|[H|[]]]; lia. }
  split; auto. intros (w & Hw & E). rewrite R in E. unfold g1 in Hw. cbn [g_vars] in Hw.
  rewrite <- !app_assoc, nth_error_app2, Nat.sub_diag in Hw by lia. simpl in Hw. injection Hw as <-. simpl in E. auto.
Qed.

Lemma global_step_refuted : forall (g : graph) t s slots, prefix "optimizer" s = false ->
  let '(g1, i) := initialize zero g "" t (Variational (Some s) slots) in
  In (S (length (g_vars g))) (i_own i) /\
  forall y, y <> zero -> let values := fun _ => y in
    run_reset g1 i values (S (length (g_vars g))) = y /\ ~ initial_value g1 (run_reset g1 i values) (S (length (g_vars g))).
Proof.
  intros g t s slots Hs. destruct (initialize zero g "" t (Variational (Some s) slots)) as [g1 i] eqn:E.
  unfold initialize in E. cbn [add_vars fst snd g_scopes g_vars] in E. set (scope := unique_scope _ _) in E.
  injection E as E1 E2. 
  assert (Hn : nth_error (g_vars g1) (S (length (g_vars g))) = Some (mkv s zero)).
  { rewrite <- E1. cbn [g_vars]. rewrite <- !app_assoc, nth_error_app2 by lia. replace (S (length (g_vars g)) - length (g_vars g)) with 1 by lia. auto. }
  assert (Hr : ~ In (S (length (g_vars g))) (i_reset i)).
  { rewrite <- E2. cbn [i_reset]. rewrite E1. intros [H|H]; [lia|]. apply collection_spec in H. destruct H as (x & Hx & Hp).
    rewrite Hn in Hx. injection Hx as <-. cbn [v_name] in Hp. enough (prefix "optimizer" s = true) by congruence.
    unfold scope, unique_scope in Hp. destruct (in_dec _ _ _) as [Hi|Hi]; [|exact Hp].
    clear - Hp. cbn [String.append] in Hp. revert Hp. generalize 1. induction (length (g_scopes g)) as [|f IH]; intros k Hp; cbn [next_scope] in Hp.
    - apply (prefix_trans_app "optimizer" _ s Hp).
    - destruct (in_dec _ _ _); eauto. apply (prefix_trans_app "optimizer" _ s Hp). }
  split. { rewrite <- E2. cbn [i_own]. right. left. rewrite app_length. simpl. lia. }
  intros y Hy values. assert (R : run_reset g1 i values (S (length (g_vars g))) = y).
  { unfold run_reset. destruct (in_dec _ _ _); [tauto|auto]. }
  split; auto. intros (w & Hw & E). rewrite R in E. rewrite Hn in Hw. injection Hw as <-. auto.
Qed.

Lemma adversarial_refuted : forall (g : graph) outer t steps slots,
  let '(g1, i) := initialize zero g outer t (Adversarial steps slots) in
  forall values v, v <> length (g_vars g) -> run_reset g1 i values v = values v.
Proof.
  intros g outer t steps slots. cbn [initialize add_vars map length seq app fst snd g_vars].
  intros values v Hv. unfold run_reset. cbn [i_reset]. destruct (in_dec _ _ _) as [[H|[]]|H]; [congruence|auto].
Qed.

Lemma captured_refuted : forall (x y : V), y <> x ->
  let '(g1, b) := initialize zero (mkgraph [] []) "optimizer_b/" "optimizer_b/iteration" (Variational None [("beta1_power"%string, x)]) in
  let '(g2, a) := initialize zero g1 "" "iteration" (Variational None [("beta1_power"%string, x)]) in
  exists v, In v (i_own b) /\ ~ In v (i_own a) /\ run_reset g2 a (fun _ => y) v <> y.
Proof.
  intros x y Hy. vm_compute. exists 1. split; auto. split; [intros [H|[H|[]]]; discriminate|]. auto.
Qed.
End P.

Lemma gibbs_start_rows : forall {V} latent dt (self : list (nat * V)) rows rows' d, self <> [] ->
  gibbs_start latent dt self rows d = gibbs_start latent dt self rows' d.
Proof. intros V latent dt [|kv self] rows rows' d H; [congruence|]. reflexivity. Qed.
