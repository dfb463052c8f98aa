(** * Proofs for C72 *)
From Coq Require Import Ascii String List Arith Bool Lia.
From Verif Require Import ResetOps ResetProofs.
From Verif Require Import Graph GraphSpec GraphProofs BayesBallProofs.
From Verif Require Import LogVars LogVarsSpec.
Import ListNotations.

(** ** Unique names *)
Definition names (u : list (string * nat)) : list string := map fst u.
Definition counted (u : list (string * nat)) : Prop := Forall (fun e => 0 < snd e) u.

Lemma in_use_iff : forall u n, in_use u n = true <-> In n (names u).
Proof.
  intros u n. unfold in_use, names. rewrite existsb_exists, in_map_iff. split.
  - intros [e [H1 H2]]. apply String.eqb_eq in H2. exists e. auto.
  - intros [e [H1 H2]]. exists e. split; [exact H2|]. subst. apply String.eqb_refl.
Qed.

Lemma count_zero : forall u n, counted u -> count u n = 0 -> ~ In n (names u).
Proof.
  intros u n C H Hin. unfold names in Hin. apply in_map_iff in Hin. destruct Hin as [e [E He]].
  unfold count in H. destruct (find (fun e => String.eqb (fst e) n) u) as [e'|] eqn:F.
  - apply find_some in F. destruct F as [F _]. unfold counted in C. rewrite Forall_forall in C. specialize (C e' F). lia.
  - apply (find_none _ _ F) in He. subst n. rewrite String.eqb_refl in He. discriminate.
Qed.

Lemma set_names : forall u n c m, In m (names (set_count u n c)) <-> m = n \/ In m (names u).
Proof.
  induction u as [|e u IH]; intros n c m; cbn.
  - intuition.
  - destruct (String.eqb_spec (fst e) n) as [E|E]; cbn.
    + rewrite E. intuition.
    + rewrite IH. intuition.
Qed.
Lemma set_counted : forall u n c, counted u -> 0 < c -> counted (set_count u n c).
Proof.
  induction u as [|e u IH]; intros n c H Hc; cbn; [constructor; [exact Hc|constructor]|].
  inversion H; subst. destruct (String.eqb (fst e) n); constructor; auto. apply IH; assumption.
Qed.

Lemma append_inv : forall a b c : string, (a ++ b = a ++ c)%string -> b = c.
Proof. induction a as [|x a IH]; cbn; intros b c H; [exact H|]. injection H as H. apply IH. exact H. Qed.

Definition cand (base : string) (i : nat) : string := (base ++ "_" ++ str i)%string.
Lemma cand_inj : forall base i j, cand base i = cand base j -> i = j.
Proof. intros base i j H. apply append_inv in H. apply (append_inv "_") in H. apply str_inj. exact H. Qed.

Lemma search_fresh : forall fuel u base i,
  (exists j, i <= j <= i + fuel /\ ~ In (cand base j) (names u)) -> ~ In (search fuel u base i) (names u).
Proof.
  induction fuel as [|f IH]; intros u base i [j [Hj Hn]]; cbn [search].
  - assert (j = i) by lia. subst j. exact Hn.
  - fold (cand base i). destruct (in_use u (cand base i)) eqn:E.
    + apply IH. exists j. split; [|exact Hn]. assert (j <> i); [|lia].
      intros ->. apply Hn. apply in_use_iff. exact E.
    + intros H. apply in_use_iff in H. congruence.
Qed.

Lemma some_free : forall u base i, exists j, i <= j <= i + length u /\ ~ In (cand base j) (names u).
Proof.
  intros u base i.
  assert (D : forall l : list nat, {exists j, In j l /\ ~ In (cand base j) (names u)} + {forall j, In j l -> In (cand base j) (names u)}).
  { induction l as [|a l [IH|IH]].
    - right. intros j [].
    - left. destruct IH as [j [H1 H2]]. exists j. split; [right; exact H1|exact H2].
    - destruct (List.in_dec string_dec (cand base a) (names u)) as [Hi|Hi].
      + right. intros j [<-|Hj]; auto.
      + left. exists a. split; [left; reflexivity|exact Hi]. }
  destruct (D (seq i (S (length u)))) as [[j [H1 H2]]|H].
  - apply in_seq in H1. exists j. split; [lia|exact H2].
  - exfalso.
    assert (L : length (map (cand base) (seq i (S (length u)))) <= length (names u)).
    { apply NoDup_incl_length.
      - apply FinFun.Injective_map_NoDup; [|apply seq_NoDup]. intros a b. apply cand_inj.
      - intros x Hx. apply in_map_iff in Hx. destruct Hx as [j [<- Hj]]. apply H. exact Hj. }
    unfold names in L. rewrite !map_length, seq_length in L. lia.
Qed.

Lemma unique_spec : forall u n u' m, counted u -> unique_name u n = (u', m) ->
  counted u' /\ ~ In m (names u) /\ In m (names u') /\ incl (names u) (names u').
Proof.
  intros u n u' m C H. unfold unique_name in H. cbv zeta in H.
  destruct (count u n) as [|i] eqn:E.
  - injection H as <- <-. split; [apply set_counted; [exact C|lia]|].
    split; [apply count_zero; assumption|]. split; [apply set_names; left; reflexivity|].
    intros x Hx. apply set_names. right. exact Hx.
  - set (u1 := set_count u n (S (S i))) in *. injection H as <- <-.
    assert (C1 : counted u1) by (apply set_counted; [exact C|lia]).
    split; [apply set_counted; [exact C1|lia]|].
    assert (F := search_fresh (length u1) u1 n (S i) (some_free u1 n (S i))).
    split; [intros Hin; apply F; apply set_names; right; exact Hin|].
    split; [apply set_names; left; reflexivity|].
    intros x Hx. apply set_names. right. apply set_names. right. exact Hx.
Qed.

(** ** The invariant *)
(** [kept s s']: [s'] comes after [s]. *)
Record inv (h : list event) (s : gstate) (ks : list string) : Prop := {
  inv_counted : counted (used s);
  inv_tags : forall e, In e (colls s) -> In (s_tag (snd e)) (names (used s));
  inv_same : forall e1 e2, In e1 (colls s) -> In e2 (colls s) -> s_tag (snd e1) = s_tag (snd e2) -> snd e1 = snd e2;
  inv_owned : forall e, In e (colls s) -> s_owner (snd e) <> None -> In (fst e) (names (used s));
  inv_users : forall key,
    map (fun m => (s_owner m, s_what m)) (filter (fun m => match s_owner m with None => true | _ => false end) (merge_all s key))
    = map (fun w => (None, w)) (users h key);
  inv_keys : incl ks (names (used s))
}.

Lemma merge_app : forall u l l' key, merge_all (mkgstate u (l ++ l')) key
  = (merge_all (mkgstate u l) key ++ map snd (filter (fun e => String.eqb (fst e) key) l'))%list.
Proof. intros. unfold merge_all. cbn. rewrite filter_app, map_app. reflexivity. Qed.

Lemma merge_used : forall u u' l key, merge_all (mkgstate u l) key = merge_all (mkgstate u' l) key.
Proof. reflexivity. Qed.

(** An inference adds a summary under its key. *)
Lemma add_own : forall h s ks stack name key o w s',
  inv h s ks -> In key (names (used s)) -> add_summary s stack name [key] (Some o) w = s' ->
  inv h s' ks /\ incl (names (used s)) (names (used s')) /\
  exists tag, colls s' = (colls s ++ [(key, mksum tag (Some o) w)])%list.
Proof.
  intros h s ks stack name key o w s' I Hk E. unfold add_summary in E.
  destruct (unique_name (used s) (scoped stack name)) as [u tag] eqn:Eu.
  destruct (unique_spec _ _ _ _ (inv_counted _ _ _ I) Eu) as [U1 [U2 [U3 U4]]].
  cbn [map] in E. subst s'. cbn [used colls]. split; [|split; [exact U4|exists tag; reflexivity]].
  split; cbn [used colls].
  - exact U1.
  - intros e He. apply in_app_or in He. destruct He as [He|[<-|[]]]; [|exact U3].
    apply U4. exact (inv_tags _ _ _ I e He).
  - intros e1 e2 H1 H2 T. apply in_app_or in H1, H2.
    destruct H1 as [H1|[<-|[]]], H2 as [H2|[<-|[]]]; cbn in *.
    + exact (inv_same _ _ _ I e1 e2 H1 H2 T).
    + exfalso. apply U2. rewrite <- T. exact (inv_tags _ _ _ I e1 H1).
    + exfalso. apply U2. rewrite T. exact (inv_tags _ _ _ I e2 H2).
    + reflexivity.
  - intros e He Ho. apply U4. apply in_app_or in He. destruct He as [He|[<-|[]]].
    + exact (inv_owned _ _ _ I e He Ho).
    + exact Hk.
  - intros key'. rewrite merge_app. cbn [filter map fst].
    assert (T := inv_users _ _ _ I key'). destruct s as [u0 l0]. cbn [colls used] in *.
    rewrite (merge_used u u0). rewrite filter_app, map_app, T.
    destruct (String.eqb key key'); cbn; rewrite ?app_nil_r; reflexivity.
  - intros k Hk'. apply U4. exact (inv_keys _ _ _ I k Hk').
Qed.

Section Log.
Variable g : graph.
Variable globals : list nat.
Variables (pick : nat -> nat) (fuel : nat).
Variable vname : nat -> string.
Variable vshape : nat -> option (list (option nat)).

Notation owned o := (fun w => (Some (o : nat), w)).

(** What is added under [key]. *)
Definition adds (s s' : gstate) (key : string) (o : nat) (ws : list content) : Prop :=
  exists l, colls s' = (colls s ++ map (fun m => (key, m)) l)%list /\
            map (fun m => (s_owner m, s_what m)) l = map (owned o) ws.

Lemma adds_nil : forall s key o, adds s s key o [].
Proof. intros. exists []. split; [cbn; rewrite app_nil_r|]; reflexivity. Qed.
Lemma adds_trans : forall a b c key o w1 w2, adds a b key o w1 -> adds b c key o w2 -> adds a c key o (w1 ++ w2).
Proof.
  intros a b c key o w1 w2 [l1 [A1 A2]] [l2 [B1 B2]]. exists (l1 ++ l2)%list.
  rewrite B1, A1, !map_app, A2, B2, app_assoc. split; reflexivity.
Qed.
Lemma adds_one : forall s s' key o w tag, colls s' = (colls s ++ [(key, mksum tag (Some o) w)])%list ->
  adds s s' key o [w].
Proof. intros s s' key o w tag E. exists [mksum tag (Some o) w]. split; [exact E|reflexivity]. Qed.

(** What each step keeps. *)
Definition keeps (h : list event) (ks : list string) (s s' : gstate) : Prop :=
  inv h s' ks /\ incl (names (used s)) (names (used s')).

Lemma log_variable_spec : forall h ks s stack key o v s', inv h s ks -> In key (names (used s)) ->
  log_variable vname vshape s stack key o v = Some s' ->
  keeps h ks s s' /\ exists w, shown (vshape v) v w /\ adds s s' key o [w].
Proof.
  intros h ks s stack key o v s' I Hk E. unfold log_variable in E. cbv zeta in E.
  assert (K : forall w, shown (vshape v) v w ->
    Some (add_summary s stack ("parameter/" ++ slashes (vname v)) [key] (Some o) w) = Some s' ->
    keeps h ks s s' /\ exists w, shown (vshape v) v w /\ adds s s' key o [w]).
  { intros w Hw E'. injection E' as E'. destruct (add_own _ _ _ _ _ _ _ _ _ I Hk E') as [J1 [J2 [tag J3]]].
    split; [split; assumption|]. exists w. split; [exact Hw|exact (adds_one _ _ _ _ _ _ J3)]. }
  destruct (vshape v) as [[|[[|[|n]]|] l]|]; try discriminate.
  - exact (K _ (shown_scalar v) E).
  - refine (K _ (shown_histogram _ v _ _) E); discriminate.
  - destruct l; [exact (K _ (shown_one v) E)|refine (K _ (shown_histogram _ v _ _) E); discriminate].
  - refine (K _ (shown_histogram _ v _ _) E); discriminate.
  - refine (K _ (shown_histogram _ v _ _) E); discriminate.
Qed.

Lemma log_variable_raises : forall s stack key o v,
  log_variable vname vshape s stack key o v = None <-> vshape v = None.
Proof.
  intros. unfold log_variable. destruct (vshape v) as [[|[[|[|n]]|] [|a l]]|]; split; intros H; try discriminate; reflexivity.
Qed.

Lemma log_variables_spec : forall vs h ks s stack key o s' b, inv h s ks -> In key (names (used s)) ->
  log_variables vname vshape s stack key o vs = (s', b) ->
  keeps h ks s s' /\ (b = true <-> Forall (fun v => vshape v <> None) vs) /\
  exists ws, adds s s' key o ws /\ (b = true -> Forall2 (fun v w => shown (vshape v) v w) vs ws).
Proof.
  induction vs as [|v vs IH]; intros h ks s stack key o s' b I Hk E; cbn [log_variables] in E.
  - injection E as <- <-. split; [split; [exact I|apply incl_refl]|]. split; [split; [constructor|reflexivity]|].
    exists []. split; [apply adds_nil|]. constructor.
  - destruct (log_variable vname vshape s stack key o v) as [s1|] eqn:E1.
    + destruct (log_variable_spec _ _ _ _ _ _ _ _ I Hk E1) as [[K1 K2] [w [W1 W2]]].
      destruct (IH h ks s1 stack key o s' b K1 (K2 _ Hk) E) as [[L1 L2] [B [ws [L3 L4]]]].
      split; [split; [exact L1|eapply incl_tran; eassumption]|].
      split.
      { rewrite B. split; [intros H; constructor; [|exact H]|intros H; inversion H; assumption].
        intros Hv. apply (log_variable_raises s stack key o) in Hv. congruence. }
      exists (w :: ws). split; [exact (adds_trans _ _ _ _ _ [w] ws W2 L3)|].
      intros Hb. constructor; auto.
    + injection E as <- <-. split; [split; [exact I|apply incl_refl]|].
      split.
      { split; [discriminate|]. intros H. inversion H; subst. apply log_variable_raises in E1. contradiction. }
      exists []. split; [apply adds_nil|discriminate].
Qed.

Lemma log_parts_spec : forall ps h ks s stack key o, inv h s ks -> In key (names (used s)) ->
  keeps h ks s (log_parts s stack key o ps) /\ adds s (log_parts s stack key o ps) key o (map Part ps).
Proof.
  induction ps as [|p ps IH]; intros h ks s stack key o I Hk; cbn [log_parts fold_left map].
  - split; [split; [exact I|apply incl_refl]|apply adds_nil].
  - destruct (add_own h s ks stack p key o (Part p) _ I Hk eq_refl) as [J1 [J2 [tag J3]]].
    destruct (IH h ks _ stack key o J1 (J2 _ Hk)) as [[L1 L2] L3]. unfold log_parts in *.
    split; [split; [exact L1|eapply incl_tran; eassumption]|].
    exact (adds_trans _ _ _ _ _ [Part p] _ (adds_one _ _ _ _ _ _ J3) L3).
Qed.

Lemma log_gradients_spec : forall gs h ks s stack key o s' b, inv h s ks -> In key (names (used s)) ->
  log_gradients vname s stack key o gs = (s', b) ->
  keeps h ks s s' /\ (b = true <-> Forall (fun vg => snd vg = true) gs) /\
  exists ws, adds s s' key o ws /\
    (b = true -> ws = flat_map (fun vg => [Gradient (fst vg); GradientNorm (fst vg)]) gs).
Proof.
  induction gs as [|[v [|]] gs IH]; intros h ks s stack key o s' b I Hk E; cbn [log_gradients] in E.
  - injection E as <- <-. split; [split; [exact I|apply incl_refl]|]. split; [split; [constructor|reflexivity]|].
    exists []. split; [apply adds_nil|reflexivity].
  - cbv zeta in E.
    set (s1 := add_summary s stack ("gradient/" ++ slashes (vname v)) [key] (Some o) (Gradient v)) in *.
    destruct (add_own h s ks stack _ key o _ s1 I Hk eq_refl) as [J1 [J2 [tag J3]]].
    set (s2 := add_summary s1 stack ("gradient_norm/" ++ slashes (vname v)) [key] (Some o) (GradientNorm v)) in *.
    destruct (add_own h s1 ks stack _ key o _ s2 J1 (J2 _ Hk) eq_refl) as [M1 [M2 [tag2 M3]]].
    destruct (IH h ks s2 stack key o s' b M1 (M2 _ (J2 _ Hk)) E) as [[L1 L2] [B [ws [L3 L4]]]].
    split; [split; [exact L1|exact (incl_tran J2 (incl_tran M2 L2))]|].
    split. { rewrite B. split; [intros H; constructor; [reflexivity|exact H]|intros H; inversion H; assumption]. }
    exists ([Gradient v] ++ [GradientNorm v] ++ ws)%list. split.
    + exact (adds_trans _ _ _ _ _ _ _ (adds_one _ _ _ _ _ _ J3)
              (adds_trans _ _ _ _ _ _ _ (adds_one _ _ _ _ _ _ M3) L3)).
    + intros Hb. rewrite (L4 Hb). reflexivity.
  - injection E as <- <-. split; [split; [exact I|apply incl_refl]|].
    split. { split; [discriminate|]. intros H. inversion H; discriminate. }
    exists []. split; [apply adds_nil|discriminate].
Qed.

(** Summaries of a key that nobody owns. *)
Lemma fresh_merge : forall h s ks key, inv h s ks -> ~ In key (names (used s)) ->
  map (fun m => (s_owner m, s_what m)) (merge_all s key) = map (fun w => (None, w)) (users h key).
Proof.
  intros h s ks key I Hk. rewrite <- (inv_users _ _ _ I key). f_equal.
  assert (A : forall m, In m (merge_all s key) -> s_owner m = None).
  { intros m Hm. unfold merge_all in Hm. apply in_map_iff in Hm. destruct Hm as [e [<- He]].
    apply filter_In in He. destruct He as [He Ek]. apply String.eqb_eq in Ek.
    destruct (s_owner (snd e)) eqn:Eo; [|reflexivity]. exfalso. apply Hk. rewrite <- Ek.
    apply (inv_owned _ _ _ I e He). congruence. }
  induction (merge_all s key) as [|m l IH]; [reflexivity|]. cbn [filter].
  rewrite (A m (or_introl eq_refl)). f_equal. apply IH. intros x Hx. apply A. right. exact Hx.
Qed.

Lemma adds_merge : forall s s' key o ws, adds s s' key o ws ->
  map (fun m => (s_owner m, s_what m)) (merge_all s' key)
  = (map (fun m => (s_owner m, s_what m)) (merge_all s key) ++ map (owned o) ws)%list.
Proof.
  intros s s' key o ws [l [E1 E2]]. destruct s as [u c], s' as [u' c']. cbn in E1. subst c'.
  rewrite merge_app, map_app, (merge_used u' u). f_equal. rewrite <- E2. f_equal.
  clear E2. induction l as [|m l IH]; [reflexivity|]. cbn. rewrite String.eqb_refl. cbn. f_equal. exact IH.
Qed.

(** One initialisation. *)
Lemma initialize_spec : forall h s ks stack o i s' r, inv h s ks ->
  initialize g globals pick fuel vname vshape s stack o i = (s', r) ->
  keeps h ks s s' /\
  (i_log i = None -> r = Silent /\ s' = s) /\
  forall lv vs, i_log i = Some lv -> to_log g globals pick fuel i lv = Some vs ->
  ((r = Raised <-> ~ (Forall (fun v => vshape v <> None) vs /\ Forall (fun vg => snd vg = true) (i_grads i))) /\
   (r <> Raised -> exists key ms ws, r = Logged key ms /\ ~ In key (names (used s)) /\ In key (names (used s')) /\
      Forall2 (fun v w => shown (vshape v) v w) vs ws /\
      map (fun m => (s_owner m, s_what m)) ms
      = (map (fun w => (None, w)) (users h key) ++ map (owned o) (ws ++ losses i))%list)).
Proof.
  intros h s ks stack o i s' r I E. unfold initialize in E.
  destruct (i_log i) as [lv|] eqn:El.
  2: { injection E as <- <-. split; [split; [exact I|apply incl_refl]|]. split; [auto|discriminate]. }
  destruct (unique_name (used s) (scoped stack "summaries")) as [u key] eqn:Eu.
  destruct (unique_spec _ _ _ _ (inv_counted _ _ _ I) Eu) as [U1 [U2 [U3 U4]]].
  set (s0 := mkgstate u (colls s)) in *.
  assert (I0 : inv h s0 ks).
  { split; cbn.
    - exact U1.
    - intros e He. apply U4. exact (inv_tags _ _ _ I e He).
    - exact (inv_same _ _ _ I).
    - intros e He Ho. apply U4. exact (inv_owned _ _ _ I e He Ho).
    - exact (inv_users _ _ _ I).
    - intros k Hk. apply U4. exact (inv_keys _ _ _ I k Hk). }
  destruct (to_log g globals pick fuel i lv) as [vs|] eqn:Et.
  2: { injection E as <- <-. split; [split; [exact I0|exact U4]|]. split; [discriminate|].
       intros lv' vs' E1 E2. injection E1 as <-. congruence. }
  destruct (log_variables vname vshape s0 stack key o vs) as [s1 b1] eqn:E1.
  destruct (log_variables_spec vs h ks s0 stack key o s1 b1 I0 U3 E1) as [[A1 A2] [A3 [ws [A4 A5]]]].
  destruct b1.
  2: { injection E as <- <-. split; [split; [exact A1|exact (incl_tran U4 A2)]|]. split; [discriminate|].
       intros lv' vs' F1 F2. injection F1 as <-. rewrite Et in F2. injection F2 as <-.
       split; [|congruence]. split; [|reflexivity]. intros _ [H _]. apply A3 in H. discriminate. }
  destruct (log_parts_spec (i_parts i) h ks s1 stack key o A1 (A2 _ U3)) as [[P1 P2] P3].
  destruct (log_gradients vname (log_parts s1 stack key o (i_parts i)) stack key o (i_grads i)) as [s2 b2] eqn:E2.
  destruct (log_gradients_spec (i_grads i) h ks _ stack key o s2 b2 P1 (P2 _ (A2 _ U3)) E2) as [[G1 G2] [G3 [gs [G4 G5]]]].
  assert (Inc : incl (names u) (names (used s2))) by exact (incl_tran A2 (incl_tran P2 G2)).
  destruct b2; injection E as <- <-; (split; [split; [exact G1|exact (incl_tran U4 Inc)]|]; split; [discriminate|]);
    intros lv' vs' F1 F2; injection F1 as <-; rewrite Et in F2; injection F2 as <-.
  - split.
    + split; [discriminate|]. intros H. exfalso. apply H. split; [apply A3; reflexivity|apply G3; reflexivity].
    + intros _. exists key, (merge_all s2 key), ws. split; [reflexivity|]. split; [exact U2|].
      split; [exact (Inc _ U3)|]. split; [exact (A5 eq_refl)|].
      rewrite (G5 eq_refl) in G4.
      rewrite (adds_merge s0 s2 key o _ (adds_trans _ _ _ _ _ _ _ A4 (adds_trans _ _ _ _ _ _ _ P3 G4))).
      f_equal. unfold s0. rewrite (merge_used u (used s)).
      replace (mkgstate (used s) (colls s)) with s by (destruct s; reflexivity).
      exact (fresh_merge h s ks key I U2).
  - split; [|congruence]. split; [|reflexivity]. intros _ [_ H]. apply G3 in H. discriminate.
Qed.

(** ** Programs *)
Lemma users_snoc : forall h e key, users (h ++ [e]) key = (users h key ++ users [e] key)%list.
Proof. intros. unfold users. rewrite flat_map_app. reflexivity. Qed.

Lemma keys_snoc : forall outs r, keys (outs ++ [r]) = (keys outs ++ keys [r])%list.
Proof. intros. unfold keys. rewrite flat_map_app. reflexivity. Qed.

Lemma add_user : forall h s ks stack name cs n,
  inv h s ks -> inv (h ++ [EUser stack name cs n]) (add_summary s stack name cs None (User n)) ks.
Proof.
  intros h s ks stack name cs n I. unfold add_summary.
  destruct (unique_name (used s) (scoped stack name)) as [u tag] eqn:Eu.
  destruct (unique_spec _ _ _ _ (inv_counted _ _ _ I) Eu) as [U1 [U2 [U3 U4]]].
  split; cbn [used colls].
  - exact U1.
  - intros e He. apply in_app_or in He. destruct He as [He|He].
    + apply U4. exact (inv_tags _ _ _ I e He).
    + apply in_map_iff in He. destruct He as [c [<- _]]. exact U3.
  - intros e1 e2 H1 H2 T. apply in_app_or in H1, H2. destruct H1 as [H1|H1], H2 as [H2|H2].
    + exact (inv_same _ _ _ I e1 e2 H1 H2 T).
    + apply in_map_iff in H2. destruct H2 as [c [<- _]]. cbn in T. exfalso. apply U2. rewrite <- T.
      exact (inv_tags _ _ _ I e1 H1).
    + apply in_map_iff in H1. destruct H1 as [c [<- _]]. cbn in T. exfalso. apply U2. rewrite T.
      exact (inv_tags _ _ _ I e2 H2).
    + apply in_map_iff in H1, H2. destruct H1 as [c [<- _]], H2 as [c' [<- _]]. reflexivity.
  - intros e He Ho. apply in_app_or in He. destruct He as [He|He].
    + apply U4. exact (inv_owned _ _ _ I e He Ho).
    + apply in_map_iff in He. destruct He as [c [<- _]]. cbn in Ho. congruence.
  - intros key. rewrite merge_app, filter_app, map_app, users_snoc, map_app.
    rewrite (merge_used u (used s)). f_equal.
    + replace (mkgstate (used s) (colls s)) with s by (destruct s; reflexivity). exact (inv_users _ _ _ I key).
    + unfold users. cbn [flat_map]. rewrite app_nil_r.
      induction cs as [|c cs IH]; [reflexivity|]. cbn [map filter fst].
      destruct (String.eqb c key); cbn; [f_equal|]; exact IH.
  - intros k Hk. apply U4. exact (inv_keys _ _ _ I k Hk).
Qed.

Lemma inv_event : forall h s ks e, inv h s ks -> (forall key, users [e] key = []) -> inv (h ++ [e]) s ks.
Proof.
  intros h s ks e I H. destruct I. split; auto. intros key. rewrite users_snoc, H, app_nil_r. auto.
Qed.

Lemma inv_ks : forall h s ks ks', inv h s ks -> incl ks' (names (used s)) -> inv h s ks'.
Proof. intros h s ks ks' I H. destruct I. split; auto. Qed.

Lemma program_inv : forall l h s outs s' outs', inv h s (keys outs) -> NoDup (keys outs) ->
  program g globals pick fuel vname vshape s outs l = (s', outs') ->
  inv (h ++ l) s' (keys outs') /\ NoDup (keys outs').
Proof.
  induction l as [|e l IH]; intros h s outs s' outs' I ND E.
  - cbn in E. injection E as <- <-. rewrite app_nil_r. auto.
  - replace (h ++ e :: l)%list with ((h ++ [e]) ++ l)%list by (rewrite <- app_assoc; reflexivity).
    destruct e as [stack n|stack n cs k|stack i]; cbn [program] in E.
    + eapply IH; [|exact ND|exact E].
      destruct (unique_name (used s) (scoped stack n)) as [u m] eqn:Eu. cbn [fst].
      destruct (unique_spec _ _ _ _ (inv_counted _ _ _ I) Eu) as [U1 [U2 [U3 U4]]].
      apply inv_event; [|reflexivity]. split; cbn.
      * exact U1.
      * intros e He. apply U4. exact (inv_tags _ _ _ I e He).
      * exact (inv_same _ _ _ I).
      * intros e He Ho. apply U4. exact (inv_owned _ _ _ I e He Ho).
      * exact (inv_users _ _ _ I).
      * intros x Hx. apply U4. exact (inv_keys _ _ _ I x Hx).
    + eapply IH; [|exact ND|exact E]. apply add_user. exact I.
    + destruct (initialize g globals pick fuel vname vshape s stack (length outs) i) as [s1 r] eqn:Ei.
      destruct (initialize_spec h s (keys outs) stack (length outs) i s1 r I Ei) as [[K1 K2] [K3 K4]].
      assert (Kr : r = Silent \/ r = Raised \/ exists key ms, r = Logged key ms /\ ~ In key (names (used s)) /\ In key (names (used s1))).
      { destruct (i_log i) as [lv|] eqn:El.
        - destruct (to_log g globals pick fuel i lv) as [vs|] eqn:Et.
          + destruct (K4 lv vs eq_refl Et) as [_ K5]. destruct r as [|key ms|]; auto.
            right. right. destruct K5 as [key' [ms' [ws [F1 [F2 [F3 _]]]]]]; [discriminate|].
            exists key', ms'. auto.
          + unfold initialize in Ei. rewrite El in Ei.
            destruct (unique_name (used s) (scoped stack "summaries")) as [u key]. rewrite Et in Ei.
            injection Ei as _ <-. auto.
        - left. apply K3. reflexivity. }
      eapply IH; [| |exact E].
      * apply inv_event; [|reflexivity]. apply (inv_ks _ _ _ _ K1). rewrite keys_snoc. apply incl_app.
        { intros x Hx. apply K2. exact (inv_keys _ _ _ I x Hx). }
        destruct Kr as [->|[->|[key [ms [-> [F1 F2]]]]]]; cbn; intros x Hx; try contradiction.
        destruct Hx as [<-|[]]. exact F2.
      * rewrite keys_snoc. destruct Kr as [->|[->|[key [ms [-> [F1 F2]]]]]]; cbn; rewrite ?app_nil_r; try exact ND.
        assert (NR : NoDup (rev (key :: rev (keys outs)))).
        { apply NoDup_rev. constructor; [|apply NoDup_rev; exact ND]. rewrite <- in_rev. intros Hk. apply F1.
          exact (inv_keys _ _ _ I key Hk). }
        cbn [rev] in NR. rewrite rev_involutive in NR. exact NR.
Qed.

Lemma inv_new : inv [] new_graph [].
Proof.
  split; cbn; try contradiction.
  - constructor.
  - reflexivity.
  - intros x [].
Qed.

(** ** The variables *)
Lemma all_variables_spec : single_producer g ->
  (forall v w, In v globals -> In w globals -> vref g v = vref g w -> v = w) -> enough g <= fuel ->
  forall l, exists r, all_variables g globals pick fuel l = Some r /\
    forall v, In v r <-> exists x, In x l /\ In v globals /\ up g anything (tensor_of g x) (vref g v).
Proof.
  intros S U F. induction l as [|x l [r [IH1 IH2]]].
  - exists []. split; [reflexivity|]. intros v. split; [contradiction|intros [x [[] _]]].
  - destruct (get_variables_exact g globals pick fuel x S U F) as [a [A1 [A2 A3]]].
    exists (a ++ r)%list. cbn [all_variables]. rewrite A1, IH1. split; [reflexivity|].
    intros v. rewrite in_app_iff, A3, IH2. split.
    + intros [[H1 H2]|[y [H1 H2]]]; [exists x; cbn; auto|exists y; cbn; tauto].
    + intros [y [[<-|H1] H2]]; [left; exact H2|right; exists y; auto].
Qed.

Lemma to_log_default : forall i, single_producer g ->
  (forall v w, In v globals -> In w globals -> vref g v = vref g w -> v = w) -> enough g <= fuel ->
  exists vs, to_log g globals pick fuel i None = Some vs /\ NoDup vs /\
    forall v, In v vs <-> exists x, about i x /\ In v globals /\ up g anything (tensor_of g x) (vref g v).
Proof.
  intros i S U F. unfold to_log.
  destruct (all_variables_spec S U F (i_data i ++ flat_map (fun zq => [fst zq; snd zq]) (i_latent i))%list) as [r [R1 R2]].
  rewrite R1. exists (nodup Nat.eq_dec r). split; [reflexivity|]. split; [apply NoDup_nodup|].
  intros v. rewrite nodup_In, R2.
  assert (A : forall x, In x (i_data i ++ flat_map (fun zq => [fst zq; snd zq]) (i_latent i))%list <-> about i x).
  { intros x. rewrite in_app_iff, in_flat_map. unfold about. cbn. split; intros [H|[zq [H1 H2]]]; auto; right; exists zq.
    - split; [exact H1|]. destruct H2 as [H2|[H2|[]]]; auto.
    - split; [exact H1|]. destruct H2 as [H2|H2]; auto. }
  split; intros [x [H1 H2]]; exists x; (split; [apply A; exact H1|exact H2]).
Qed.

Lemma log_exact : forall h s outs stack i s' r,
  single_producer g ->
  (forall v w, In v globals -> In w globals -> vref g v = vref g w -> v = w) -> enough g <= fuel ->
  program g globals pick fuel vname vshape new_graph [] h = (s, outs) ->
  i_log i = Some None ->
  initialize g globals pick fuel vname vshape s stack (length outs) i = (s', r) ->
  exists vs, NoDup vs /\
    (forall v, In v vs <-> exists x, about i x /\ In v globals /\ up g anything (tensor_of g x) (vref g v)) /\
    (r = Raised <-> ~ (Forall (fun v => vshape v <> None) vs /\ Forall (fun vg => snd vg = true) (i_grads i))) /\
    (r <> Raised -> exists key ms ws, r = Logged key ms /\ ~ In key (keys outs) /\
      Forall2 (fun v w => shown (vshape v) v w) vs ws /\
      map (fun m => (s_owner m, s_what m)) ms
      = (map (fun w => (None, w)) (users h key) ++ map (fun w => (Some (length outs), w)) (ws ++ losses i))%list).
Proof.
  intros h s outs stack i s' r S U F Ep El Ei.
  destruct (program_inv h [] new_graph [] s outs inv_new (NoDup_nil _) Ep) as [I _].
  destruct (to_log_default i S U F) as [vs [V1 [V2 V3]]].
  destruct (initialize_spec h s (keys outs) stack (length outs) i s' r I Ei) as [_ [_ K]].
  destruct (K None vs El V1) as [K1 K2]. exists vs. split; [exact V2|]. split; [exact V3|]. split; [exact K1|].
  intros Hr. destruct (K2 Hr) as [key [ms [ws [F1 [F2 [_ [F4 F5]]]]]]]. exists key, ms, ws.
  split; [exact F1|]. split; [|auto]. intros Hk. apply F2. exact (inv_keys _ _ _ I key Hk).
Qed.

Lemma names_apart : forall h s outs, program g globals pick fuel vname vshape new_graph [] h = (s, outs) ->
  NoDup (keys outs) /\
  forall e1 e2, In e1 (colls s) -> In e2 (colls s) -> s_tag (snd e1) = s_tag (snd e2) -> snd e1 = snd e2.
Proof.
  intros h s outs E. destruct (program_inv h [] new_graph [] s outs inv_new (NoDup_nil _) E) as [I ND].
  split; [exact ND|exact (inv_same _ _ _ I)].
Qed.
End Log.
