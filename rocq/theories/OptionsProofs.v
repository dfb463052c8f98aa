From Coq Require Import String List QArith Bool Lia.
From Verif Require Import Options OptionsSpec.
Import ListNotations.
Open Scope string_scope.
Open Scope list_scope.

Lemma get_none : forall d k, kw_get d k = None <-> ~ In k (map fst d).
Proof.
  induction d as [|[a v] d IH]; intros k; simpl; [tauto|]. destruct (String.eqb_spec a k) as [E|E].
  - split; [discriminate|]. intros H. exfalso. apply H. auto.
  - rewrite IH. tauto.
Qed.
Lemma get_in : forall d k v, kw_get d k = Some v -> In (k, v) d.
Proof.
  induction d as [|[a w] d IH]; intros k v; simpl; [discriminate|]. destruct (String.eqb_spec a k) as [E|E].
  - intros H. injection H as ->. subst. auto. - auto.
Qed.
Lemma in_get : forall d k v, NoDup (map fst d) -> In (k, v) d -> kw_get d k = Some v.
Proof.
  induction d as [|[a w] d IH]; intros k v Hn Hi; simpl; [destruct Hi|]. inversion Hn; subst. destruct Hi as [E|Hi].
  - injection E as -> ->. rewrite String.eqb_refl. auto.
  - destruct (String.eqb_spec a k) as [->|]; auto. exfalso. apply H1. change k with (fst (k, v)). apply in_map. auto.
Qed.
Lemma in_del : forall d k j v, In (j, v) (kw_del d k) <-> In (j, v) d /\ j <> k.
Proof.
  intros d k j v. unfold kw_del. rewrite filter_In. simpl. destruct (String.eqb_spec j k); simpl; intuition congruence.
Qed.
Lemma keys_del : forall d k j, In j (map fst (kw_del d k)) <-> In j (map fst d) /\ j <> k.
Proof.
  intros d k j. rewrite !in_map_iff. split.
  - intros ([a v] & <- & H). apply in_del in H. simpl. destruct H. split; auto. exists (a, v). auto.
  - intros (([a v] & <- & H) & Hn). exists (a, v). split; auto. apply in_del. auto.
Qed.
Lemma nodup_del : forall d k, NoDup (map fst d) -> NoDup (map fst (kw_del d k)).
Proof.
  induction d as [|[a v] d IH]; intros k Hn; simpl; auto. inversion Hn; subst.
  destruct (String.eqb a k); simpl; auto. constructor; auto. rewrite keys_del. tauto.
Qed.
Lemma keys_set : forall d k v j, In j (map fst (kw_set d k v)) <-> j = k \/ In j (map fst d).
Proof.
  induction d as [|[a w] d IH]; intros k v j; simpl; [intuition|]. destruct (String.eqb_spec a k) as [->|E]; simpl.
  - intuition. - rewrite IH. intuition.
Qed.
Lemma nodup_set : forall d k v, NoDup (map fst d) -> NoDup (map fst (kw_set d k v)).
Proof.
  induction d as [|[a w] d IH]; intros k v Hn; simpl; [repeat constructor; auto|]. inversion Hn; subst.
  destruct (String.eqb_spec a k) as [->|E]; simpl; constructor; auto. rewrite keys_set. intuition congruence.
Qed.
Lemma in_set : forall d k v j w, NoDup (map fst d) -> In (j, w) (kw_set d k v) <-> (j = k /\ w = v) \/ (In (j, w) d /\ j <> k).
Proof.
  induction d as [|[a x] d IH]; intros k v j w Hn; simpl.
  - split; [intros [E|[]]; injection E as <- <-; auto|intros [[-> ->]|[[] _]]; auto].
  - inversion Hn; subst. assert (HK : forall y, ~ In (a, y) d).
    { intros y Hy. apply H1. change a with (fst (a, y)). apply in_map. auto. }
    destruct (String.eqb_spec a k) as [->|E]; simpl.
    + split.
      * intros [E|Hi]; [injection E as <- <-; auto|]. right. split; auto. intros ->. apply (HK w Hi).
      * intros [[-> ->]|[[E|Hi] N]]; auto. injection E as <- <-. congruence.
    + rewrite IH by auto. split.
      * intros [Ea|[[-> ->]|[Hi N]]]; auto. injection Ea as <- <-. auto.
      * intros [[-> ->]|[[Ea|Hi] N]]; auto.
Qed.
Lemma get_set_other : forall d k v j, j <> k -> kw_get (kw_set d k v) j = kw_get d j.
Proof.
  induction d as [|[a w] d IH]; intros k v j N; simpl.
  - destruct (String.eqb_spec k j); congruence.
  - destruct (String.eqb_spec a k) as [->|E]; simpl; auto.
    + destruct (String.eqb_spec k j); [congruence|auto]. + rewrite IH by auto. auto.
Qed.
Lemma del_set : forall d k v j, j <> k -> kw_del (kw_set d k v) j = kw_set (kw_del d j) k v.
Proof.
  induction d as [|[a w] d IH]; intros k v j N; simpl.
  - destruct (String.eqb_spec k j); [congruence|]. auto.
  - destruct (String.eqb_spec a k) as [->|E]; simpl.
    + destruct (String.eqb_spec k j); [congruence|]. simpl. rewrite String.eqb_refl. auto.
    + destruct (String.eqb_spec a j); simpl; [apply IH; auto|]. rewrite IH by auto. destruct (String.eqb_spec a k); congruence.
Qed.

(** ** A chain of initialize methods is one function with all the options. *)
Lemma bind_app : forall p1 p2 args kwargs, bind (p1 ++ p2) args kwargs =
  match bind p1 args kwargs with
  | None => None
  | Some (b, l, k) => match bind p2 l k with None => None | Some (b', l', k') => Some (b ++ b', l', k') end
  end.
Proof.
  induction p1 as [|[n d] p1 IH]; intros p2 args kwargs; simpl; [destruct (bind p2 args kwargs) as [[[b l] k]|]; auto|].
  destruct args as [|a args].
  - rewrite IH. destruct (bind p1 [] (kw_del kwargs n)) as [[[b l] k]|]; auto. destruct (bind p2 l k) as [[[b' l'] k']|]; auto.
  - destruct (kw_get kwargs n); auto. rewrite IH. destruct (bind p1 args kwargs) as [[[b l] k]|]; auto.
    destruct (bind p2 l k) as [[[b' l'] k']|]; auto.
Qed.
Lemma bind_set : forall p args kwargs k v, ~ In k (map fst p) -> bind p args (kw_set kwargs k v) =
  match bind p args kwargs with Some (b, l, kr) => Some (b, l, kw_set kr k v) | None => None end.
Proof.
  induction p as [|[n d] p IH]; intros args kwargs k v H; simpl in *; auto.
  assert (N : n <> k) by (intros ->; apply H; auto). rewrite get_set_other by auto. destruct args as [|a args].
  - rewrite del_set, IH by auto. destruct (bind p [] (kw_del kwargs n)) as [[[b l] kr]|]; auto.
  - destruct (kw_get kwargs n); auto. rewrite IH by auto. destruct (bind p args kwargs) as [[[b l] kr]|]; auto.
Qed.
Lemma bind_names : forall p args kwargs b l k, bind p args kwargs = Some (b, l, k) -> map fst b = map fst p.
Proof.
  induction p as [|[n d] p IH]; intros args kwargs b l k; simpl; [intros E; injection E as <- _ _; auto|].
  destruct args as [|a args]; [|destruct (kw_get kwargs n); [discriminate|]].
  - destruct (bind p [] (kw_del kwargs n)) as [[[b' l'] k']|] eqn:E; [|discriminate]. intros X. injection X as <- _ _. simpl. f_equal. eauto.
  - destruct (bind p args kwargs) as [[[b' l'] k']|] eqn:E; [|discriminate]. intros X. injection X as <- _ _. simpl. f_equal. eauto.
Qed.

Fixpoint params_of (ls : list level) : kw := match ls with [] => [] | l :: ls' => l_params l ++ params_of ls' end.
Fixpoint forces_of (ls : list level) (kwargs : kw) : kw := match ls with [] => kwargs | l :: ls' => forces_of ls' (force kwargs (l_force l)) end.
(** Every entry put into kwargs is an option of a later level. *)
Fixpoint late (ls : list level) (seen : kw) : Prop :=
  match ls with
  | [] => True
  | l :: ls' => let seen' := seen ++ l_params l in
      match l_force l with Some (k, _) => ~ In k (map fst seen') | None => True end /\ late ls' seen'
  end.

(** The same as one function. *)
Definition flat (ps : kw) (args : list py) (kwargs : kw) : option kw :=
  match bind ps args kwargs with Some (b, [], []) => Some b | _ => None end.

Lemma call_flat : forall ls, (forall l, In l ls -> l_positive l = false) ->
  forall seen, late ls seen -> forall args kwargs,
  call ls args kwargs = match flat (params_of ls) args (forces_of ls kwargs) with Some b => Ret b | None => RaiseTypeError end.
Proof.
  assert (HF : forall ls seen, late ls seen -> forall (p : kw), (forall k, In k (map fst p) -> In k (map fst seen)) ->
             forall args kwargs, bind p args (forces_of ls kwargs) =
             match bind p args kwargs with Some (b, l, k) => Some (b, l, forces_of ls k) | None => None end).
  { induction ls as [|l ls IH]; intros seen HL p Hp args kwargs; simpl; [destruct (bind p args kwargs) as [[[? ?] ?]|]; auto|]. destruct HL as [H1 H2].
    rewrite (IH _ H2 p) by (intros k Hk; rewrite map_app, in_app_iff; auto).
    destruct (l_force l) as [[k v]|] eqn:E; simpl; [|destruct (bind p args kwargs) as [[[? ?] ?]|]; auto].
    rewrite bind_set. 2:{ intros Hk. apply H1. rewrite map_app, in_app_iff. auto. }
    destruct (bind p args kwargs) as [[[? ?] ?]|]; auto. }
  induction ls as [|l ls IH]; intros Hpos seen HL args kwargs.
  - unfold flat. simpl. destruct args; auto. destruct kwargs; auto.
  - pose proof HL as [H1 H2]. cbn [call params_of]. rewrite (Hpos l (or_introl eq_refl)).
    unfold flat. rewrite bind_app. cbn [forces_of].
    rewrite (HF ls _ H2 (l_params l)) by (intros k Hk; rewrite map_app, in_app_iff; auto).
    destruct (l_force l) as [[k v]|] eqn:E; cbn [force].
    + rewrite bind_set. 2:{ intros Hk. apply H1. rewrite map_app, in_app_iff. auto. }
      destruct (bind (l_params l) args kwargs) as [[[b a'] k']|] eqn:EB; auto.
      rewrite (IH (fun x Hx => Hpos x (or_intror Hx)) _ H2 a' (kw_set k' k v)). unfold flat.
      destruct (bind (params_of ls) a' (forces_of ls (kw_set k' k v))) as [[[b' [|]] [|]]|]; auto.
    + destruct (bind (l_params l) args kwargs) as [[[b a'] k']|] eqn:EB; auto.
      rewrite (IH (fun x Hx => Hpos x (or_intror Hx)) _ H2 a' k'). unfold flat.
      destruct (bind (params_of ls) a' (forces_of ls k')) as [[[b' [|]] [|]]|]; auto.
Qed.

(** ** The flat call. *)
Lemma bind_kw : forall ps kwargs, NoDup (map fst ps) -> NoDup (map fst kwargs) ->
  exists b k, bind ps [] kwargs = Some (b, [], k) /\
    (forall j v, In (j, v) k <-> In (j, v) kwargs /\ ~ In j (map fst ps)) /\
    as_given ps [] kwargs b.
Proof.
  induction ps as [|[n d] ps IH]; intros kwargs Hn Hk; simpl.
  - exists [], kwargs. split; auto. split; [intros; intuition|]. split; auto. intros [|i] k d v E; discriminate E.
  - inversion Hn; subst. destruct (IH (kw_del kwargs n) H2 (nodup_del _ _ Hk)) as (b & k & E & H3 & H4 & H5). rewrite E.
    eexists. exists k. split; [reflexivity|]. split.
    + intros j v. rewrite H3, in_del. simpl. intuition congruence.
    + split; [simpl; f_equal; auto|]. intros [|i] j d' v E1 E2.
      * simpl in E1, E2. injection E1 as <- <-. injection E2 as E2. right. split; auto.
        destruct (kw_get kwargs n) as [w|] eqn:G; subst v.
        -- left. apply get_in. auto.
        -- right. split; auto. intros w Hw. apply get_none in G. apply G. change n with (fst (n, w)). apply in_map. auto.
      * simpl in E1, E2. right. split; auto. assert (Nj : j <> n).
        { intros ->. apply H1. change n with (fst (n, d')). apply in_map. eapply nth_error_In. eauto. }
        destruct (H5 i j d' v E1 E2) as [X|[_ [X|[X ->]]]]; [destruct i; discriminate X| |].
        -- left. apply in_del in X. tauto.
        -- right. split; auto. intros w Hw. apply (X w). apply in_del. auto.
Qed.

Lemma bind_all : forall ps args kwargs, NoDup (map fst ps) -> NoDup (map fst kwargs) ->
  (exists b l k, bind ps args kwargs = Some (b, l, k) /\ l = skipn (length ps) args /\
    (forall j v, In (j, v) k <-> In (j, v) kwargs /\ ~ In j (map fst ps)) /\
    (forall j, In j (map fst kwargs) -> forall i d, nth_error ps i = Some (j, d) -> (length args <= i)%nat) /\
    as_given ps args kwargs b) \/
  (bind ps args kwargs = None /\ exists j i d, In j (map fst kwargs) /\ nth_error ps i = Some (j, d) /\ (i < length args)%nat).
Proof.
  induction ps as [|[n d] ps IH]; intros args kwargs Hn Hk.
  - left. exists [], args, kwargs. simpl. split; auto. split; auto. split; [intros; intuition|]. split.
    + intros j _ [|i] d E; discriminate E.
    + split; auto. intros [|i] k d v E; discriminate E.
  - destruct args as [|a args].
    { left. destruct (bind_kw ((n, d) :: ps) kwargs Hn Hk) as (b & k & E & H3 & H4). exists b, [], k.
      split; auto. split; auto. split; auto. split; auto. intros; simpl; lia. }
    inversion Hn; subst. cbn [bind]. destruct (kw_get kwargs n) as [w|] eqn:G.
    { right. split; auto. exists n, 0%nat, d. split; [|split; [auto|simpl; lia]].
      apply get_in in G. change n with (fst (n, w)). apply in_map. auto. }
    apply get_none in G.
    destruct (IH args kwargs H2 Hk) as [(b & l & k & E & -> & H3 & H4 & H5 & H6)|(E & j & i & d' & Hj & Hi & Hlt)]; rewrite E.
    + left. eexists. eexists. exists k. split; [reflexivity|]. split; auto. split; [|split; [|split]].
      * intros j v. rewrite H3. simpl. split; [intros [A B]; split; auto; intros [->|C]; auto|intuition].
        apply G. change j with (fst (j, v)). apply in_map. auto.
      * intros j Hj [|i] d' Hi; simpl in Hi; [injection Hi as <- _; tauto|]. simpl. specialize (H4 j Hj i d' Hi). lia.
      * simpl. f_equal. auto.
      * intros [|i] j d' v E1 E2; simpl in E1, E2.
        -- injection E2 as _ <-. left. auto.
        -- destruct (H6 i j d' v E1 E2) as [X|X]; simpl; auto.
    + right. split; auto. exists j, (S i), d'. split; auto. split; auto. simpl. lia.
Qed.

Lemma flat_some : forall ps args kwargs vals, NoDup (map fst ps) -> NoDup (map fst kwargs) ->
  flat ps args kwargs = Some vals -> fits ps args kwargs /\ as_given ps args kwargs vals.
Proof.
  intros ps args kwargs vals Hn Hk E. unfold flat in E.
  destruct (bind_all ps args kwargs Hn Hk) as [(b & l & k & EB & El & H3 & H4 & H5)|(EB & _)]; rewrite EB in E; [|discriminate].
  destruct l; [|discriminate]. destruct k; [|discriminate]. injection E as <-. split; auto. split.
  - assert (length (skipn (length ps) args) = 0)%nat by (rewrite <- El; auto). rewrite skipn_length in H. lia.
  - intros j v Hv. assert (Hj : In j (map fst ps)).
    { destruct (in_dec string_dec j (map fst ps)) as [|N]; auto. exfalso. apply (H3 j v). auto. }
    apply in_map_iff in Hj. destruct Hj as ([j' d] & <- & Hj). apply In_nth_error in Hj. destruct Hj as (i & Hi).
    exists i, d. split; auto. eapply (H4 j'); eauto. simpl in Hv. change j' with (fst (j', v)). apply in_map. auto.
Qed.
Lemma flat_fits : forall ps args kwargs, NoDup (map fst ps) -> NoDup (map fst kwargs) ->
  fits ps args kwargs -> exists vals, flat ps args kwargs = Some vals.
Proof.
  intros ps args kwargs Hn Hk [HL HF]. unfold flat.
  destruct (bind_all ps args kwargs Hn Hk) as [(b & l & k & EB & -> & H3 & H4 & H5)|(EB & j & i & d & Hj & Hi & Hlt)]; rewrite EB.
  - assert (Hl : skipn (length ps) args = []) by (apply skipn_all2; auto). rewrite Hl.
    destruct k as [|[j v] k]; [eauto|]. exfalso. assert (HI : In (j, v) ((j, v) :: k)) by (simpl; auto).
    apply H3 in HI. destruct HI as [HI HN]. destruct (HF j v HI) as (i & d & Hi & _). apply HN.
    change j with (fst (j, d)). apply in_map. eapply nth_error_In. eauto.
  - exfalso. apply in_map_iff in Hj. destruct Hj as ([j' v] & <- & Hv). destruct (HF j' v Hv) as (i' & d' & Hi' & Hle).
    simpl in Hi. assert (i = i'); [|lia].
    rewrite NoDup_nth_error in Hn. apply Hn.
    + rewrite map_length. apply nth_error_Some. congruence.
    + rewrite !nth_error_map, Hi, Hi'. auto.
Qed.
Lemma as_given_unique : forall ps args kwargs v1 v2, NoDup (map fst kwargs) ->
  as_given ps args kwargs v1 -> as_given ps args kwargs v2 -> v1 = v2.
Proof.
  intros ps args kwargs v1 v2 Hk [N1 A1] [N2 A2].
  assert (L1 : length v1 = length ps) by (rewrite <- (map_length fst v1), N1, map_length; auto).
  assert (L2 : length v2 = length ps) by (rewrite <- (map_length fst v2), N2, map_length; auto).
  assert (HK : forall i k d (vs : kw), map fst vs = map fst ps -> nth_error ps i = Some (k, d) -> exists v, nth_error vs i = Some (k, v)).
  { intros i k d vs N E. assert (H : nth_error (map fst vs) i = Some k) by (rewrite N, nth_error_map, E; auto).
    rewrite nth_error_map in H. destruct (nth_error vs i) as [[k' v]|]; [|discriminate]. simpl in H. injection H as ->. eauto. }
  assert (HE : forall i, nth_error v1 i = nth_error v2 i).
  { intros i. destruct (nth_error ps i) as [[k d]|] eqn:E.
    - destruct (HK i k d v1 N1 E) as (w1 & E1). destruct (HK i k d v2 N2 E) as (w2 & E2). rewrite E1, E2. do 2 f_equal.
      destruct (A1 i k d w1 E E1) as [X1|[X1 Y1]]; destruct (A2 i k d w2 E E2) as [X2|[X2 Y2]]; try congruence.
      destruct Y1 as [Y1|[Y1 ->]]; destruct Y2 as [Y2|[Y2 ->]]; auto.
      + apply (in_get _ _ _ Hk) in Y1. apply (in_get _ _ _ Hk) in Y2. congruence.
      + exfalso. apply (Y2 w1). auto. + exfalso. apply (Y1 w2). auto.
    - apply nth_error_None in E. assert (X1 : nth_error v1 i = None) by (apply nth_error_None; lia).
      assert (X2 : nth_error v2 i = None) by (apply nth_error_None; lia). congruence. }
  clear -HE. revert v2 HE. induction v1 as [|a v1 IH]; intros [|b v2] HE; auto; try (specialize (HE 0%nat); discriminate HE).
  f_equal; [specialize (HE 0%nat); simpl in HE; congruence|]. apply IH. intros i. apply (HE (S i)).
Qed.

(** ** Checks of n_samples. *)
Definition plain (l : level) : level := mklevel (l_params l) false (l_force l).
Lemma params_plain : forall ls, params_of (map plain ls) = params_of ls.
Proof. induction ls as [|l ls IH]; simpl; congruence. Qed.
Lemma forces_plain : forall ls k, forces_of (map plain ls) k = forces_of ls k.
Proof. induction ls as [|l ls IH]; intros k; simpl; auto. Qed.
Lemma late_plain : forall ls seen, late ls seen -> late (map plain ls) seen.
Proof. induction ls as [|l ls IH]; intros seen H; simpl in *; auto. destruct H. auto. Qed.

Lemma check_none : forall b, check_positive b = None <-> exists v, kw_get b "n_samples" = Some v /\ positive v.
Proof.
  intros b. unfold check_positive. destruct (kw_get b "n_samples") as [v|].
  2:{ split; [discriminate|]. intros (v & E & _). discriminate E. }
  assert (HQ : forall q, Qle_bool q 0 = false <-> (0 < q)%Q).
  { intros q. split; intros H; [|destruct (Qle_bool q 0) eqn:E; auto; apply Qle_bool_iff in E; exfalso; eapply Qlt_not_le; eauto].
    apply Qnot_le_lt. intros L. apply Qle_bool_iff in L. congruence. }
  destruct v as [|t|q|s|n]; split; try discriminate; try (intros (v & E & P); injection E as <-; destruct P; fail).
  - destruct t; [|discriminate]. intros _. exists (PBool true). simpl. auto.
  - intros (v & E & P). injection E as <-. simpl in P. rewrite P. auto.
  - intros H. exists (PNum q). split; auto. simpl. apply HQ. destruct (Qle_bool q 0); [discriminate|auto].
  - intros (v & E & P). injection E as <-. simpl in P. apply HQ in P. rewrite P. auto.
Qed.

Lemma call_names : forall ls args kwargs vals, call ls args kwargs = Ret vals -> map fst vals = map fst (params_of ls).
Proof.
  induction ls as [|l ls IH]; intros args kwargs vals; cbn [call params_of].
  - destruct args; [|discriminate]. destruct kwargs; [|discriminate]. intros E. injection E as <-. auto.
  - destruct (bind (l_params l) args kwargs) as [[[b a'] k']|] eqn:EB; [|discriminate].
    destruct (if l_positive l then check_positive b else None) as [e|] eqn:EC.
    { destruct (l_positive l); [|discriminate]. unfold check_positive in EC. destruct (kw_get b "n_samples") as [[]|]; try destruct (Qle_bool _ _);
        try destruct b0; try discriminate EC; injection EC as <-; discriminate. }
    destruct (call ls a' (force k' (l_force l))) as [b'| |] eqn:E; try discriminate. intros X. injection X as <-.
    rewrite !map_app. f_equal; [eapply bind_names; eauto|eapply IH; eauto].
Qed.

Lemma call_checked : forall ls, (forall l, In l ls -> l_positive l = true -> In "n_samples" (map fst (l_params l))) ->
  NoDup (map fst (params_of ls)) ->
  forall args kwargs vals, call ls args kwargs = Ret vals <->
    (call (map plain ls) args kwargs = Ret vals /\ (existsb l_positive ls = true -> exists v, In ("n_samples", v) vals /\ positive v)).
Proof.
  induction ls as [|l ls IH]; intros HI Hn args kwargs vals; [simpl; split; [intros; split; auto; discriminate|tauto]|].
  cbn [map call plain l_params l_positive l_force]. cbn [params_of] in Hn. rewrite map_app in Hn.
  destruct (bind (l_params l) args kwargs) as [[[b a'] k']|] eqn:EB; [|split; [discriminate|intros [X _]; discriminate X]].
  assert (Hn' : NoDup (map fst (params_of ls))).
  { clear -Hn. induction (map fst (l_params l)) as [|x xs IHx]; auto. inversion Hn; subst. auto. }
  specialize (IH (fun x Hx => HI x (or_intror Hx)) Hn' a' (force k' (l_force l))).
  assert (HE : check_positive b = None \/ exists e, check_positive b = Some e /\ forall x, e <> Ret x).
  { unfold check_positive. destruct (kw_get b "n_samples") as [[]|]; try destruct (Qle_bool _ _); try destruct b0; eauto;
      right; eexists; split; eauto; discriminate. }
  assert (HV : forall b', call (map plain ls) a' (force k' (l_force l)) = Ret b' -> NoDup (map fst (b ++ b'))).
  { intros b' E. rewrite map_app, (bind_names _ _ _ _ _ _ EB), (call_names _ _ _ _ E), params_plain. auto. }
  cbn [existsb]. destruct (l_positive l) eqn:EP; cbn [orb].
  - assert (HS : In "n_samples" (map fst b)) by (rewrite (bind_names _ _ _ _ _ _ EB); apply HI; simpl; auto).
    split.
    + destruct HE as [HE|(e & HE & Hne)]; rewrite HE; [|intros X; exfalso; apply (Hne vals); auto].
      destruct (call ls a' (force k' (l_force l))) as [b'| |] eqn:E; try discriminate. intros X. injection X as <-.
      destruct (proj1 (IH b') eq_refl) as [-> _]. split; auto. intros _. apply check_none in HE. destruct HE as (v & Hv & P).
      exists v. split; auto. apply in_app_iff. left. apply get_in. auto.
    + intros [X Y]. destruct (call (map plain ls) a' (force k' (l_force l))) as [b'| |] eqn:E; try discriminate. injection X as <-.
      destruct (Y eq_refl) as (v & Hv & P). pose proof (HV b' eq_refl) as HND.
      assert (Hb : In ("n_samples", v) b).
      { apply in_app_iff in Hv. destruct Hv as [|Hv]; auto. exfalso. apply in_map_iff in HS. destruct HS as ([n w] & En & Hw). simpl in En. subst n.
        apply in_split in Hw. destruct Hw as (b1 & b2 & ->). rewrite <- app_assoc, map_app in HND. cbn [app map fst] in HND.
        apply NoDup_remove_2 in HND. apply HND. rewrite in_app_iff, map_app, in_app_iff. right. right.
        change "n_samples" with (fst ("n_samples", v)). apply in_map. auto. }
      assert (HC : check_positive b = None).
      { apply check_none. exists v. split; auto. apply in_get; auto. rewrite map_app in HND.
        clear -HND. induction (map fst b) as [|x xs IHx]; [constructor|]. inversion HND; subst. constructor; auto. rewrite in_app_iff in H1. tauto. }
      rewrite HC. assert (E' : call ls a' (force k' (l_force l)) = Ret b').
      { apply IH. split; auto. intros Z. exfalso.
        apply existsb_exists in Z. destruct Z as (x & Hx & Px). pose proof (HI x (or_intror Hx) Px) as HS2.
        assert (HS' : In "n_samples" (map fst b')).
        { rewrite (call_names _ _ _ _ E), params_plain. clear -Hx HS2. induction ls as [|y ls IHl]; [destruct Hx|].
          cbn [params_of]. rewrite map_app, in_app_iff. destruct Hx as [->|Hx]; auto. }
        apply in_split in Hb. destruct Hb as (b1 & b2 & ->).
        rewrite <- app_assoc, map_app in HND. cbn [app map fst] in HND. apply NoDup_remove_2 in HND. apply HND.
        rewrite in_app_iff, map_app, in_app_iff. auto. }
      rewrite E'. auto.
  - split.
    + destruct (call ls a' (force k' (l_force l))) as [b'| |] eqn:E; try discriminate. intros X. injection X as <-.
      destruct (proj1 (IH b') eq_refl) as [-> Y]. split; auto. intros Z. destruct (Y Z) as (v & Hv & P). exists v. split; auto.
      apply in_app_iff. auto.
    + intros [X Y]. destruct (call (map plain ls) a' (force k' (l_force l))) as [b'| |] eqn:E; try discriminate. injection X as <-.
      assert (E' : call ls a' (force k' (l_force l)) = Ret b'); [|rewrite E'; auto].
      apply IH. split; auto. intros Z. destruct (Y Z) as (v & Hv & P). exists v. split; auto.
      apply in_app_iff in Hv. destruct Hv as [Hv|]; auto. exfalso.
      apply existsb_exists in Z. destruct Z as (x & Hx & Px). pose proof (HI x (or_intror Hx) Px) as HS.
      assert (HS' : In "n_samples" (map fst b')).
      { rewrite (call_names _ _ _ _ E), params_plain. clear -Hx HS. induction ls as [|y ls IHl]; [destruct Hx|].
        cbn [params_of]. rewrite map_app, in_app_iff. destruct Hx as [->|Hx]; auto. }
      pose proof (HV b' eq_refl) as HND. apply in_split in Hv. destruct Hv as (b1 & b2 & ->).
      rewrite <- app_assoc, map_app in HND. cbn [app map fst] in HND. apply NoDup_remove_2 in HND. apply HND.
      rewrite in_app_iff, map_app, in_app_iff. auto.
Qed.

(** ** The classes. *)
Lemma fits_ext : forall sig args k1 k2, (forall j v, In (j, v) k1 <-> In (j, v) k2) -> fits sig args k1 -> fits sig args k2.
Proof. intros sig args k1 k2 E [H1 H2]. split; auto. intros k v H. apply (H2 k v). apply E. auto. Qed.
Lemma given_ext : forall sig args k1 k2 vals, (forall j v, In (j, v) k1 <-> In (j, v) k2) -> as_given sig args k1 vals -> as_given sig args k2 vals.
Proof.
  intros sig args k1 k2 vals E [H1 H2]. split; auto. intros i k d v A B. destruct (H2 i k d v A B) as [X|[X Y]]; auto. right. split; auto.
  destruct Y as [Y|[Y ->]]; [left; apply E; auto|]. right. split; auto. intros w Hw. apply (Y w). apply E. auto.
Qed.
Lemma forces_nodup : forall ls k, NoDup (map fst k) -> NoDup (map fst (forces_of ls k)).
Proof.
  induction ls as [|l ls IH]; intros k H; simpl; auto. apply IH. destruct (l_force l) as [[a v]|]; simpl; auto. apply nodup_set. auto.
Qed.

Lemma chain_exact : forall ls sig ch pos,
  late ls [] -> params_of ls = sig -> NoDup (map fst sig) ->
  (forall l, In l ls -> l_positive l = true -> In "n_samples" (map fst (l_params l))) -> existsb l_positive ls = pos ->
  (forall kwargs, NoDup (map fst kwargs) -> overridden kwargs ch (forces_of ls kwargs)) ->
  forall args kwargs used vals, NoDup (map fst kwargs) -> overridden kwargs ch used ->
  call ls args kwargs = Ret vals <->
  fits sig args used /\ as_given sig args used vals /\ (pos = true -> exists v, value vals "n_samples" v /\ positive v).
Proof.
  intros ls sig ch pos HL Hs Hn HI Hp HO args kwargs used vals Hk Hu. subst sig pos.
  assert (EU : forall j v, In (j, v) (forces_of ls kwargs) <-> In (j, v) used).
  { intros j v. pose proof (HO kwargs Hk j v) as A. pose proof (Hu j v) as B. unfold value in A, B. tauto. }
  rewrite (call_checked ls HI Hn args kwargs vals).
  rewrite (call_flat (map plain ls)) with (seen := []); [|intros l H; apply in_map_iff in H; destruct H as (x & <- & _); auto|apply late_plain; auto].
  rewrite params_plain, forces_plain.
  pose proof (forces_nodup ls kwargs Hk) as Hk'. split.
  - intros [E P]. destruct (flat (params_of ls) args (forces_of ls kwargs)) as [b|] eqn:F; [|discriminate]. injection E as ->.
    destruct (flat_some _ _ _ _ Hn Hk' F) as [A B]. split; [eapply fits_ext; eauto|]. split; auto. eapply given_ext; eauto.
  - intros (A & B & P). assert (A' : fits (params_of ls) args (forces_of ls kwargs)) by (eapply fits_ext; [|exact A]; intros; rewrite EU; tauto).
    destruct (flat_fits _ _ _ Hn Hk' A') as (b & F). rewrite F. split; auto. f_equal. destruct (flat_some _ _ _ _ Hn Hk' F) as [_ B'].
    eapply as_given_unique; [exact Hk'|exact B'|]. eapply given_ext; [|exact B]. intros; rewrite EU; tauto.
Qed.

Lemma override_none : forall kwargs, overridden kwargs [] kwargs.
Proof. intros kwargs k v. unfold value. simpl. intuition. Qed.
Lemma override_one : forall kwargs a x, NoDup (map fst kwargs) -> overridden kwargs [(a, x)] (kw_set kwargs a x).
Proof.
  intros kwargs a x Hn k v. unfold value. rewrite in_set by auto. simpl. split.
  - intros [[-> ->]|[H N]]; auto. right. split; auto. intros w [E|[]]. injection E as -> _. congruence.
  - intros [[E|[]]|[H N]]; [injection E as <- <-; auto|]. right. split; auto. intros ->. apply (N x). auto.
Qed.
Lemma override_two : forall kwargs a x b y, NoDup (map fst kwargs) -> a <> b ->
  overridden kwargs [(a, x); (b, y)] (kw_set (kw_set kwargs a x) b y).
Proof.
  intros kwargs a x b y Hn Hab k v. unfold value. rewrite in_set by (apply nodup_set; auto). rewrite in_set by auto. simpl. split.
  - intros [[-> ->]|[[[-> ->]|[H N]] N']]; auto. right. split; auto. intros w [E|[E|[]]]; injection E as -> _; congruence.
  - intros [[E|[E|[]]]|[H N]].
    + injection E as <- <-. right. auto. + injection E as <- <-. auto.
    + right. split; [|intros ->; apply (N y); auto]. right. split; auto. intros ->. apply (N x). auto.
Qed.

Ltac nodup_strings := repeat (constructor; [simpl; let H := fresh in intros H; repeat (destruct H as [H|H]; [discriminate H|]); exact H|]); constructor.
Ltac no_string := simpl; let H := fresh in intros H; repeat (destruct H as [H|H]; [discriminate H|]); exact H.

Lemma options_nodup : forall c, NoDup (map fst (run_options c)).
Proof. intros []; nodup_strings. Qed.
Lemma levels_late : forall rows c, late (run_level :: levels rows c) [].
Proof. intros rows []; simpl; repeat split; no_string. Qed.
Lemma levels_late' : forall rows c, late (levels rows c) [].
Proof. intros rows []; simpl; repeat split; no_string. Qed.
Lemma levels_samples : forall rows c l, In l (run_level :: levels rows c) -> l_positive l = true -> In "n_samples" (map fst (l_params l)).
Proof.
  intros rows c l H P. destruct c; simpl in H; repeat (destruct H as [H|H]; [subst l; try discriminate P; simpl; auto|]); destruct H.
Qed.
Lemma levels_override : forall rows c kwargs, NoDup (map fst kwargs) -> overridden kwargs (chosen rows c) (forces_of (levels rows c) kwargs).
Proof.
  intros rows c kwargs H.
  destruct c; first [apply override_none|apply override_one; auto; fail|apply override_two; auto; discriminate].
Qed.

Lemma initialize_exact : forall rows c args kwargs used vals, NoDup (map fst kwargs) -> overridden kwargs (chosen rows c) used ->
  initialize rows c args kwargs = Ret vals <->
  fits (options c) args used /\ as_given (options c) args used vals /\
  (samples_positive c = true -> exists v, value vals "n_samples" v /\ positive v).
Proof.
  intros rows c args kwargs used vals Hk Hu. apply (chain_exact (levels rows c) (options c) (chosen rows c)); auto.
  - apply levels_late'. - destruct c; reflexivity.
  - pose proof (options_nodup c) as H. inversion H as [|x l _ H1]; subst. inversion H1; auto.
  - intros l H. apply (levels_samples rows c). simpl. auto.
  - destruct c; reflexivity. - apply levels_override.
Qed.
Lemma run_exact : forall rows c args kwargs used vals, NoDup (map fst kwargs) -> overridden kwargs (chosen rows c) used ->
  run rows c args kwargs = Ret vals <->
  fits (run_options c) args used /\ as_given (run_options c) args used vals /\
  (samples_positive c = true -> exists v, value vals "n_samples" v /\ positive v).
Proof.
  intros rows c args kwargs used vals Hk Hu. apply (chain_exact (run_level :: levels rows c) (run_options c) (chosen rows c)); auto.
  - apply levels_late. - destruct c; reflexivity. - apply options_nodup. - apply levels_samples.
  - destruct c; reflexivity. - intros k H. apply (levels_override rows c k H).
Qed.

(** ** Errors. *)
Lemma no_value_error : forall ls, (forall l, In l ls -> l_positive l = false) -> forall args kwargs, call ls args kwargs <> RaiseValueError.
Proof.
  induction ls as [|l ls IH]; intros H args kwargs; cbn [call].
  - destruct args, kwargs; discriminate.
  - destruct (bind (l_params l) args kwargs) as [[[b a'] k']|]; [|discriminate]. rewrite (H l (or_introl eq_refl)).
    specialize (IH (fun x Hx => H x (or_intror Hx)) a' (force k' (l_force l))). destruct (call ls a' (force k' (l_force l))); try discriminate. congruence.
Qed.
Lemma value_error : forall rows c args kwargs, initialize rows c args kwargs = RaiseValueError ->
  samples_positive c = true /\ exists v, (nth_error args 0 = Some v \/ value kwargs "n_samples" v) /\ ~ positive v.
Proof.
  intros rows c args kwargs. unfold initialize. destruct (samples_positive c) eqn:SP.
  2:{ intros E. exfalso. eapply no_value_error; [|exact E]. intros l H. destruct c; try discriminate SP; simpl in H;
      repeat (destruct H as [H|H]; [subst l; reflexivity|]); destruct H. }
  intros E. split; auto.
  assert (HC : exists l ls, levels rows c = l :: ls /\ l_positive l = true /\ (exists ps, l_params l = ("n_samples", PNum 1) :: ps) /\
             forall x, In x ls -> l_positive x = false).
  { destruct c; try discriminate SP; do 2 eexists; (split; [reflexivity|]); (split; [reflexivity|]); (split; [eexists; reflexivity|]);
      intros x H; simpl in H; repeat (destruct H as [H|H]; [subst x; reflexivity|]); destruct H. }
  destruct HC as (l & ls & EL & EP & (ps & EQ) & HN). rewrite EL in E. cbn [call] in E. rewrite EP, EQ in E.
  destruct (bind (("n_samples", PNum 1) :: ps) args kwargs) as [[[b a'] k']|] eqn:EB; [|discriminate].
  destruct (check_positive b) as [e|] eqn:EC.
  2:{ exfalso. destruct (call ls a' (force k' (l_force l))) eqn:E2; try discriminate. eapply no_value_error; eauto. }
  subst e. cbn [bind] in EB. destruct args as [|a args].
  - destruct (bind ps [] (kw_del kwargs "n_samples")) as [[[b' l'] k2]|]; [|discriminate]. injection EB as <- _ _.
    unfold check_positive in EC. simpl in EC. destruct (kw_get kwargs "n_samples") as [v|] eqn:G; [|discriminate].
    exists v. split; [right; apply get_in; auto|]. intros P. destruct v; try discriminate; simpl in P.
    + subst b. discriminate. + destruct (Qle_bool q 0) eqn:L; [|discriminate]. apply Qle_bool_iff in L. eapply Qlt_not_le; eauto.
  - destruct (kw_get kwargs "n_samples") eqn:G; [discriminate|]. destruct (bind ps args kwargs) as [[[b' l'] k2]|]; [|discriminate].
    injection EB as <- _ _. unfold check_positive in EC. simpl in EC. exists a. split; [left; auto|]. intros P. destruct a; try discriminate; simpl in P.
    + subst b. discriminate. + destruct (Qle_bool q 0) eqn:L; [|discriminate]. apply Qle_bool_iff in L. eapply Qlt_not_le; eauto.
Qed.

Lemma sampler_positional : forall rows c args kwargs, NoDup (map fst kwargs) -> value (chosen rows c) "n_iter" (PNum rows) ->
  (length (options c) - length common < length args)%nat -> initialize rows c args kwargs = RaiseTypeError.
Proof.
  intros rows c args kwargs Hk Hc Hl. destruct (initialize rows c args kwargs) as [vals| |] eqn:E; auto; exfalso.
  - pose proof (levels_override rows c kwargs Hk) as HO. apply (initialize_exact rows c args kwargs _ vals Hk HO) in E.
    destruct E as ([_ HF] & _). destruct (HF "n_iter" (PNum rows)) as (i & d & Hi & Hle).
    + apply HO. auto.
    + assert (Hi' : i = (length (options c) - length common)%nat); [|lia].
      pose proof (options_nodup c) as Hn. inversion Hn as [|x l _ H1]; subst. inversion H1 as [|x l _ H2]; subst.
      rewrite NoDup_nth_error in H2. apply H2.
      * rewrite map_length. apply nth_error_Some. fold (options c). congruence.
      * rewrite !nth_error_map. change (nth_error (options c) i) with (nth_error (options c) i). fold (options c) in *. rewrite Hi. destruct c; reflexivity.
  - apply value_error in E. destruct E as [SP _]. destruct c; simpl in Hc; try discriminate SP; destruct Hc.
Qed.

Lemma used_exist : forall rows c kwargs, NoDup (map fst kwargs) -> exists used, NoDup (map fst used) /\ overridden kwargs (chosen rows c) used.
Proof.
  intros rows c kwargs H. exists (forces_of (levels rows c) kwargs). split; [apply forces_nodup; auto|apply levels_override; auto].
Qed.
Lemma given_refuted : exists rows c kwargs vals v w,
  NoDup (map fst kwargs) /\ initialize rows c [] kwargs = Ret vals /\
  value kwargs "n_iter" v /\ value vals "n_iter" w /\ v <> w.
Proof.
  exists 500%Q, HMC, [("n_iter", PNum 10)]. eexists. exists (PNum 10), (PNum 500).
  split; [repeat constructor; simpl; tauto|]. split; [reflexivity|]. split; [unfold value; simpl; auto|]. split; [unfold value; simpl; auto|discriminate].
Qed.
