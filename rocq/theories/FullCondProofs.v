(** * Proofs for C79. *)
From Coq Require Import Reals Lra String List Arith Lia Permutation Wf_nat.
From Verif Require Import Graph GraphSpec GraphProofs BayesBallProofs CondJoint CondJointSpec CondJointProofs.
From Verif Require Import FullCondSpec.
Import ListNotations.
Local Open Scope list_scope.
Local Open Scope R_scope.

Lemma add_perm : forall l l', Permutation l l' -> add l = add l'.
Proof. intros l l' H. unfold add. induction H; cbn; try lra. Qed.
Lemma add_app : forall l l', add (l ++ l') = add l + add l'.
Proof. induction l as [|x l IH]; intros l'; cbn; [unfold add; lra|]. fold (add (l ++ l')). rewrite IH. unfold add. lra. Qed.

Lemma joint_value_add : forall lp l, joint_value lp (AddN (map LogProb l)) = add (map lp l).
Proof. intros lp l. cbn. rewrite map_map. reflexivity. Qed.

Section S.
Variables (V : Type) (sem : nat -> list V -> V) (score : nat -> V -> list V -> R) (params : nat -> list nat).
Variables (g : graph) (h : nat -> nat) (coll : list nat).
Hypothesis Hsp : single_producer g.
Hypothesis Hd : distinct_values g coll.
Hypothesis Hh : no_cycles g h.
Hypothesis Hs : sampled_from_parameters g coll params.

Lemma held_dec : forall t, (exists r, In r coll /\ value g r = t) \/ (forall r, In r coll -> value g r <> t).
Proof.
  intros t. clear Hd Hs. induction coll as [|r l IH]; [right; intros r []|].
  destruct (Nat.eq_dec (value g r) t) as [E|E]; [left; exists r; cbn; auto|].
  destruct IH as [[q [A B]]|A]; [left; exists q; cbn; auto|right; intros q [->|Hq]; auto].
Qed.

Lemma local : forall z b env env', In z coll -> In b coll -> b <> z -> ~ child_rel g coll b z ->
  computed sem g coll env -> computed sem g coll env' -> same_but g coll z env env' ->
  forall t, up g (clear g coll (NRV b)) (value g b) t -> env t = env' t.
Proof.
  intros z b env env' Hz Hb Hbz Hc He He' Hsame t.
  induction t as [t IH] using (induction_ltof1 _ h). unfold ltof in IH. intros Hu.
  destruct (held_dec t) as [[r [Hr E]]|Hn].
  - destruct (Nat.eq_dec r z) as [->|Hrz]; [|rewrite <- E; apply Hsame; auto].
    exfalso. apply Hc. apply (parent_child_rel g coll z b Hd Hz Hb).
    split; [exact Hz|]. split; [congruence|]. rewrite E. exact Hu.
  - rewrite (He t Hn), (He' t Hn). f_equal. apply map_ext_in. intros i Hi.
    apply (op_inputs_edge g Hsp) in Hi. apply IH; [apply Hh; exact Hi|].
    eapply up_trans; [exact Hu|]. eapply up_step; [|exact Hi|apply up_refl].
    intros r Hr E. exfalso. exact (Hn r Hr E).
Qed.

Lemma density_same : forall z b env env', In z coll -> In b coll -> b <> z -> ~ child_rel g coll b z ->
  computed sem g coll env -> computed sem g coll env' -> same_but g coll z env env' ->
  log_density score params g env b = log_density score params g env' b.
Proof.
  intros z b env env' Hz Hb Hbz Hc He He' Hsame. unfold log_density. f_equal.
  - apply Hsame; auto.
  - apply map_ext_in. intros p Hp. apply (local z b env env'); auto.
Qed.
End S.

Lemma perm_split : forall (A : Type) (P : A -> Prop) (dec : forall x, {P x} + {~ P x}) (l : list A),
  Permutation l (filter (fun x => if dec x then true else false) l ++ filter (fun x => if dec x then false else true) l).
Proof.
  intros A P dec l. induction l as [|x l IH]; cbn; [constructor|]. destruct (dec x); cbn.
  - now constructor.
  - eapply perm_trans; [apply perm_skip; exact IH|]. apply Permutation_middle.
Qed.

Lemma full_conditional : forall V (sem : nat -> list V -> V) (score : nat -> V -> list V -> R) params
    g h coll pick fuel z rv who model env0,
  single_producer g -> distinct_values g coll -> no_cycles g h -> sampled_from_parameters g coll params ->
  (enough g <= fuel)%nat -> named coll rv who -> model_of coll rv model -> In z model ->
  computed sem g coll env0 ->
  exists bl, get_blanket g coll pick fuel (NRV z) = Some bl /\
  forall hist l, Permutation l (rv z :: default_cond (map rv bl)) ->
    numbered_rvs (concat (l :: hist)) -> named_apart (concat (l :: hist)) ->
    Forall (fun b => conj b = true) l ->
  exists t c, snd (get_log_joint (after hist) l) = Some t /\
  forall env, computed sem g coll env -> same_but g coll z env0 env ->
    joint_value (fun b => log_density score params g env (who b)) t + c =
    add (map (log_density score params g env) model).
Proof.
  intros V sem score params g h coll pick fuel z rv who model env0 Hsp Hd Hh Hs Hf Hn [Hnd Hm] Hz He0.
  assert (Hzc : In z coll) by (apply Hm; exact Hz).
  destruct (get_blanket_exact g coll pick fuel z Hsp Hd Hzc Hf) as [bl [Hbl [Hbn Hbi]]].
  exists bl. split; [exact Hbl|]. intros hist l Hl H1 H2 H3.
  destruct (proj1 (log_joint_of_set hist l H1 H2) H3) as [l' [Et Pl]].
  assert (Hblc : forall b, In b bl -> In b coll).
  { intros b Hb. apply Hbi in Hb. destruct Hb as [_ [Hb|[Hb|[c [_ Hb]]]]]; apply Hb. }
  set (inl := fun b => if in_dec Nat.eq_dec b (z :: bl) then true else false).
  set (outl := fun b => if in_dec Nat.eq_dec b (z :: bl) then false else true).
  exists (AddN (map LogProb l')), (add (map (log_density score params g env0) (filter outl model))).
  split; [exact Et|]. intros env He Hsame. rewrite joint_value_add.
  assert (Pm : Permutation model (filter inl model ++ filter outl model)).
  { apply (perm_split nat (fun b => In b (z :: bl)) (fun b => in_dec Nat.eq_dec b (z :: bl))). }
  rewrite (add_perm _ _ (Permutation_map (log_density score params g env) Pm)).
  rewrite map_app, add_app. f_equal.
  - rewrite <- (map_map who (log_density score params g env)). apply add_perm. apply Permutation_map.
    eapply perm_trans; [apply Permutation_map; apply Permutation_sym; exact Pl|].
    eapply perm_trans; [apply Permutation_map; exact Hl|]. cbn [map]. rewrite (Hn z Hzc).
    assert (Ew : forall m, (forall b, In b m -> In b coll) -> forall x, In x (map who (default_cond (map rv m))) <-> In x m /\ ~ is_result (rv x)).
    { intros m Hmc x. rewrite in_map_iff. split.
      - intros [c [E Hc]]. apply (proj1 (default_set (map rv m))) in Hc. destruct Hc as [Hc Hr].
        apply in_map_iff in Hc. destruct Hc as [y [Ey Hy]]. subst c. rewrite (Hn y (Hmc y Hy)) in E. subst y. auto.
      - intros [Hx Hr]. exists (rv x). split; [apply Hn; auto|]. apply (proj1 (default_set (map rv m))).
        split; [apply in_map; exact Hx|exact Hr]. }
    assert (Nw : forall m, (forall b, In b m -> In b coll) -> NoDup m -> NoDup (map who (default_cond (map rv m)))).
    { clear -Hn. induction m as [|a m IH]; intros Hmc Hnm; [constructor|]. inversion Hnm as [|? ? Ha Hm']; subst.
      assert (IH' : NoDup (map who (default_cond (map rv m)))) by (apply IH; [intros b Hb; apply Hmc; now right|exact Hm']).
      unfold default_cond in *. cbn [map filter]. destruct (negb _); [|exact IH']. cbn [map]. rewrite (Hn a) by (apply Hmc; now left).
      constructor; [|exact IH']. intros Hin. apply in_map_iff in Hin. destruct Hin as [c [E Hc]]. apply filter_In in Hc.
      destruct Hc as [Hc _]. apply in_map_iff in Hc. destruct Hc as [y [Ey Hy]]. subst c.
      rewrite (Hn y) in E by (apply Hmc; now right). subst y. contradiction. }
    apply NoDup_Permutation.
    + constructor; [|apply Nw; assumption]. rewrite Ew by exact Hblc. intros [Hb _]. apply Hbi in Hb. tauto.
    + apply NoDup_filter. exact Hnd.
    + intros x. cbn [In]. rewrite Ew by exact Hblc. rewrite filter_In, Hm. unfold inl.
      destruct (in_dec Nat.eq_dec x (z :: bl)) as [Hi|Hi]; cbn [In] in Hi.
      * split; [|intros [[_ Hr] _]; destruct Hi as [Hi|Hi]; auto].
        intros [->|[Hx Hr]]; [split; [apply Hm; exact Hz|reflexivity]|]. auto.
      * split; [tauto|intros [_ Hf']; discriminate].
  - f_equal. apply map_ext_in. intros b Hb. apply filter_In in Hb. destruct Hb as [Hb Ho]. unfold outl in Ho.
    destruct (in_dec Nat.eq_dec b (z :: bl)) as [Hi|Hi]; [discriminate|]. cbn [In] in Hi.
    assert (Hbc : In b coll) by (apply Hm; exact Hb).
    assert (Hbz : b <> z) by (intros ->; tauto).
    apply (density_same V sem score params g h coll Hsp Hd Hh Hs z b env0 env); auto.
    intros Hc. apply Hi. right. apply Hbi. split; auto.
Qed.
