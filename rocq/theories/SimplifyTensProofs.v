(** * Tensors that survive simplification keep their values (proofs). *)
From Coq Require Import List Arith ZArith QArith Qreals Reals Bool Lra Lia.
From Verif Require Import Simplify SimplifySpec SimplifyTermProofs SimplifyProofs SimplifyExtractProofs.
Import ListNotations.
Local Open Scope R_scope.

(** A predicate on heads and arguments, everywhere in an expression. *)
Fixpoint alln (P : head -> list expr -> Prop) (e : expr) : Prop :=
  match e with Node h args => P h args /\ all (alln P) args end.

Lemma alln_args : forall P h args, alln P (Node h args) <-> P h args /\ Forall (alln P) args.
Proof. intros. cbn [alln]. rewrite all_Forall. tauto. Qed.

Lemma alln_sub : forall P h args e, subexpr (Node h args) e -> alln P e -> P h args.
Proof.
  intros P h args e H. remember (Node h args) as s. induction H; intros Ha; subst.
  - apply alln_args in Ha. tauto.
  - apply alln_args in Ha. destruct Ha as [_ Ha]. rewrite Forall_forall in Ha. auto.
Qed.

Definition creatable_n (P : head -> list expr -> Prop) : Prop :=
  forall h args, match h with HTens _ | HX => False | _ => True end -> P h args.

Lemma rw_alln : forall P, creatable_n P -> forall ti e e', rw ti e e' -> alln P e -> alln P e'.
Proof.
  intros P Cn ti e e' Hrw Hp.
  assert (C' : forall h args, match h with HTens _ | HX => False | _ => True end ->
     Forall (alln P) args -> alln P (Node h args)) by (intros; apply alln_args; auto).
  destruct Hrw as [a r|h q args E|p q a r2 r E|p q a r2 r|q a r2 r|a p r2 r|ms r|q ms r| |ms p r
    |l1 js l2|op args Hop|op a Hop|op v args Hu|op v args a Hu Ef|args Ez|q js r E|t l q b r Ec Eq
    |t a r Ec|a b r]; apply alln_args in Hp; destruct Hp as [Hh HF].
  - inversion HF; auto.
  - apply C'; auto.
  - inversion HF as [|? ? H1 H2]; subst. apply alln_args in H1. destruct H1 as [_ H1]. inversion H1; auto.
  - inversion HF as [|? ? H1 H2]; subst. apply alln_args in H1. destruct H1 as [_ H1].
    inversion H1; subst. apply C'; auto.
  - inversion HF as [|? ? H1 H2]; subst. apply alln_args in H1. destruct H1 as [_ H1].
    inversion H1; subst. apply C'; [exact I|]. constructor; [apply C'; simpl; auto|].
    constructor; [apply C'; simpl; auto|auto].
  - inversion HF as [|? ? H1 H2]; subst. apply alln_args in H1. destruct H1 as [_ H1].
    inversion H1 as [|? ? H3 H4]; subst. inversion H4; subst.
    apply C'; [exact I|]. constructor; auto.
  - inversion HF as [|? ? H1 H2]; subst. apply alln_args in H1. destruct H1 as [_ H1].
    apply C'; simpl; auto. apply Forall_map. rewrite Forall_forall in *.
    intros a Ha. apply C'; simpl; auto.
  - inversion HF as [|? ? H1 H2]; subst. apply alln_args in H1. destruct H1 as [_ H1].
    apply C'; simpl; auto. apply Forall_map. rewrite Forall_forall in *.
    intros a Ha. apply C'; simpl; auto.
  - apply C'; simpl; auto.
  - inversion HF as [|? ? H1 H2]; subst. apply alln_args in H1. destruct H1 as [_ H1].
    inversion H2; subst. apply C'; simpl; auto. apply Forall_map. rewrite Forall_forall in *.
    intros a Ha. apply C'; simpl; auto.
  - apply Forall_app in HF. destruct HF as [H1 H2]. inversion H2 as [|? ? H3 H4]; subst.
    apply alln_args in H3. destruct H3 as [_ H3]. apply C'; simpl; auto. apply Forall_map.
    rewrite Forall_forall in H3 |- *. intros a Ha. apply C'; simpl; auto.
    repeat (apply Forall_app; split; auto).
  - apply C'; simpl; auto. apply flat_Forall; auto. intros a Ha _. destruct a.
    apply alln_args in Ha. tauto.
  - inversion HF; auto.
  - apply C'; simpl; auto. now apply Forall_filter.
  - assert (HF' : Forall (alln P) [a]) by (rewrite <- Ef; now apply Forall_filter).
    inversion HF'; auto.
  - apply C'; simpl; auto.
  - inversion HF as [|? ? H1 H2]; subst. apply alln_args in H1. destruct H1 as [_ H1].
    apply C'; [exact I|]. apply square_terms_Forall; auto.
  - inversion HF as [|? ? H1 H2]; subst. inversion H2; subst. apply C'; simpl; auto.
  - inversion HF; auto.
  - inversion HF; subst. apply C'; simpl; auto.
Qed.

Section Tens.
Variable ti : tinfo.
Variable en : env.
Hypothesis Hen : env_ok ti en.
Variable own : nat -> R.
Variable x0 : R.

Definition has_own (h : head) (args : list expr) : Prop :=
  match h with
  | HTens t => is_cast ti t = true \/ own t = den en x0 (Node h args)
  | _ => True
  end.
Definition tens_ok (e : expr) : Prop := alln has_own e.

Lemma creatable_own : creatable_n has_own.
Proof. intros [| | | |] args H; simpl in *; tauto. Qed.

Definition tstep (e e' : expr) : Prop :=
  exact ti en e e' /\ (powers_within 7 e -> dom ti en x0 e -> tens_ok e -> tens_ok e').

Lemma tstep_refl : forall e, tstep e e.
Proof. intros e. split; [apply exact_refl|auto]. Qed.
Lemma tstep_trans : forall a b c, tstep a b -> tstep b c -> tstep a c.
Proof.
  intros a b c [E1 T1] [E2 T2]. split; [eapply exact_trans; eauto|].
  intros P D T. destruct E1 as [L1 R1]. destruct (R1 P x0 D) as [D1 _].
  apply T2; [apply L1; auto|auto|auto].
Qed.
Lemma tstep_rw : forall e e', rw ti e e' -> tstep e e'.
Proof.
  intros e e' H. split; [now apply rw_exact|]. intros _ _. apply (rw_alln _ creatable_own ti); auto.
Qed.
Lemma tstep_cong : forall h args args', Forall2 tstep args args' -> tstep (Node h args) (Node h args').
Proof.
  intros h args args' H.
  assert (He : Forall2 (exact ti en) args args') by (eapply Forall2_impl; [|exact H]; intros a b [A _]; exact A).
  pose proof (exact_cong ti en h args args' He) as Hx. split; auto.
  intros P D T. apply alln_args in T. destruct T as [Th TF]. apply alln_args. split.
  - destruct h; simpl in *; auto. destruct Th as [Th|Th]; auto. right. rewrite Th.
    destruct Hx as [_ Hr]. destruct (Hr P x0 D) as [_ [Hd _]]. simpl in Hd. congruence.
  - apply dom_args in D. apply pw_args in P. clear Hx He Th.
    induction H as [|a a' l l' [_ Ha] Hl IH]; auto.
    inversion D; subst. inversion P; subst. inversion TF; subst.
    constructor; [apply Ha; assumption|apply IH; assumption].
Qed.

Lemma wrapped_tstep : forall fn, In fn (other_fns ti) ->
  forall e b e', wrapped fn e = Ret (b, e') -> good ti e e' /\ tstep e e'.
Proof.
  intros fn Hfn e b e' H. split.
  - eapply wrapped_other; eauto.
  - eapply (wrapped_closure tstep); eauto using tstep_refl, tstep_cong.
    intros. apply tstep_rw. eapply fn_rw; eauto.
Qed.

Lemma repeat_tstep : forall fn, In fn (other_fns ti) ->
  forall fuel did e d e', repeat_wrapped fuel fn did e = Some (Ret (d, e')) ->
  (good ti e e' /\ tstep e e') /\ (forall s, subexpr s e' -> fn s = Nothing).
Proof.
  intros fn Hfn. apply (repeat_closure (fun e e' => good ti e e' /\ tstep e e')).
  - intros; split; [apply good_refl|apply tstep_refl].
  - intros a b c [] []. split; [eapply good_trans; eauto|eapply tstep_trans; eauto].
  - now apply (other_dec ti).
  - now apply wrapped_tstep.
Qed.

Lemma sweep_tsteps : forall fns, (forall fn, In fn fns -> In fn (other_fns ti)) ->
  forall fuel did e d e', sweep fuel fns did e = Some (Ret (d, e')) -> good ti e e' /\ tstep e e'.
Proof.
  induction fns as [|fn fns IH]; intros Hin fuel did e d e' H.
  - simpl in H. inversion H; subst. split; [apply good_refl|apply tstep_refl].
  - simpl in H. destruct (repeat_wrapped fuel fn false e) as [[[d1 e1]|]|] eqn:E; try discriminate.
    apply repeat_tstep in E; [|apply Hin; now left]. destruct E as [[G X] _].
    apply IH in H; [|intros; apply Hin; now right]. destruct H as [G2 X2].
    split; [eapply good_trans; eauto|eapply tstep_trans; eauto].
Qed.

(** Pruning of constants happens outside the tensors that matter. *)
Lemma add_const_alln : forall e, linear_form ti e -> nosq e -> no_square_of_sum e ->
  forall b e', wrapped add_const_simplify e = Ret (b, e') -> tens_ok e -> tens_ok e'.
Proof.
  induction e as [h args IH] using expr_ind'. intros Hl Hsq Hns b e' H HT.
  assert (C' : forall h args, match h with HTens _ | HX => False | _ => True end ->
     Forall tens_ok args -> tens_ok (Node h args))
    by (intros; apply alln_args; split; auto; now apply creatable_own).
  assert (Hsub : forall a, In a args -> no_square_of_sum a).
  { intros a Ha s Hs. apply Hns. econstructor; eauto. }
  assert (Hsqa : Forall nosq args) by (unfold nosq in Hsq; apply allh_args in Hsq; tauto).
  pose proof HT as HT0. apply alln_args in HT. destruct HT as [HTh HTF].
  rewrite wrapped_eq in H.
  inversion Hl as [e Hm|args0 Hargs|l1 m l2 Hm Hc|m Hm|ms Hms|q ms Hq Hms|m Hm|t m Ht Hm]; subst.
  - rewrite <- wrapped_eq in H. rewrite (wrapped_nothing _ _ (mono_no_add _ Hm)) in H.
    inversion H; subst. auto.
  - unfold add_const_simplify in H at 1. cbn [is_sym sym_eqb args_of] in H.
    destruct (existsb (fun i => negb (contains_x i)) args) eqn:E.
    + inversion H; subst. apply C'; simpl; auto. now apply Forall_filter.
    + clear E. destruct (wrapped_list add_const_simplify args) as [[b1 args']|] eqn:El; inversion H; subst.
      apply C'; simpl; auto. clear Hl Hsq Hns H HTh HT0. revert b args' El.
      induction IH as [|a l Ha Hl IHl]; intros b args' El.
      * simpl in El. inversion El; subst. auto.
      * simpl in El. destruct (wrapped add_const_simplify a) as [[ba a']|] eqn:Ea; [|discriminate].
        destruct (wrapped_list add_const_simplify l) as [[bb ll]|] eqn:Ell; inversion El; subst.
        inversion Hargs; subst. inversion Hsqa; subst. inversion HTF; subst. constructor.
        -- eapply Ha; eauto. apply Hsub. now left.
        -- eapply IHl; eauto. intros c Hc. apply Hsub. now right.
  - unfold add_const_simplify in H at 1. cbn [is_sym sym_eqb] in H.
    destruct (wrapped_list add_const_simplify (l1 ++ m :: l2)) as [[b1 args']|] eqn:El; inversion H; subst.
    apply wrapped_list_app in El. destruct El as [b1 [l1' [b2 [l2' [E1 [E2 ->]]]]]].
    apply Forall_app in Hc. destruct Hc as [Hc1 Hc2].
    rewrite wrapped_list_mono in E1 by (eapply Forall_impl; [|exact Hc1]; simpl; tauto).
    inversion E1; subst. clear E1. simpl in E2.
    destruct (wrapped add_const_simplify m) as [[bm m']|] eqn:Em; [|discriminate].
    rewrite wrapped_list_mono in E2 by (eapply Forall_impl; [|exact Hc2]; simpl; tauto).
    inversion E2; subst. clear E2. rewrite Forall_forall in IH.
    assert (Hin : In m (l1' ++ m :: l2)) by (apply in_or_app; right; now left).
    apply Forall_app in Hsqa. destruct Hsqa as [_ Hsq2]. inversion Hsq2; subst.
    apply Forall_app in HTF. destruct HTF as [HT1 HT2]. inversion HT2; subst.
    apply C'; simpl; auto. apply Forall_app. split; auto. constructor; auto.
    eapply IH; eauto.
  - unfold add_const_simplify in H at 1. cbn [is_sym sym_eqb] in H.
    rewrite wrapped_list_mono in H by auto. inversion H; subst. auto.
  - unfold nosq in Hsq. apply allh_args in Hsq. destruct Hsq as [Hsq _]. congruence.
  - exfalso. specialize (Hns _ (sub_refl _)). unfold square_add_simplify in Hns.
    apply Qeq_eq_bool in Hq. rewrite Hq in Hns. discriminate.
  - unfold add_const_simplify in H at 1. cbn [is_sym sym_eqb wrapped_list] in H.
    destruct (wrapped add_const_simplify m) as [[bm m']|] eqn:Em; inversion H; subst.
    inversion IH as [|? ? IHm _]; subst. inversion Hsqa; subst. inversion HTF; subst.
    apply C'; simpl; auto. constructor; auto. eapply IHm; eauto. apply Hsub. now left.
  - unfold add_const_simplify in H at 1. cbn [is_sym wrapped_list] in H.
    destruct (wrapped add_const_simplify m) as [[bm m']|] eqn:Em; inversion H; subst.
    inversion IH as [|? ? IHm _]; subst. inversion Hsqa; subst. inversion HTF; subst.
    apply alln_args. split; [simpl; auto|]. constructor; auto. eapply IHm; eauto. apply Hsub. now left.
Qed.

Lemma repeat_add_const_alln : forall fuel did e d e',
  repeat_wrapped fuel add_const_simplify did e = Some (Ret (d, e')) ->
  linear_form ti e -> nosq e -> no_square_of_sum e -> tens_ok e -> tens_ok e'.
Proof.
  induction fuel as [|f IH]; intros did e d e' H Hl Hsq Hns HT; [discriminate|].
  simpl in H. destruct (wrapped add_const_simplify e) as [[b e1]|] eqn:E; [|discriminate].
  destruct (add_const_shift ti en Hen e Hl Hsq Hns _ _ E) as [[L [N _]] S2].
  pose proof (add_const_alln e Hl Hsq Hns _ _ E HT) as T1.
  destruct b; [eapply IH; eauto|]. inversion H; subst. auto.
Qed.

Definition kstep (e e' : expr) : Prop :=
  linear_form ti e -> powers_within 7 e -> dom ti en x0 e -> tens_ok e -> tens_ok e'.

Lemma sweep_kstep : forall fuel e d e',
  sweep fuel (simplify_fns ti) false e = Some (Ret (d, e')) -> kstep e e'.
Proof.
  intros fuel e d e' H L P D T.
  change (simplify_fns ti) with
    ([identity_op_simplify] ++ [power_op_simplify] ++
     [pow_simplify; log_pow_simplify; log_mul_simplify; pow_mul_simplify; mul_add_simplify;
      add_add_simplify; mul_mul_simplify; mul_one_simplify; add_zero_simplify; mul_zero_simplify] ++
     [square_add_simplify] ++ [add_const_simplify] ++
     [one_m_simplify ti; cast_simplify ti; onehot_simplify]) in H.
  apply sweep_app in H. destruct H as [d1 [e1 [H1 H]]].
  apply sweep_app in H. destruct H as [d2 [e2 [H2 H]]].
  apply sweep_app in H. destruct H as [d3 [e3 [H3 H]]].
  apply sweep_app in H. destruct H as [d4 [e4 [H4 H]]].
  apply sweep_app in H. destruct H as [d5 [e5 [H5 H]]].
  apply sweep_tsteps in H1; [|intros fn Hf; unfold other_fns; simpl in *; tauto].
  apply sweep_tsteps in H3; [|intros fn Hf; unfold other_fns; simpl in *; tauto].
  apply sweep_tsteps in H; [|intros fn Hf; unfold other_fns; simpl in *; tauto].
  simpl in H2. destruct (repeat_wrapped fuel power_op_simplify false e1) as [[[x2 y2]|]|] eqn:E2; try discriminate.
  inversion H2; subst. apply repeat_tstep in E2; [|unfold other_fns; simpl; tauto].
  destruct E2 as [[G2 X2] N2].
  simpl in H4. destruct (repeat_wrapped fuel square_add_simplify false e3) as [[[x4 y4]|]|] eqn:E4; try discriminate.
  inversion H4; subst. apply repeat_tstep in E4; [|unfold other_fns; simpl; tauto].
  destruct E4 as [[G4 X4] N4].
  simpl in H5. destruct (repeat_wrapped fuel add_const_simplify false e4) as [[[x5 y5]|]|] eqn:E5; try discriminate.
  inversion H5; subst.
  destruct H1 as [G1 X1]. destruct H3 as [G3 X3]. destruct H as [G6 X6].
  assert (Hpre : good ti e e4 /\ tstep e e4).
  { split; [eapply good_trans; [exact G1|]; eapply good_trans; [exact G2|]; eapply good_trans; [exact G3|exact G4]|].
    eapply tstep_trans; [exact X1|]; eapply tstep_trans; [exact X2|]; eapply tstep_trans; [exact X3|exact X4]. }
  destruct Hpre as [Gp [Ep Tp]].
  assert (Hsq : nosq e4).
  { apply (g_sq _ _ _ G4). apply (g_sq _ _ _ G3). now apply power_normal_nosq. }
  assert (L4 : linear_form ti e4) by (apply (g_lin _ _ _ Gp); auto).
  assert (T4 : tens_ok e4) by auto.
  destruct (repeat_add_const ti en Hen _ _ _ _ _ E5 L4 Hsq N4) as [[S1 [S2 [S3 _]]] S5].
  pose proof (repeat_add_const_alln _ _ _ _ _ E5 L4 Hsq N4 T4) as T5.
  destruct Ep as [Pp Rp]. destruct (Rp P x0 D) as [D4 _].
  destruct X6 as [_ T6]. apply T6; auto.
Qed.

Lemma full_kstep : forall fuel e e',
  full_simplify ti fuel e = Some (Ret e') -> kstep e e'.
Proof.
  unfold full_simplify. induction fuel as [|f IH]; intros e e' H; [discriminate|].
  cbn [full_simplify_with] in H.
  destruct (sweep (S f) (simplify_fns ti) false e) as [[[d e1]|]|] eqn:E; try discriminate.
  pose proof (sweep_step ti en Hen _ _ _ _ E) as S1.
  apply sweep_kstep in E. destruct d.
  - intros L P D T. destruct (S1 L P) as [L1 [P1 [c C]]]. destruct (C x0 D) as [D1 _].
    apply (IH _ _ H); auto.
  - inversion H; subst. auto.
Qed.

Lemma no_cast_left : forall fuel e e' t args,
  full_simplify ti fuel e = Some (Ret e') -> subexpr (Node (HTens t) args) e' -> is_cast ti t = false.
Proof.
  intros fuel e e' t args H Hs.
  destruct (full_simplify_terminates ti e) as [n [o [Hn Ho]]].
  assert (E : o = Ret e').
  { pose proof (Hn (n + fuel)%nat ltac:(lia)) as H1.
    pose proof (full_more (simplify_fns ti) fuel (n + fuel) e (Ret e') H ltac:(lia)) as H2.
    unfold full_simplify in H1. congruence. }
  specialize (Ho e' E (cast_simplify ti)). 
  assert (Hin : In (cast_simplify ti) (simplify_fns ti)) by (unfold simplify_fns; simpl; tauto).
  specialize (Ho Hin _ Hs). unfold cast_simplify in Ho. destruct (is_cast ti t); auto.
  destruct args; discriminate.
Qed.

Lemma simplified_own : forall fuel e e',
  full_simplify ti fuel e = Some (Ret e') ->
  linear_form ti e -> powers_within 7 e -> dom ti en x0 e -> tens_ok e ->
  own_values en own x0 e'.
Proof.
  intros fuel e e' H L P D T t args Hs.
  pose proof (full_kstep _ _ _ H L P D T) as T'.
  pose proof (alln_sub _ _ _ _ Hs T') as [Hc|Ho]; auto.
  rewrite (no_cast_left _ _ _ _ _ H Hs) in Hc. discriminate.
Qed.
End Tens.

Lemma multiplier_sub : forall e m, In m (fst (extract_s_stat_multipliers e)) -> subexpr m e.
Proof.
  induction e as [h args IH] using expr_ind'. intros m H.
  destruct h as [| | |s|]; try (simpl in H; contradiction). destruct s; try (simpl in H; contradiction).
  rewrite extract_mul in H.
  enough (He : exists a, In a args /\ subexpr m a) by (destruct He as [a [Ha Hs]]; econstructor; eauto).
  induction IH as [|a l Ha Hl IHl]; [destruct H|]. simpl in H.
  destruct (extract_list l) as [ms' ss'].
  assert (Hrec : In m ms' -> exists b, In b (a :: l) /\ subexpr m b).
  { intros Hm. destruct (IHl Hm) as [b [Hb Hs]]. exists b. split; auto. now right. }
  destruct (contains_x a).
  - destruct (extract_s_stat_multipliers a) as [ms ss]. simpl in *. apply in_app_or in H.
    destruct H as [H|H]; [|auto]. exists a. split; [now left|auto].
  - destruct H as [<-|H]; [|auto]. exists a. split; [now left|constructor].
Qed.

Lemma subexpr_trans : forall a b c, subexpr a b -> subexpr b c -> subexpr a c.
Proof. intros a b c H1 H2. induction H2; auto. econstructor; eauto. Qed.
