(** * copy adds no variable, placeholder or queue, with any flags (proofs). *)
From Coq Require Import String List Arith Bool Lia.
From Verif Require Import Copy CopySpec CopyProofs.
Import ListNotations.
Local Open Scope string_scope.

(** The leaves of [g'] are leaves of [g]. *)
Definition leaves (g g' : graph) : Prop :=
  forall o d', nth_error (ops g') o = Some d' -> leaf (okind d') = true ->
  exists d, nth_error (ops g) o = Some d /\ okind d = okind d'.
Definition noop_args (g : graph) : Prop :=
  Forall (fun d => Forall (fun a => is_op a = false) (rargs d)) (rvs g).
Definition step (g g' : graph) : Prop := leaves g g' /\ (noop_args g -> noop_args g').

Lemma leaves_refl : forall g, leaves g g.
Proof. intros g o d H _. eauto. Qed.
Lemma leaves_trans : forall a b c, leaves a b -> leaves b c -> leaves a c.
Proof.
  intros a b c H1 H2 o d Hd Hl. destruct (H2 _ _ Hd Hl) as [d1 [Hd1 E1]].
  destruct (H1 _ _ Hd1) as [d2 [Hd2 E2]]; [congruence|]. exists d2. split; [auto|congruence].
Qed.
Lemma step_refl : forall g, step g g.
Proof. intros g. split; [apply leaves_refl|auto]. Qed.
Lemma step_trans : forall a b c, step a b -> step b c -> step a c.
Proof. intros a b c [H1 H2] [H3 H4]. split; [eapply leaves_trans; eauto|auto]. Qed.

Lemma plain_leaves : forall g g' x, leaves g g' -> plain g x -> plain g' x.
Proof.
  intros g g' x H Hp o d Hx Hd. split; intros E; (destruct (H _ _ Hd) as [d0 [H0 E0]]; [now rewrite E|]);
    destruct (Hp _ _ Hx H0) as [A B]; congruence.
Qed.
Lemma is_var_leaves : forall g g' t, leaves g g' -> is_var g t = false -> is_var g' t = false.
Proof.
  intros g g' t H Hv. unfold is_var in *. destruct (nth_error (ops g') t) as [d'|] eqn:E; auto.
  destruct (okind d') eqn:Ek; auto. destruct (H _ _ E) as [d [Hd Ek']]; [now rewrite Ek|].
  rewrite Hd, Ek', Ek in Hv. discriminate.
Qed.

Definition plain_values (g : graph) (sw : swap) : Prop := Forall (fun kv => plain g (snd kv)) sw.
Lemma plain_values_leaves : forall g g' sw, leaves g g' -> plain_values g sw -> plain_values g' sw.
Proof. intros g g' sw H Hp. eapply Forall_impl; [|exact Hp]. intros kv. now apply plain_leaves. Qed.

Lemma lookup_plain : forall g sw x y, plain_values g sw -> lookup sw x = Some y -> plain g y.
Proof.
  intros g sw x y Hp H. unfold lookup in H. destruct (find _ sw) as [kv|] eqn:E; [|discriminate].
  apply find_some in E. destruct E as [E _]. injection H as <-. unfold plain_values in Hp. rewrite Forall_forall in Hp. auto.
Qed.
Lemma not_op_plain : forall g x, is_op x = false -> plain g x.
Proof. intros g x H o d -> Hd. discriminate. Qed.
Lemma rv_key_plain : forall g sw t y, plain_values g sw -> rv_key g sw t = Some y -> plain g y.
Proof.
  intros g sw t y Hp H. unfold rv_key in H. destruct (find _ sw) as [[k z]|] eqn:E; [|discriminate].
  apply find_some in E. destruct E as [E _]. unfold plain_values in Hp. rewrite Forall_forall in Hp. specialize (Hp _ E). simpl in Hp.
  destruct z as [q|u|u|u]; try (injection H as <-; exact Hp).
  destruct (value_of g q); [|discriminate]. injection H as <-. now apply not_op_plain.
Qed.

(** What copy continues with. *)
Lemma front_plain : forall g sw ri cq x y, plain_values g sw -> plain g x -> front g sw ri cq x = inr y ->
  plain g y /\ (forall t, y = XT t -> is_var g t = false).
Proof.
  intros g sw ri cq x y Hs Hx H. unfold front in H.
  match type of H with (match ?s with inl _ => _ | inr _ => _ end) = _ => destruct s as [z|z] eqn:E; [discriminate|] end.
  assert (Hz : plain g z).
  { destruct (if ri then lookup sw x else None) as [w|] eqn:El.
    - destruct cq; [|discriminate]. injection E as <-. destruct ri; [|discriminate]. eapply lookup_plain; eauto.
    - destruct x as [r|t|t|o]; try (injection E as <-; exact Hx).
      destruct (if ri then rv_key g sw t else None) as [w|] eqn:Er.
      + destruct cq; [|discriminate]. injection E as <-. destruct ri; [|discriminate]. eapply rv_key_plain; eauto.
      + injection E as <-. exact Hx. }
  clear E.
  assert (Hv : forall t, (if is_var g t
        then match (if ri then lookup sw (XVar t) else None) with
             | Some z0 => if negb cq || is_xvar z0 then inl z0
                 else match z0 with XT u => if is_var g u then inl (XVar u) else inr z0 | _ => inr z0 end
             | None => inl (XVar t)
             end
        else inr z) = inr y -> (forall t', z = XT t' -> t' = t) ->
        plain g y /\ (forall t, y = XT t -> is_var g t = false)).
  { intros t Ht Hzt. destruct (is_var g t) eqn:Ev.
    - destruct (if ri then lookup sw (XVar t) else None) as [w|] eqn:El; [|discriminate].
      destruct (negb cq || is_xvar w); [discriminate|]. destruct ri; [|discriminate].
      pose proof (lookup_plain _ _ _ _ Hs El) as Hw.
      destruct w as [r|u|u|u]; [| | |]; try (injection Ht as <-; split; [exact Hw|intros t' E; discriminate]).
      destruct (is_var g u) eqn:Eu; [discriminate|]. injection Ht as <-. split; auto.
      intros t' E. injection E as <-. auto.
    - injection Ht as <-. split; auto. intros t' E. rewrite (Hzt _ E). auto. }
  destruct z as [r|t|t|o].
  - injection H as <-. split; auto. discriminate.
  - eapply Hv; [exact H|]. intros t' E. now injection E as <-.
  - eapply Hv; [exact H|]. discriminate.
  - injection H as <-. split; auto. discriminate.
Qed.

Section Loops.
Variable c : graph -> elem -> graph * res elem.
Variable sw : swap.
Hypothesis Hc : forall g x g' r, plain_values g sw -> noop_args g -> plain g x -> c g x = (g', r) -> step g g'.

Lemma copy_list_step : forall l g g' r, plain_values g sw -> noop_args g -> Forall (plain g) l ->
  copy_list c g l = (g', r) -> step g g'.
Proof.
  induction l as [|x l IH]; intros g g' r Hs Ha HF H; simpl in H.
  - injection H as <- _. apply step_refl.
  - inversion HF as [|? ? Hx HF']; subst.
    destruct (c g x) as [g1 r1] eqn:E. pose proof (Hc _ _ _ _ Hs Ha Hx E) as H1.
    destruct r1 as [y| |]; try (injection H as <- _; exact H1).
    assert (H2 : forall g2 r2, copy_list c g1 l = (g2, r2) -> step g g2).
    { intros g2 r2 E2. eapply step_trans; [exact H1|]. eapply (IH g1); eauto.
      - eapply plain_values_leaves; [apply H1|exact Hs].
      - now apply H1.
      - eapply Forall_impl; [|exact HF']. intros z. apply plain_leaves. apply H1. }
    destruct (copy_list c g1 l) as [g2 r2] eqn:E2. specialize (H2 _ _ eq_refl).
    destruct r2; injection H as <- _; exact H2.
Qed.

Lemma step_input : forall g o t, step g (add_input g o t).
Proof.
  intros g o t. split; [|intros H; exact H]. intros i d' Hd Hl. simpl in Hd. destruct (Nat.eq_dec o i) as [->|Hn].
  - rewrite update_same in Hd. destruct (nth_error (ops g) i) as [d|]; [|discriminate]. simpl in Hd.
    injection Hd as <-. simpl. eauto.
  - rewrite update_other in Hd by auto. eauto.
Qed.

Lemma copy_inputs_step : forall o l g g' r, plain_values g sw -> noop_args g ->
  copy_inputs c g o l = (g', r) -> step g g'.
Proof.
  intros o. induction l as [|i l IH]; intros g g' r Hs Ha H; simpl in H.
  - injection H as <- _. apply step_refl.
  - destruct (c g (XT i)) as [g1 r1] eqn:E.
    assert (Hx : plain g (XT i)) by now apply not_op_plain.
    pose proof (Hc _ _ _ _ Hs Ha Hx E) as H1.
    destruct r1 as [y| |]; try (injection H as <- _; exact H1).
    destruct (as_tensor g1 y) as [t|]; [|injection H as <- _; exact H1].
    pose proof (step_trans _ _ _ H1 (step_input g1 o t)) as H2.
    eapply step_trans; [exact H2|]. eapply IH; [|apply H2; exact Ha|exact H].
    eapply plain_values_leaves; [apply H2|exact Hs].
Qed.
End Loops.

Lemma step_add_op : forall g d, leaf (okind d) = false -> step g (add_op g d).
Proof.
  intros g d Hd. split; [|intros H; exact H]. intros o d' Ho Hl. simpl in Ho. apply nth_app_inv in Ho.
  destruct Ho as [[Ho _]|[-> ->]]; [eauto|congruence].
Qed.

Lemma tensors_noop : forall g l ts, tensors_of g l = Some ts -> Forall (fun a => is_op a = false) l.
Proof.
  intros g. induction l as [|x l IH]; intros ts H; constructor; simpl in H.
  - destruct x; auto. discriminate.
  - destruct (as_tensor g x); [|discriminate]. destruct (tensors_of g l); [|discriminate]. eauto.
Qed.
Lemma build_rv_step : forall g cls args n g' r, build_rv g cls args n = (g', r) -> step g g'.
Proof.
  intros g cls args n g' r H. unfold build_rv in H. destruct (tensors_of g args) as [ts|] eqn:E.
  - injection H as <- _. eapply step_trans; [apply (step_add_op g (mkop (unique (S (length (ops g))) g (n ++ "sample")) (KOp cls) ts)); reflexivity|].
    split; [intros o d Hd _; simpl in *; eauto|]. intros Ha. unfold noop_args in *. simpl in *. apply Forall_app. split; auto. constructor; auto.
    simpl. eapply tensors_noop; eauto.
  - injection H as <- _. apply step_refl.
Qed.

Lemma parents_plain : forall pick g x, Forall (plain g) (parents pick g x).
Proof.
  intros pick g x. rewrite Forall_forall. intros e He. apply not_op_plain. unfold parents in He.
  destruct x as [r|t|t|o]; try destruct He;
    (destruct (Graph.get_parents _ _ _ _ _) as [l|]; [|destruct He]); apply in_map_iff in He; destruct He as [q [<- _]]; reflexivity.
Qed.

Lemma copy_step : forall fuel pick sw scope ri cq cps g x g' r,
  plain_values g sw -> noop_args g -> plain g x ->
  copy fuel pick sw scope ri cq cps g x = (g', r) -> step g g'.
Proof.
  induction fuel as [|f IH]; intros pick sw scope ri cq cps g x g' r Hs Ha Hx H; simpl in H.
  { injection H as <- _. apply step_refl. }
  destruct (front g sw ri cq x) as [y|y] eqn:Ef; [injection H as <- _; apply step_refl|].
  destruct (front_plain _ _ _ _ _ _ Hs Hx Ef) as [Hy Hyv].
  destruct (find_copy g scope y); [injection H as <- _; apply step_refl|].
  destruct (if cps && negb (is_op y) then _ else (g, Ok [])) as [g1 r1] eqn:Ep.
  assert (H1 : step g g1).
  { destruct (cps && negb (is_op y)); [|injection Ep as <- _; apply step_refl].
    eapply copy_list_step with (sw := sw); [|exact Hs|exact Ha|apply (parents_plain pick)|exact Ep].
    intros. eapply IH; eassumption. }
  assert (Hs1 : plain_values g1 sw) by (eapply plain_values_leaves; [apply H1|exact Hs]).
  assert (Ha1 : noop_args g1) by (apply H1; exact Ha).
  assert (Hy1 : plain g1 y) by (eapply plain_leaves; [apply H1|exact Hy]).
  assert (Hv1 : forall t, y = XT t -> is_var g1 t = false) by (intros t E; eapply is_var_leaves; [apply H1|auto]).
  eapply step_trans; [exact H1|]. clear Ep H1 Hs Ha Hx Hy Hyv Ef.
  destruct r1; try (injection H as <- _; apply step_refl).
  destruct y as [s|t|t|o].
  - destruct (nth_error (rvs g1) s) as [d|] eqn:Ed; [|injection H as <- _; apply step_refl].
    destruct (copy_list _ g1 (rargs d)) as [g2 r2] eqn:E.
    assert (E' : step g1 g2).
    { eapply copy_list_step with (sw := sw); [|exact Hs1|exact Ha1| |exact E]; [intros; eapply IH; eassumption|].
      unfold noop_args in Ha1. rewrite Forall_forall in Ha1. specialize (Ha1 _ (nth_error_In _ _ Ed)).
      eapply Forall_impl; [|exact Ha1]. intros z Hz. now apply not_op_plain. }
    destruct r2 as [args| |]; try (injection H as <- _; exact E').
    eapply step_trans; [exact E'|]. eapply build_rv_step; eauto.
  - destruct (nth_error (ops g1) t) as [d|] eqn:Ed; [|injection H as <- _; apply step_refl].
    assert (Hnv : okind d <> KVar).
    { intros E. specialize (Hv1 t eq_refl). unfold is_var in Hv1. rewrite Ed, E in Hv1. discriminate. }
    destruct (okind d) eqn:Ek; [injection H as <- _; apply step_refl| |congruence|];
      (destruct (copy f pick sw scope true cq false g1 (XOp t)) as [g2 r2] eqn:E;
       assert (E' : step g1 g2) by
         (eapply IH; [exact Hs1|exact Ha1| |exact E]; intros o d' Eo Hd; injection Eo as <-;
          rewrite Ed in Hd; injection Hd as <-; rewrite Ek; split; discriminate);
       destruct r2 as [[]| |]; injection H as <- _; exact E').
  - injection H as <- _. apply step_refl.
  - destruct (nth_error (ops g1) o) as [d|] eqn:Ed; [|injection H as <- _; apply step_refl].
    destruct (Hy1 _ _ eq_refl Ed) as [Hnp Hnv].
    destruct (okind d) as [| | |ty] eqn:Ek; try congruence; [injection H as <- _; apply step_refl|].
    destruct (copy_inputs _ _ _ _) as [g3 r3] eqn:E.
    assert (E' : step g1 g3).
    { assert (E0 : step g1 (add_op g1 {| oname := scope ++ oname d; okind := KOp ty; oins := [] |}))
        by (apply step_add_op; reflexivity).
      eapply step_trans; [exact E0|].
      eapply copy_inputs_step with (sw := sw); [| | |exact E].
      - intros. eapply IH; eassumption.
      - eapply plain_values_leaves; [apply E0|exact Hs1].
      - apply E0. exact Ha1. }
    destruct r3; injection H as <- _; exact E'.
Qed.

Lemma wf_noop : forall g, wf g -> noop_args g.
Proof.
  intros g H. unfold noop_args. eapply Forall_impl; [|apply (wf_rvs _ H)]. intros d [Hd _].
  eapply Forall_impl; [|exact Hd]. intros a [_ E]. exact E.
Qed.

Lemma history_step : forall cs g g0, leaves g0 g -> noop_args g ->
  Forall (fun c => plain g0 (c_x c) /\ Forall (fun kv => plain g0 (snd kv)) (c_sw c)) cs ->
  leaves g0 (fold_left run_call cs g).
Proof.
  induction cs as [|c cs IH]; intros g g0 Hl Ha HF; simpl; auto.
  inversion HF as [|? ? [Hx Hs] HF']; subst.
  assert (H : step g (run_call g c)).
  { unfold run_call, ed_copy_at. destruct (with_slash (c_scope c)) as [s|]; [|apply step_refl].
    destruct (copy _ _ _ _ _ _ _ _ _) as [g1 r1] eqn:E. simpl.
    eapply copy_step; [|exact Ha| |exact E].
    - exact (plain_values_leaves _ _ _ Hl Hs).
    - exact (plain_leaves _ _ _ Hl Hx). }
  apply IH; auto.
  - eapply leaves_trans; [exact Hl|apply H].
  - apply H. exact Ha.
Qed.

Lemma history_leaves : forall cs g, wf g ->
  Forall (fun c => plain g (c_x c) /\ Forall (fun kv => plain g (snd kv)) (c_sw c)) cs ->
  forall o d, length (ops g) <= o -> nth_error (ops (fold_left run_call cs g)) o = Some d -> leaf (okind d) = false.
Proof.
  intros cs g Hw HF o d Ho Hd. destruct (leaf (okind d)) eqn:El; auto. exfalso.
  destruct (history_step cs g g (leaves_refl g) (wf_noop _ Hw) HF _ _ Hd El) as [d0 [H0 _]].
  apply nth_lt in H0. lia.
Qed.
