(** * copy with [copy_q=True] (proofs). *)
From Coq Require Import String List Arith Bool Lia.
From Verif Require Import Copy CopySpec CopyProofs CopySubstProofs CopyFinalProofs CopyFlagProofs CopyQSpec.
Import ListNotations.
Local Open Scope string_scope.

Scheme ev_ind2 := Minimality for ev Sort Prop
  with evs_ind2 := Minimality for evs Sort Prop.
Scheme qev_ind2 := Minimality for qev Sort Prop
  with qevs_ind2 := Minimality for qevs Sort Prop.
Scheme sevt_ind3 := Minimality for sev_tensor Sort Prop
  with sevn_ind3 := Minimality for sev_node Sort Prop
  with sevs_ind3 := Minimality for sevs Sort Prop.

Lemma update_nth_app : forall A (f : A -> A) l e o, length l <= o ->
  update_nth o f (l ++ e) = (l ++ update_nth (o - length l) f e)%list.
Proof.
  intros A f l. induction l as [|a l IH]; intros e o H; simpl in *; [now rewrite Nat.sub_0_r|].
  destruct o as [|o]; [lia|]. simpl. rewrite IH by lia. reflexivity.
Qed.

Section Q.
Variable g : graph.
Variable sw : swap.
Variable s : string.
Variable pick : nat -> nat.
Hypothesis Hwf : wf g.
Hypothesis Hsw : swap_ok g sw.
Hypothesis Hfresh : fresh_scope g s.
Hypothesis Hval : plain_values g sw.

Notation n := (length (ops g)).

Definition rew (d : op) : op := mkop (oname d) (okind d) (map (put g sw) (oins d)).
Definition H0 : graph := mkgraph (map rew (ops g)) [].

Definition known (t : nat) : Prop :=
  n <= t \/ exists d, nth_error (ops g) t = Some d /\ leaf (okind d) = true.

Definition Rel (G H : graph) : Prop :=
  rvs G = rvs g /\ rvs H = [] /\ exists e, ops G = (ops g ++ e)%list /\ ops H = (map rew (ops g) ++ e)%list /\
    Forall (fun d => Forall known (oins d)) e.

Lemma put_lt : forall t, t < n -> put g sw t < n.
Proof.
  intros t Ht. unfold put. destruct (replacement g sw t) as [t'|] eqn:E; auto.
  eapply (repl_lt g g sw (fun _ => 0) (extends_refl g) Hwf Hsw); eauto.
Qed.

Lemma rel_old : forall G H o, Rel G H -> o < n ->
  exists d, nth_error (ops g) o = Some d /\ nth_error (ops G) o = Some d /\ nth_error (ops H) o = Some (rew d).
Proof.
  intros G H o [_ [_ [e [E1 [E2 _]]]]] Ho. destruct (nth_error (ops g) o) as [d|] eqn:E; [|apply nth_error_None in E; lia].
  exists d. split; auto. rewrite E1, E2. rewrite !nth_error_app1 by (rewrite ?map_length; auto). split; auto.
  rewrite nth_error_map, E. reflexivity.
Qed.

Lemma rel_var : forall G H t, Rel G H -> t < n -> is_var G t = is_var g t /\ is_var H t = is_var g t.
Proof.
  intros G H t HR Ht. destruct (rel_old G H t HR Ht) as [d [E [E1 E2]]]. unfold is_var. rewrite E, E1, E2. auto.
Qed.

Lemma rel_names : forall G H, Rel G H -> map oname (ops G) = map oname (ops H).
Proof.
  intros G H [_ [_ [e [E1 [E2 _]]]]]. rewrite E1, E2, !map_app, map_map. reflexivity.
Qed.

Lemma rel_len : forall G H, Rel G H -> length (ops G) = length (ops H) /\ n <= length (ops G).
Proof.
  intros G H [_ [_ [e [E1 [E2 _]]]]]. rewrite E1, E2, !app_length, map_length. lia.
Qed.

Lemma is_var_valid : forall u, valid g (XVar u) -> is_var g u = true.
Proof. intros u [d [E K]]. unfold is_var. now rewrite E, K. Qed.

Lemma rv_key_some : forall i y, rv_key g sw i = Some y ->
  replacement g sw i = Some (tensor_of g y) /\
  valid g y /\ is_op y = false /\ (forall r, y <> XRV r) /\
  (is_var g (tensor_of g y) = true -> replacement g sw (tensor_of g y) = None).
Proof.
  intros i y H. unfold rv_key in H. destruct (find _ sw) as [[k w]|] eqn:E; [|discriminate].
  apply find_some in E. destruct E as [Hin E]. simpl in E. destruct k as [q|k|k|k]; try discriminate.
  pose proof (repl_found g g sw (extends_refl g) Hsw _ _ Hin) as Hr. simpl in Hr. unfold value_of in E.
  destruct (nth_error (rvs g) q) as [dq|]; [|discriminate]. simpl in E. apply Nat.eqb_eq in E. rewrite E in Hr.
  destruct (sw_in g g sw Hsw _ _ Hin) as [_ [Hv [_ Ho]]]. destruct (Hval _ _ Hin) as [_ Hc].
  destruct w as [r|u|u|u]; try discriminate; try (injection H as <-; repeat split; auto; intros; discriminate).
  unfold value_of in H. destruct (nth_error (rvs g) r) as [dr|] eqn:Er; [|discriminate]. simpl in H. injection H as <-.
  simpl in Hr, Hc. rewrite Er in Hr, Hc. repeat split; auto; try discriminate. simpl. eapply (rv_value_lt0 g Hwf); eauto.
Qed.

Lemma no_key : forall i, lookup sw (XT i) = None -> rv_key g sw i = None ->
  (is_var g i = true -> lookup sw (XVar i) = None) -> replacement g sw i = None.
Proof.
  intros i H1 H2 H3. destruct (replacement g sw i) as [t'|] eqn:E; auto. exfalso.
  destruct (repl_some g g sw (extends_refl g) Hsw _ _ E) as [k [y [Hin [Hk _]]]].
  destruct (sw_in g g sw Hsw _ _ Hin) as [Hv [_ [Ho _]]]. destruct k as [r|u|u|u]; simpl in Hk; try discriminate.
  - unfold rv_key in H2. destruct (find _ sw) as [[k w]|] eqn:F.
    + destruct w as [q|q|q|q]; try discriminate. destruct (value_of g q) eqn:Eq; try discriminate.
      apply find_some in F. destruct F as [Hin' _]. destruct (sw_in g g sw Hsw _ _ Hin') as [_ [Hq _]].
      simpl in Hq. unfold value_of in Eq. destruct (nth_error (rvs g) q) eqn:En; [discriminate|]. apply nth_error_None in En. lia.
    + apply (find_none _ _ F) in Hin. simpl in Hin. unfold value_of in Hin. simpl in Hv.
      destruct (nth_error (rvs g) r) as [d|] eqn:Er; [|apply nth_error_None in Er; lia].
      simpl in Hin. rewrite Hk, Nat.eqb_refl in Hin. discriminate.
  - subst. eapply lookup_none; eauto.
  - subst. eapply lookup_none; [apply H3; now apply is_var_valid|eauto].
Qed.

(** Where a value [y] of the dictionary has taken the place of a tensor. *)
Lemma front_value : forall G H y, Rel G H -> valid g y -> is_op y = false -> (forall r, y <> XRV r) ->
  (is_var g (tensor_of g y) = true -> replacement g sw (tensor_of g y) = None) ->
  match y with
  | XT t | XVar t =>
    if is_var G t then
      match lookup sw (XVar t) with
      | Some z => if negb true || is_xvar z then inl z
                  else match z with XT u => if is_var G u then inl (XVar u) else inr z | _ => inr z end
      | None => inl (XVar t)
      end
    else inr y
  | _ => inr y
  end = if is_var g (tensor_of g y) then inl (XVar (tensor_of g y)) else inr (XT (tensor_of g y)).
Proof.
  intros G H y HR Hv Ho Hn Hc.
  assert (Hl : forall t, tensor_of g y = t -> is_var g t = true -> lookup sw (XVar t) = None).
  { intros t <- Ht. destruct (lookup sw (XVar _)) as [z|] eqn:E; auto. apply lookup_some in E.
    apply (repl_found g g sw (extends_refl g) Hsw) in E. simpl in E. rewrite Hc in E by auto. discriminate. }
  destruct y as [r|t|t|o]; [destruct (Hn r eq_refl)| | |discriminate]; cbn [tensor_of] in *.
  - destruct (rel_var G H t HR Hv) as [-> _]. destruct (is_var g t) eqn:E; auto. rewrite Hl; auto.
  - pose proof (is_var_valid _ Hv) as E. assert (Ht : t < n) by (destruct Hv as [d [Hd _]]; eapply nth_lt; eauto).
    destruct (rel_var G H t HR Ht) as [-> _]. rewrite E. rewrite Hl; auto.
Qed.

Lemma front_rel : forall G H i, Rel G H -> i < n ->
  front G sw true true (XT i) = front H [] true false (XT (put g sw i)).
Proof.
  intros G H i HR Hi. pose proof (put_lt i Hi) as Hp.
  assert (E2 : front H [] true false (XT (put g sw i)) =
               if is_var g (put g sw i) then inl (XVar (put g sw i)) else inr (XT (put g sw i))).
  { unfold front. cbn [lookup find rv_key]. destruct (rel_var G H _ HR Hp) as [_ ->]. reflexivity. }
  rewrite E2. clear E2. unfold front.
  assert (Hk : rv_key G sw i = rv_key g sw i) by (unfold rv_key, value_of; destruct HR as [-> _]; reflexivity).
  rewrite Hk. clear Hk. destruct (lookup sw (XT i)) as [y|] eqn:El.
  - pose proof (lookup_some _ _ _ El) as Hin. pose proof (repl_found g g sw (extends_refl g) Hsw _ _ Hin) as Hr. simpl in Hr.
    destruct (sw_in g g sw Hsw _ _ Hin) as [_ [Hv [_ Ho]]]. destruct (Hval _ _ Hin) as [Hn Hc].
    assert (Hn' : forall r, y <> XRV r) by (destruct Hn as [[r ?]|?]; [discriminate|auto]).
    rewrite (front_value G H y HR Hv Ho Hn' Hc). unfold put. rewrite Hr. reflexivity.
  - destruct (rv_key g sw i) as [y|] eqn:Ek.
    + destruct (rv_key_some _ _ Ek) as [Hr [Hv [Ho [Hn Hc]]]].
      rewrite (front_value G H y HR Hv Ho Hn Hc). unfold put. rewrite Hr. reflexivity.
    + destruct (rel_var G H i HR Hi) as [-> _]. destruct (is_var g i) eqn:Ev.
      * destruct (lookup sw (XVar i)) as [z|] eqn:Ez.
        -- pose proof (lookup_some _ _ _ Ez) as Hin. pose proof (repl_found g g sw (extends_refl g) Hsw _ _ Hin) as Hr. simpl in Hr.
           destruct (sw_in g g sw Hsw _ _ Hin) as [_ [Hv [_ Ho]]]. destruct (Hval _ _ Hin) as [Hn Hc].
           assert (Hn' : forall r, z <> XRV r) by (destruct Hn as [[r ?]|?]; [discriminate|auto]).
           unfold put. rewrite Hr. destruct z as [r|u|u|u]; try discriminate; [destruct (Hn' r eq_refl)| |]; cbn [negb orb is_xvar tensor_of].
           ++ simpl in Hv. destruct (rel_var G H u HR Hv) as [-> _]. reflexivity.
           ++ now rewrite (is_var_valid _ Hv).
        -- unfold put. rewrite (no_key i El Ek (fun _ => Ez)). now rewrite Ev.
      * unfold put. rewrite (no_key i El Ek) by congruence. now rewrite Ev.
Qed.

Lemma front_op : forall G o q, front G sw true q (XOp o) = inr (XOp o).
Proof.
  intros G o q. unfold front. destruct (lookup sw (XOp o)) as [y|] eqn:El; auto. exfalso.
  apply lookup_some in El. apply (sw_in g g sw Hsw) in El. simpl in El. intuition discriminate.
Qed.

Lemma copied_new : forall G H m o, Rel G H -> op_named G (s ++ m) = Some o -> n <= o.
Proof.
  intros G H m o HR E. destruct (Nat.lt_ge_cases o n) as [Hlt|]; auto. exfalso.
  apply op_named_some in E. destruct E as [d [Hd En]].
  destruct (rel_old G H o HR Hlt) as [d' [E1 [E2 _]]]. rewrite Hd in E2. injection E2 as <-.
  destruct Hfresh as [Hf _]. eapply Hf; [eapply nth_error_In; exact E1|exact En].
Qed.

Definition good (y : elem) : Prop := exists t, (y = XT t \/ y = XVar t) /\ known t.
Definition good_op (y : elem) : Prop := exists o, y = XOp o /\ known o.

Definition same (good : elem -> Prop) (a b : graph * res elem) : Prop :=
  Rel (fst a) (fst b) /\ snd a = snd b /\ forall y, snd a = Ok y -> good y.

Lemma push_rel : forall G H m k, Rel G H -> Rel (add_op G (mkop m k [])) (add_op H (mkop m k [])).
Proof.
  intros G H m k [A [B [e [E1 [E2 E3]]]]]. split; auto. split; auto. exists (e ++ [mkop m k []])%list.
  simpl. rewrite E1, E2, <- !app_assoc. split; auto. split; auto. apply Forall_app. split; auto. repeat constructor.
Qed.

Lemma input_rel : forall G H o t, Rel G H -> n <= o -> known t -> Rel (add_input G o t) (add_input H o t).
Proof.
  intros G H o t [A [B [e [E1 [E2 E3]]]]] Ho Ht. split; auto. split; auto.
  exists (update_nth (o - n) (fun d => mkop (oname d) (okind d) (oins d ++ [t])) e).
  simpl. rewrite E1, E2, !update_nth_app by (rewrite ?map_length; auto). rewrite map_length. split; auto. split; auto.
  generalize (o - n). clear - E3 Ht. induction E3 as [|d l Hd Hl IH]; intros j; [destruct j; constructor|].
  destruct j; simpl; constructor; auto. simpl. apply Forall_app. auto.
Qed.

Lemma inputs_rel : forall c c' l G H o, (forall G H i, Rel G H -> i < n -> same good (c G (XT i)) (c' H (XT (put g sw i)))) ->
  Rel G H -> n <= o -> Forall (fun i => i < n) l ->
  Rel (fst (copy_inputs c G o l)) (fst (copy_inputs c' H o (map (put g sw) l))) /\
  snd (copy_inputs c G o l) = snd (copy_inputs c' H o (map (put g sw) l)).
Proof.
  intros c c' l. induction l as [|i l IH]; intros G H o Hc HR Ho Hl; simpl; auto.
  inversion Hl as [|? ? Hi Hl']; subst. destruct (Hc G H i HR Hi) as [R1 [R2 R3]].
  destruct (c G (XT i)) as [G1 r]. destruct (c' H (XT (put g sw i))) as [H1 r']. simpl in R1, R2, R3. subst r'.
  destruct r as [y| |]; auto. destruct (R3 y eq_refl) as [t [Ey Ht]].
  assert (E : as_tensor G1 y = Some t /\ as_tensor H1 y = Some t) by (destruct Ey; subst; auto).
  destruct E as [-> ->]. apply IH; auto. apply input_rel; auto.
Qed.

Lemma sim : forall f,
  (forall G H i, Rel G H -> i < n ->
     same good (copy f pick sw s true true false G (XT i)) (copy f pick [] s true false false H (XT (put g sw i)))) /\
  (forall G H o, Rel G H -> o < n ->
     same good_op (copy f pick sw s true true false G (XOp o)) (copy f pick [] s true false false H (XOp o))).
Proof.
  induction f as [|f [IH1 IH2]].
  { split; intros; split; simpl; auto; split; auto; intros; discriminate. }
  assert (HO : forall G H o, Rel G H -> o < n ->
     same good_op (copy (S f) pick sw s true true false G (XOp o)) (copy (S f) pick [] s true false false H (XOp o))).
  { intros G H o HR Ho. cbn [copy]. rewrite front_op. change (front H [] true false (XOp o)) with (@inr elem elem (XOp o)). cbv iota.
    destruct (rel_old G H o HR Ho) as [d [Ed [EG EH]]]. cbn [find_copy]. rewrite EG, EH. cbn [oname rew].
    rewrite (op_named_names G H _ (rel_names G H HR)).
    destruct (op_named H (s ++ oname d)) as [z|] eqn:En; cbn [option_map].
    { split; auto. split; auto. simpl. intros y E. injection E as <-. exists z. split; auto. left.
      rewrite <- (op_named_names G H _ (rel_names G H HR)) in En. eapply copied_new; eauto. }
    cbn [is_op negb andb]. rewrite EG, EH. cbn [okind rew].
    assert (Hq : okind d = KQueue -> same good_op (G, Ok (XOp o)) (H, Ok (XOp o))).
    { intros Hk. split; auto. split; auto. simpl. intros y E. injection E as <-. exists o. split; auto. right. exists d. now rewrite Hk. }
    destruct (rel_len G H HR) as [El Hn].
    assert (Hnew : forall k, same good_op
      (match copy_inputs (copy f pick sw s true true false) (add_op G (mkop (s ++ oname d) k [])) (length (ops G)) (oins d) with
       | (g3, Ok _) => (g3, Ok (XOp (length (ops G)))) | (g3, Exc) => (g3, Exc) | (g3, Fuel) => (g3, Fuel) end)
      (match copy_inputs (copy f pick [] s true false false) (add_op H (mkop (s ++ oname d) k [])) (length (ops H)) (map (put g sw) (oins d)) with
       | (g3, Ok _) => (g3, Ok (XOp (length (ops H)))) | (g3, Exc) => (g3, Exc) | (g3, Fuel) => (g3, Fuel) end)).
    { intros k. rewrite <- El.
      destruct (inputs_rel (copy f pick sw s true true false) (copy f pick [] s true false false) (oins d)
                  (add_op G (mkop (s ++ oname d) k [])) (add_op H (mkop (s ++ oname d) k [])) (length (ops G)) IH1
                  (push_rel G H _ k HR) Hn (wf_closed _ Hwf _ _ Ed)) as [R1 R2].
      destruct (copy_inputs _ (add_op G _) _ _) as [G3 r]. destruct (copy_inputs _ (add_op H _) _ _) as [H3 r']. simpl in R1, R2. subst r'.
      destruct r; (split; [exact R1|split; [reflexivity|simpl; intros y E; try discriminate]]).
      injection E as <-. exists (length (ops G)). split; auto. left. auto. }
    destruct (okind d) eqn:Hk; auto. }
  split; auto.
  intros G H i HR Hi. cbn [copy]. rewrite (front_rel G H i HR Hi). pose proof (put_lt i Hi) as Hp.
  set (u := put g sw i) in *.
  assert (EF : front H [] true false (XT u) = if is_var g u then inl (XVar u) else inr (XT u)).
  { unfold front. cbn [lookup find rv_key]. destruct (rel_var G H _ HR Hp) as [_ ->]. reflexivity. }
  rewrite EF. destruct (rel_old G H u HR Hp) as [d [Ed [EG EH]]]. destruct (is_var g u) eqn:Ev.
  { split; auto. split; auto. simpl. intros y E. injection E as <-. exists u. split; auto. right. exists d. split; auto.
    unfold is_var in Ev. rewrite Ed in Ev. destruct (okind d); auto; discriminate. }
  cbn [find_copy]. rewrite EG, EH. cbn [oname rew]. rewrite (op_named_names G H _ (rel_names G H HR)).
  destruct (op_named H (s ++ oname d)) as [z|] eqn:En; cbn [option_map].
  { split; auto. split; auto. simpl. intros y E. injection E as <-. exists z. split; auto. left.
    rewrite <- (op_named_names G H _ (rel_names G H HR)) in En. eapply copied_new; eauto. }
  cbn [andb]. rewrite EG, EH. cbn [okind rew].
  assert (Hop : same good
    (match copy f pick sw s true true false G (XOp u) with
     | (g2, Ok (XOp o)) => (g2, Ok (XT o)) | (g2, Ok _) => (g2, Exc) | (g2, r) => (g2, r) end)
    (match copy f pick [] s true false false H (XOp u) with
     | (g2, Ok (XOp o)) => (g2, Ok (XT o)) | (g2, Ok _) => (g2, Exc) | (g2, r) => (g2, r) end)).
  { destruct (IH2 G H u HR Hp) as [R1 [R2 R3]].
    destruct (copy f pick sw s true true false G (XOp u)) as [G2 r]. destruct (copy f pick [] s true false false H (XOp u)) as [H2 r'].
    simpl in R1, R2, R3. subst r'. destruct r as [y| |]; [|split; auto; split; auto; simpl; intros; discriminate ..].
    destruct (R3 y eq_refl) as [o [-> Ho]]. split; auto. split; auto. simpl. intros y E. injection E as <-. exists o. auto. }
  destruct (okind d) eqn:Hk; auto.
  split; auto. split; auto. simpl. intros y E. injection E as <-. exists u. split; auto. right. exists d. now rewrite Hk.
Qed.

Lemma rel_start : Rel g H0.
Proof. split; auto. split; auto. exists []. rewrite !app_nil_r. auto. Qed.

Lemma H0_op : forall o d, nth_error (ops g) o = Some d -> nth_error (ops H0) o = Some (rew d).
Proof. intros o d E. simpl. now rewrite nth_error_map, E. Qed.

Lemma H0_inv : forall o d, nth_error (ops H0) o = Some d -> exists d', nth_error (ops g) o = Some d' /\ d = rew d'.
Proof.
  intros o d E. simpl in E. rewrite nth_error_map in E. destruct (nth_error (ops g) o) as [d'|]; [|discriminate].
  simpl in E. injection E as <-. eauto.
Qed.

Definition ok_top (y : elem) : Prop := exists t, (y = XT t \/ y = XVar t \/ y = XOp t) /\ known t.

Lemma copy_op_itself : forall f sw' q G o, front G sw' true q (XOp o) = inr (XOp o) ->
  copy f pick sw' s false q false G (XOp o) = copy f pick sw' s true q false G (XOp o).
Proof. intros [|f] sw' q G o E; auto. cbn [copy]. rewrite E. reflexivity. Qed.

Lemma sim_top : forall f x, valid g x -> (forall r, x <> XRV r) ->
  same ok_top (copy f pick sw s false true false g x) (copy f pick [] s false false false H0 x).
Proof.
  intros f x Hv Hx. destruct f as [|f]; [split; simpl; auto using rel_start; split; auto; intros; discriminate|].
  destruct x as [r|t|t|o]; [destruct (Hx r eq_refl)| | |].
  - simpl in Hv. destruct (rel_old _ _ t rel_start Hv) as [d [Ed [EG EH]]]. cbn [copy].
    assert (EF1 : front g sw false true (XT t) = if is_var g t then inl (XVar t) else inr (XT t)) by reflexivity.
    assert (EF2 : front H0 [] false false (XT t) = if is_var g t then inl (XVar t) else inr (XT t)).
    { unfold front. destruct (rel_var _ _ _ rel_start Hv) as [_ ->]. reflexivity. }
    rewrite EF1, EF2. destruct (is_var g t) eqn:Ev.
    { split; [apply rel_start|]. split; auto. simpl. intros y E. injection E as <-. exists t. split; auto. right. exists d. split; auto.
      unfold is_var in Ev. rewrite Ed in Ev. destruct (okind d); auto; discriminate. }
    cbn [find_copy]. rewrite EG, EH. cbn [oname rew]. rewrite (op_named_names g H0 _ (rel_names _ _ rel_start)).
    destruct (op_named H0 (s ++ oname d)) as [z|] eqn:En; cbn [option_map].
    { split; [apply rel_start|]. split; auto. simpl. intros y E. injection E as <-. exists z. split; auto. left.
      rewrite <- (op_named_names g H0 _ (rel_names _ _ rel_start)) in En. eapply copied_new; [apply rel_start|eauto]. }
    cbn [andb]. rewrite EG, EH. cbn [okind rew].
    assert (Hop : same ok_top
      (match copy f pick sw s true true false g (XOp t) with
       | (g2, Ok (XOp o)) => (g2, Ok (XT o)) | (g2, Ok _) => (g2, Exc) | (g2, r) => (g2, r) end)
      (match copy f pick [] s true false false H0 (XOp t) with
       | (g2, Ok (XOp o)) => (g2, Ok (XT o)) | (g2, Ok _) => (g2, Exc) | (g2, r) => (g2, r) end)).
    { destruct (proj2 (sim f) g H0 t rel_start Hv) as [R1 [R2 R3]].
      destruct (copy f pick sw s true true false g (XOp t)) as [G2 r]. destruct (copy f pick [] s true false false H0 (XOp t)) as [H2 r'].
      simpl in R1, R2, R3. subst r'. destruct r as [y| |]; [|split; auto; split; auto; simpl; intros; discriminate ..].
      destruct (R3 y eq_refl) as [o [-> Ho]]. split; auto. split; auto. simpl. intros y E. injection E as <-. exists o. auto. }
    destruct (okind d) eqn:Hk; auto.
    split; [apply rel_start|]. split; auto. simpl. intros y E. injection E as <-. exists t. split; auto. right. exists d. now rewrite Hk.
  - pose proof (is_var_valid _ Hv) as Ev. assert (Ht : t < n) by (destruct Hv as [d [Hd _]]; eapply nth_lt; eauto).
    cbn [copy]. assert (EF1 : front g sw false true (XVar t) = inl (XVar t)) by (unfold front; now rewrite Ev).
    assert (EF2 : front H0 [] false false (XVar t) = inl (XVar t)).
    { unfold front. destruct (rel_var _ _ _ rel_start Ht) as [_ ->]. now rewrite Ev. }
    rewrite EF1, EF2. split; [apply rel_start|]. split; auto. simpl. intros y E. injection E as <-. exists t. split; auto. right.
    destruct Hv as [d [Hd Hk]]. exists d. now rewrite Hk.
  - rewrite (copy_op_itself (S f) sw true g o (front_op g o true)). rewrite (copy_op_itself (S f) [] false H0 o eq_refl).
    destruct (proj2 (sim (S f)) g H0 o rel_start Hv) as [R1 [R2 R3]]. split; auto. split; auto.
    intros y E. destruct (R3 y E) as [o' [-> Ho]]. exists o'. auto.
Qed.

(** Both graphs give the copies the same values. *)
Lemma ev_known : forall V N (sem : nat -> N -> list V -> V) st noise A B,
  (forall t d, known t -> nth_error (ops A) t = Some d ->
     exists d', nth_error (ops B) t = Some d' /\ okind d' = okind d /\
       (leaf (okind d) = false -> oins d' = oins d /\ Forall known (oins d))) ->
  forall t v, ev sem st noise A t v -> known t -> ev sem st noise B t v.
Proof.
  intros V N sem st noise A B HAB. 
  apply (ev_ind2 V N sem st noise A (fun t v => known t -> ev sem st noise B t v)
           (fun l vs => Forall known l -> evs sem st noise B l vs)).
  - intros o d Ed Hl Hk. destruct (HAB _ _ Hk Ed) as [d' [E' [K' _]]]. eapply ev_leaf; eauto. congruence.
  - intros o d ty vs Ed Hty _ IH Hk. destruct (HAB _ _ Hk Ed) as [d' [E' [K' Hi]]].
    rewrite Hty in Hi. destruct (Hi eq_refl) as [Hi1 Hi2]. eapply ev_op; eauto; [congruence|]. rewrite Hi1. auto.
  - constructor.
  - intros o v l vs _ IH1 _ IH2 Hk. inversion Hk; subst. constructor; auto.
Qed.

Lemma ev_rel : forall V N (sem : nat -> N -> list V -> V) st noise G H t v, Rel G H -> known t ->
  (ev sem st noise G t v <-> ev sem st noise H t v).
Proof.
  intros V N sem st noise G H t v HR Ht.
  assert (Hnew : forall u d, n <= u -> (nth_error (ops G) u = Some d <-> nth_error (ops H) u = Some d) /\
                   (nth_error (ops G) u = Some d -> Forall known (oins d))).
  { intros u d Hu. destruct HR as [_ [_ [e [E1 [E2 E3]]]]]. rewrite E1, E2.
    rewrite !nth_error_app2 by (rewrite ?map_length; auto). rewrite map_length. split; [tauto|].
    intros E. apply nth_error_In in E. rewrite Forall_forall in E3. auto. }
  assert (Hold : forall u d, u < n -> leaf (okind d) = true -> nth_error (ops g) u = Some d ->
            nth_error (ops G) u = Some d /\ nth_error (ops H) u = Some (rew d)).
  { intros u d Hu _ E. destruct (rel_old G H u HR Hu) as [d' [A [B C]]]. rewrite E in A. injection A as <-. auto. }
  split; intros E.
  - revert E Ht. apply ev_known. intros u d Hk Ed.
    destruct (Nat.lt_ge_cases u n) as [Hu|Hu].
    + destruct Hk as [Hk|[d0 [E0 L0]]]; [lia|]. destruct (Hold _ _ Hu L0 E0) as [A B]. rewrite A in Ed. injection Ed as <-.
      exists (rew d0). split; auto. split; auto. simpl. congruence.
    + destruct (Hnew u d Hu) as [A B]. exists d. split; [tauto|]. auto.
  - revert E Ht. apply ev_known. intros u d Hk Ed.
    destruct (Nat.lt_ge_cases u n) as [Hu|Hu].
    + destruct Hk as [Hk|[d0 [E0 L0]]]; [lia|]. destruct (Hold _ _ Hu L0 E0) as [A B]. rewrite B in Ed. injection Ed as <-.
      exists d0. split; auto. split; auto. simpl. congruence.
    + destruct (Hnew u d Hu) as [A B]. exists d. split; [tauto|]. split; auto. intros _. split; auto. apply B. tauto.
Qed.

Lemma qev_sev : forall V N (sem : nat -> N -> list V -> V) st noise noise' t v,
  qev sem st noise' g sw t v <-> sev_node sem st noise noise' H0 [] t v.
Proof.
  intros V N sem st noise noise' t v. split.
  - revert t v. apply (qev_ind2 V N sem st noise' g sw (fun t v => sev_node sem st noise noise' H0 [] t v)
      (fun l vs => sevs sem st noise noise' H0 [] (map (put g sw) l) vs)).
    + intros o d Ed Hl. eapply sev_leaf; [eapply H0_op; eauto|auto].
    + intros o d ty vs Ed Hty _ IH. eapply sev_op; [eapply H0_op; eauto|auto|auto].
    + constructor.
    + intros o v l vs _ IH1 _ IH2. simpl. constructor; auto. apply sev_noswap; auto.
  - revert t v. apply (sevn_ind3 V N sem st noise noise' H0 [] (fun t v => qev sem st noise' g sw t v) (fun t v => qev sem st noise' g sw t v)
      (fun l vs => forall l', l = map (put g sw) l' -> qevs sem st noise' g sw l' vs)).
    + intros t t' v E. discriminate.
    + intros; auto.
    + intros o d Ed Hl. destruct (H0_inv _ _ Ed) as [d' [E ->]]. eapply qev_leaf; eauto.
    + intros o d ty vs Ed Hty _ IH. destruct (H0_inv _ _ Ed) as [d' [E ->]]. eapply qev_op; eauto.
    + intros [|a l'] E; [constructor|discriminate].
    + intros o v l vs _ IH1 _ IH2 [|a l'] E; [discriminate|]. simpl in E. injection E as -> ->. constructor; auto.
Qed.

Lemma H0_wf : wf H0.
Proof.
  constructor; simpl; try constructor.
  - intros o d E. destruct (H0_inv o d E) as [d' [E' ->]]. simpl. rewrite map_length.
    pose proof (wf_closed _ Hwf _ _ E') as HF. apply Forall_forall. intros i Hi. apply in_map_iff in Hi.
    destruct Hi as [j [<- Hj]]. apply put_lt. rewrite Forall_forall in HF. auto.
  - rewrite map_map. exact (wf_names _ Hwf).
Qed.

Lemma H0_acyclic : forall h, put_acyclic g sw h -> acyclic H0 h.
Proof.
  intros h Hh o d E. destruct (H0_inv o d E) as [d' [E' ->]]. simpl. pose proof (Hh _ _ E') as HF.
  apply Forall_forall. intros i Hi. apply in_map_iff in Hi. destruct Hi as [j [<- Hj]]. rewrite Forall_forall in HF. auto.
Qed.

Lemma H0_fresh : fresh_scope H0 s.
Proof.
  destruct Hfresh as [Hf _]. split; [|intros d m []]. intros d m Hin. simpl in Hin. apply in_map_iff in Hin.
  destruct Hin as [d' [<- Hd]]. simpl. auto.
Qed.

Lemma H0_valid : forall x, valid g x -> (forall r, x <> XRV r) -> valid H0 x.
Proof.
  intros [r|t|t|o] Hv Hx; simpl in *; rewrite ?map_length; auto; [destruct (Hx r eq_refl)|].
  destruct Hv as [d [Hd Hk]]. exists (rew d). split; auto. now apply H0_op.
Qed.

Lemma H0_plain : forall x, plain g x -> plain H0 x.
Proof. intros x Hp o d Ex Ed. destruct (H0_inv o d Ed) as [d' [E' ->]]. exact (Hp o d' Ex E'). Qed.
End Q.

Lemma copy_q_without_parents : forall g h pick sw scope s x, wf g -> put_acyclic g sw h ->
  swap_ok g sw -> plain_values g sw -> with_slash scope = Some s -> fresh_scope g s -> valid g x -> plain g x ->
  (forall r, x <> XRV r) ->
  exists N g' y rho, (forall fuel, N <= fuel -> ed_copy fuel pick sw scope true false g x = (g', Ok y)) /\
    (forall o, length (ops g) <= rho o) /\
    (forall a b, a < length (ops g) -> b < length (ops g) -> rho a = rho b -> a = b) /\
    forall V N' (sem : nat -> N' -> list V -> V) st noise,
      (exists v, ev sem st noise g' (tensor_of g' y) v) /\
      forall v, ev sem st noise g' (tensor_of g' y) v <->
                qev sem st (fun o => noise (rho o)) g sw (tensor_of g x) v.
Proof.
  intros g h pick sw scope s x Hwf Hac Hsw Hval Hs Hf Hv Hp Hx.
  assert (S0 : swap_ok (H0 g sw) []) by (split; simpl; constructor).
  destruct (copy_without_parents (H0 g sw) h pick [] scope s x (H0_wf g sw Hwf Hsw) (H0_acyclic g sw h Hac) S0 Hs
              (H0_fresh g sw s Hf) (H0_valid g sw x Hv Hx) (H0_plain g sw x Hp) Hx) as [N [H' [y [rho [E [Hn [Hi Hev]]]]]]].
  assert (Hlen : length (ops (H0 g sw)) = length (ops g)) by (simpl; apply map_length).
  rewrite Hlen in *.
  destruct (sim_top g sw s pick Hwf Hsw Hf Hval N x Hv Hx) as [R1 [R2 R3]].
  specialize (E N (le_n _)) as EN. unfold ed_copy, ed_copy_at in EN. rewrite Hs in EN. rewrite EN in R1, R2. simpl in R1, R2.
  destruct (copy N pick sw s false true false g x) as [G' r] eqn:EG. simpl in R1, R2, R3. subst r.
  destruct (R3 y eq_refl) as [t [Hy Ht]].
  assert (T : tensor_of G' y = t /\ tensor_of H' y = t) by (destruct Hy as [->|[->| ->]]; auto).
  destruct T as [T1 T2].
  assert (Tx : tensor_of (H0 g sw) x = tensor_of g x) by (destruct x as [r| | |]; auto; destruct (Hx r eq_refl)).
  exists N, G', y, rho. split; [|split; [auto|split; [auto|]]].
  - intros fuel Hfu. eapply ed_copy_mono; [exact Hfu| |discriminate]. unfold ed_copy, ed_copy_at. now rewrite Hs.
  - intros V N' sem st noise. rewrite T1. destruct (Hev V N' sem st noise) as [[v Hex] Hiff]. rewrite T2 in *. rewrite Tx in Hiff.
    split; [exists v; eapply ev_rel; eauto|].
    intros w. rewrite (qev_sev g sw V N' sem st noise). rewrite <- Hiff. eapply ev_rel; eauto.
Qed.

(** ** Variables as values *)

Section Vars.
Variable sw : swap.
Variable s : string.
Variable pick : nat -> nat.
Definition keeps (G : graph) : Prop := forall k y, In (k, y) sw ->
  exists u, y = XVar u /\ is_var G u = true /\ forall k' y', In (k', y') sw -> k' <> y.

Lemma front_vars : forall G ri x, keeps G -> front G sw ri true x = front G sw ri false x.
Proof.
  intros G ri x HK.
  assert (Hl : forall x y, lookup sw x = Some y -> exists u, y = XVar u /\ is_var G u = true /\ lookup sw (XVar u) = None).
  { intros x0 y E. apply lookup_some in E. destruct (HK _ _ E) as [u [-> [Hu Hk]]]. exists u. split; auto. split; auto.
    destruct (lookup sw (XVar u)) as [z|] eqn:E2; auto. apply lookup_some in E2. destruct (Hk _ _ E2 eq_refl). }
  assert (Hr : forall t y, rv_key G sw t = Some y -> exists u, y = XVar u /\ is_var G u = true /\ lookup sw (XVar u) = None).
  { intros t y E. unfold rv_key in E. destruct (find _ sw) as [[k w]|] eqn:F; [|discriminate]. apply find_some in F. destruct F as [F _].
    destruct (HK _ _ F) as [u [-> [Hu Hk]]]. injection E as <-. exists u. split; auto. split; auto.
    destruct (lookup sw (XVar u)) as [z|] eqn:E2; auto. apply lookup_some in E2. destruct (Hk _ _ E2 eq_refl). }
  destruct ri; [|unfold front; destruct x; auto].
  unfold front. destruct (lookup sw x) as [y|] eqn:E.
  { destruct (Hl _ _ E) as [u [-> [Hu ->]]]. now rewrite Hu. }
  assert (Hv : forall t, (if is_var G t then match lookup sw (XVar t) with
      | Some z => if negb true || is_xvar z then inl z else match z with XT u => if is_var G u then inl (XVar u) else inr z | _ => inr z end
      | None => inl (XVar t) end else @inr elem elem (XT t)) =
    if is_var G t then match lookup sw (XVar t) with
      | Some z => if negb false || is_xvar z then inl z else match z with XT u => if is_var G u then inl (XVar u) else inr z | _ => inr z end
      | None => inl (XVar t) end else inr (XT t)).
  { intros t. destruct (is_var G t); auto. destruct (lookup sw (XVar t)) as [z|] eqn:Ez; auto.
    destruct (Hl _ _ Ez) as [u [-> _]]. reflexivity. }
  destruct x as [r|t|t|o]; auto.
  - destruct (rv_key G sw t) as [y|] eqn:Ek; [|apply Hv]. destruct (Hr _ _ Ek) as [u [-> [Hu ->]]]. now rewrite Hu.
  - rewrite E. reflexivity.
Qed.

Lemma keeps_ext : forall G G', extends G G' -> keeps G -> keeps G'.
Proof.
  intros G G' [He _] HK k y Hin. destruct (HK _ _ Hin) as [u [E [Hu Hk]]]. exists u. split; auto. split; auto.
  unfold is_var in *. destruct (nth_error (ops G) u) as [d|] eqn:Ed; [|discriminate]. now rewrite (He _ _ Ed).
Qed.

Lemma update_kind : forall o t l u d, nth_error l u = Some d ->
  exists d', nth_error (update_nth o (fun d => mkop (oname d) (okind d) (oins d ++ [t])) l) u = Some d' /\ okind d' = okind d.
Proof.
  intros o t. revert o. intros o l. revert o. induction l as [|a l IH]; intros o u d E; [destruct u; discriminate|].
  destruct o as [|o], u as [|u]; simpl in *; eauto; injection E as <-; eauto.
Qed.
Lemma keeps_input : forall G o t, keeps G -> keeps (add_input G o t).
Proof.
  intros G o t HK k y Hin. destruct (HK _ _ Hin) as [u [E [Hu Hk]]]. exists u. split; auto. split; auto.
  unfold is_var in *. destruct (nth_error (ops G) u) as [d|] eqn:Ed; [|discriminate]. simpl.
  destruct (update_kind o t _ _ _ Ed) as [d' [-> ->]]. auto.
Qed.

Lemma list_vars : forall c c' l G, (forall G x, keeps G -> c G x = c' G x /\ keeps (fst (c G x))) -> keeps G ->
  copy_list c G l = copy_list c' G l /\ keeps (fst (copy_list c G l)).
Proof.
  intros c c' l. induction l as [|x l IH]; intros G Hc HK; simpl; auto.
  destruct (Hc G x HK) as [<- HK1]. destruct (c G x) as [G1 [y| |]]; auto.
  destruct (IH G1 Hc HK1) as [<- HK2]. destruct (copy_list c G1 l) as [G2 [ys| |]]; auto.
Qed.
Lemma inputs_vars : forall c c' l G o, (forall G x, keeps G -> c G x = c' G x /\ keeps (fst (c G x))) -> keeps G ->
  copy_inputs c G o l = copy_inputs c' G o l.
Proof.
  intros c c' l. induction l as [|x l IH]; intros G o Hc HK; simpl; auto.
  destruct (Hc G (XT x) HK) as [<- HK1]. destruct (c G (XT x)) as [G1 [y| |]]; auto.
  destruct (as_tensor G1 y); auto. apply IH; auto. apply keeps_input; auto.
Qed.

Lemma copy_vars : forall f ri cps G x, keeps G ->
  copy f pick sw s ri true cps G x = copy f pick sw s ri false cps G x.
Proof.
  induction f as [|f IH]; intros ri cps G x HK; auto. cbn [copy]. rewrite (front_vars G ri x HK).
  destruct (front G sw ri false x) as [y|y]; auto. destruct (find_copy G s y); auto.
  assert (Hc : forall ri cps G x, keeps G -> copy f pick sw s ri true cps G x = copy f pick sw s ri false cps G x /\
                 keeps (fst (copy f pick sw s ri true cps G x))).
  { intros ri0 cps0 G0 x0 HK0. split; [auto|]. destruct (copy f pick sw s ri0 true cps0 G0 x0) as [G1 r] eqn:E.
    eapply keeps_ext; [eapply copy_frame; eauto|auto]. }
  assert (Hp : (if cps && negb (is_op y) then copy_list (copy f pick sw s true true true) G (parents pick G y) else (G, Ok [])) =
               (if cps && negb (is_op y) then copy_list (copy f pick sw s true false true) G (parents pick G y) else (G, Ok [])) /\
               keeps (fst (if cps && negb (is_op y) then copy_list (copy f pick sw s true true true) G (parents pick G y) else (G, Ok [])))).
  { destruct (cps && negb (is_op y)); auto. apply list_vars; auto. }
  destruct Hp as [<- HK1]. destruct (if cps && negb (is_op y) then _ else (G, Ok [])) as [G1 [l| |]]; auto. cbn [fst] in HK1.
  destruct y as [r|t|t|o]; auto.
  - destruct (nth_error (rvs G1) r) as [d|]; auto.
    destruct (list_vars (copy f pick sw s true true false) (copy f pick sw s true false false) (rargs d) G1 (Hc true false) HK1) as [-> _]. auto.
  - destruct (nth_error (ops G1) t) as [d|]; auto. rewrite (IH true false G1 (XOp t) HK1). auto.
  - destruct (nth_error (ops G1) o) as [d|]; auto. destruct (okind d); auto;
      rewrite (inputs_vars (copy f pick sw s true true false) (copy f pick sw s true false false)); auto;
      (eapply keeps_ext; [|exact HK1]); split; simpl; auto; intros; apply nth_app_l; auto.
Qed.
End Vars.

Lemma copy_q_variables : forall g sw, variable_values g sw -> forall fuel pick scope ri cps x,
  ed_copy_at fuel pick sw scope ri true cps g x = ed_copy_at fuel pick sw scope ri false cps g x.
Proof.
  intros g sw HV fuel pick scope ri cps x. unfold ed_copy_at. destruct (with_slash scope) as [s|]; auto.
  apply copy_vars. intros k y Hin. destruct (HV _ _ Hin) as [u [-> [[d [Hd Hk]] H]]]. exists u. split; auto. split; auto.
  unfold is_var. now rewrite Hd, Hk.
Qed.
