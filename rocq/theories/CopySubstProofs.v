(** * copy computes the substituted expression (proofs). *)
From Coq Require Import String List Arith Bool Lia.
From Verif Require Graph GraphSpec BayesBallProofs.
From Verif Require Import Copy CopySpec CopyProofs.
Import ListNotations.
Local Open Scope string_scope.

(** The keys of [sw] and what is copied are elements of [g0], the values are
    elements of the larger graph [g1] from which the calls start. *)
Definition swap_at (g0 g1 : graph) (sw : swap) : Prop :=
  Forall (fun kv => valid g0 (fst kv) /\ valid g1 (snd kv) /\
                    is_op (fst kv) = false /\ is_op (snd kv) = false) sw /\
  NoDup (map (fun kv => tensor_of g0 (fst kv)) sw).

Section Subst.
Variable g0 g1 : graph.
Variable sw : swap.
Variable scope : string.
Variable h : nat -> nat.
Variable pick : nat -> nat.
Hypothesis Hwf : wf g0.
Hypothesis Hfresh : fresh_scope g0 scope.
Hypothesis Hext1 : extends g0 g1.
Hypothesis Hwf1 : wf g1.
Hypothesis Hsw : swap_at g0 g1 sw.
Hypothesis Hdk : direct_keys g0 sw.
Hypothesis Hac : acyclic g0 h.

Notation n0 := (length (ops g0)).
Notation m0 := (length (rvs g0)).
Notation n1 := (length (ops g1)).
Notation m1 := (length (rvs g1)).
Notation repl := (replacement g1 sw).

Definition node_image (g : graph) (o o' : nat) : Prop :=
  exists d, nth_error (ops g0) o = Some d /\
  if leaf (okind d) then o' = o
  else n0 <= o' /\ exists d', nth_error (ops g) o' = Some d' /\ oname d' = scope ++ oname d.

Definition image (g : graph) (i i' : nat) : Prop :=
  match repl i with
  | Some t' => i' = t'
  | None => node_image g i i'
  end.

Definition named_ext (g g' : graph) : Prop :=
  forall o d, nth_error (ops g) o = Some d -> exists d', nth_error (ops g') o = Some d' /\ oname d' = oname d.

Lemma node_image_ext : forall g g' o o', named_ext g g' -> node_image g o o' -> node_image g' o o'.
Proof.
  intros g g' o o' He [d [Hd H]]. exists d. split; auto. destruct (leaf (okind d)); auto.
  destruct H as [Hn [d' [Hd' E]]]. split; auto. destruct (He _ _ Hd') as [d2 [H2 E2]]. exists d2. split; auto. congruence.
Qed.
Lemma image_ext : forall g g' o o', named_ext g g' -> image g o o' -> image g' o o'.
Proof. intros g g' o o' He H. unfold image in *. destruct (repl o); auto. eapply node_image_ext; eauto. Qed.
Lemma images_ext : forall g g' l l', named_ext g g' -> Forall2 (image g) l l' -> Forall2 (image g') l l'.
Proof. intros g g' l l' He H. induction H; constructor; auto. eapply image_ext; eauto. Qed.
Lemma extends_named : forall g g', extends g g' -> named_ext g g'.
Proof. intros g g' [H _] o d Hd. eauto. Qed.
Lemma named_len : forall g g', named_ext g g' -> length (ops g) <= length (ops g').
Proof.
  intros g g' H. destruct (Nat.le_gt_cases (length (ops g)) (length (ops g'))); auto.
  destruct (nth_error (ops g) (length (ops g'))) as [d|] eqn:E.
  - destruct (H _ _ E) as [d' [Hd' _]]. apply nth_lt in Hd'. lia.
  - apply nth_error_None in E. lia.
Qed.
Lemma extends_len_rv : forall g g', extends g g' -> length (rvs g) <= length (rvs g').
Proof.
  intros g g' [_ H]. destruct (Nat.le_gt_cases (length (rvs g)) (length (rvs g'))); auto.
  destruct (nth_error (rvs g) (length (rvs g'))) as [d|] eqn:E.
  - apply H in E. apply nth_lt in E. lia.
  - apply nth_error_None in E. lia.
Qed.

(** [P]: the operations whose inputs are being added. *)
Record Inv (P : list nat) (g : graph) : Prop := {
  i_ext1 : extends g1 g;
  i_op : forall o d s ds, nth_error (ops g) o = Some d -> nth_error (ops g0) s = Some ds ->
    oname d = scope ++ oname ds -> leaf (okind ds) = false /\ okind d = okind ds /\
      (In o P \/ Forall2 (image g) (oins ds) (oins d));
  i_closed : forall o d, nth_error (ops g) o = Some d -> Forall (fun i => i < length (ops g)) (oins d);
  i_new : forall o d, n1 <= o -> nth_error (ops g) o = Some d ->
    exists s ds, nth_error (ops g0) s = Some ds /\ oname d = scope ++ oname ds;
  i_names : NoDup (map oname (ops g));
  i_rv : forall r d, m0 <= r -> nth_error (rvs g) r = Some d ->
    n0 <= rvalue d /\ rv_ok g d /\ ~ In (rvalue d) P;
  i_rvnew : forall r d, m1 <= r -> nth_error (rvs g) r = Some d ->
    exists s ds, nth_error (rvs g0) s = Some ds /\ rname d = scope ++ rname ds;
  i_rvnames : NoDup (map rname (rvs g));
  i_values : NoDup (map rvalue (rvs g))
}.

Lemma i_ext : forall P g, Inv P g -> extends g0 g.
Proof. intros P g HI. eapply extends_trans; [exact Hext1|exact (i_ext1 _ _ HI)]. Qed.

(** The random variables that [g1] adds have sample operations that [g1] adds. *)
Definition new_values : Prop := forall r d, m0 <= r -> nth_error (rvs g1) r = Some d -> n0 <= rvalue d.

Lemma inv_start : new_values -> fresh_scope g1 scope -> Inv [] g1.
Proof.
  intros Hnv [Hf1 Hf2]. pose proof Hwf1 as [H1 H2 H3 H4 H5]. constructor; auto.
  - apply extends_refl.
  - intros o d s ds Ho Hs E. exfalso. eapply Hf1; [eapply nth_error_In; exact Ho|exact E].
  - intros o d Ho Hd. apply nth_lt in Hd. lia.
  - intros r d Hr Hd. split; [eauto|]. split; [|intros []]. rewrite Forall_forall in H5. eapply H5, nth_error_In; eauto.
  - intros r d Hr Hd. apply nth_lt in Hd. lia.
Qed.

(** ** Elements of the original graph *)

Section Ext.
Variable g : graph.
Hypothesis He : extends g0 g.

Lemma ext_op : forall o, o < n0 -> nth_error (ops g) o = nth_error (ops g0) o.
Proof.
  intros o Ho. destruct (nth_error (ops g0) o) eqn:E; [destruct He as [H1 _]; auto|]. apply nth_error_None in E. lia.
Qed.
Lemma ext_rv : forall o, o < m0 -> nth_error (rvs g) o = nth_error (rvs g0) o.
Proof.
  intros o Ho. destruct (nth_error (rvs g0) o) eqn:E; [destruct He as [_ H1]; auto|]. apply nth_error_None in E. lia.
Qed.
Lemma ext_tensor : forall x, valid g0 x -> tensor_of g x = tensor_of g0 x.
Proof.
  intros [r|t|t|o] Hv; auto. simpl in *. rewrite ext_rv by auto.
  destruct (nth_error (rvs g0) r) eqn:E; auto. apply nth_error_None in E. lia.
Qed.
Lemma ext_valid : forall x, valid g0 x -> valid g x.
Proof.
  assert (Hn : length (ops g0) <= length (ops g)) by (apply named_len, extends_named; auto).
  assert (Hm : length (rvs g0) <= length (rvs g)) by (apply extends_len_rv; auto).
  intros [r|t|t|o] Hv; simpl in *; [lia|lia| |lia]. destruct Hv as [d [Hd Hk]]. exists d. split; auto. destruct He as [H1 _]. auto.
Qed.
Lemma ext_is_var : forall t, t < n0 -> is_var g t = is_var g0 t.
Proof. intros t Ht. unfold is_var. now rewrite ext_op. Qed.
End Ext.

Lemma valid_extends : forall g g' x, extends g g' -> valid g x -> valid g' x.
Proof.
  intros g g' x He Hv.
  assert (Hn : length (ops g) <= length (ops g')) by (apply named_len, extends_named; auto).
  assert (Hm : length (rvs g) <= length (rvs g')) by (apply extends_len_rv; auto).
  destruct x as [r|t|t|o]; simpl in *; [lia|lia| |lia]. destruct Hv as [d [Hd Hk]]. exists d. split; auto. destruct He as [H1 _]. auto.
Qed.
Lemma tensor_extends : forall g g' x, extends g g' -> valid g x -> tensor_of g' x = tensor_of g x.
Proof.
  intros g g' [r|t|t|o] He Hv; auto. simpl in *. destruct (nth_error (rvs g) r) eqn:E.
  - apply He in E. now rewrite E.
  - apply nth_error_None in E. lia.
Qed.
Lemma as_tensor_of : forall g x, valid g x -> is_op x = false -> as_tensor g x = Some (tensor_of g x).
Proof.
  intros g [r|t|t|o] Hv Hx; simpl in *; auto; [|discriminate]. unfold value_of.
  destruct (nth_error (rvs g) r) eqn:E; auto. apply nth_error_None in E. lia.
Qed.

Lemma valid_tensor : forall g x, (forall r d, nth_error (rvs g) r = Some d -> rvalue d < length (ops g)) ->
  valid g x -> tensor_of g x < length (ops g).
Proof.
  intros g [r|t|t|o] Hr Hv; simpl in *; auto.
  - destruct (nth_error (rvs g) r) eqn:E; [eauto|]. apply nth_error_None in E. lia.
  - destruct Hv as [d [Hd _]]. eapply nth_lt; eauto.
Qed.

Lemma rv_value_lt0 : forall r d, nth_error (rvs g0) r = Some d -> rvalue d < n0.
Proof.
  intros r d H. pose proof (wf_rvs _ Hwf) as HF. rewrite Forall_forall in HF.
  destruct (HF d (nth_error_In _ _ H)) as [_ E]. eapply nth_lt; eauto.
Qed.
Lemma rv_ok0 : forall r d, nth_error (rvs g0) r = Some d -> rv_ok g0 d.
Proof. intros r d H. pose proof (wf_rvs _ Hwf) as HF. rewrite Forall_forall in HF. eapply HF, nth_error_In; eauto. Qed.

Lemma inv_value_lt : forall P g, Inv P g -> forall r d, nth_error (rvs g) r = Some d -> rvalue d < length (ops g).
Proof.
  intros P g H r d Hd. destruct (Nat.lt_ge_cases r m0).
  - rewrite (ext_rv g (i_ext _ _ H)) in Hd by auto. apply rv_value_lt0 in Hd.
    pose proof (named_len _ _ (extends_named _ _ (i_ext _ _ H))). lia.
  - destruct (i_rv _ _ H _ _ H0 Hd) as [_ [[_ Ho] _]]. eapply nth_lt; eauto.
Qed.

(** ** The first part of copy *)

Lemma sw_in : forall k y, In (k, y) sw -> valid g0 k /\ valid g1 y /\ is_op k = false /\ is_op y = false.
Proof. intros k y H. destruct Hsw as [HF _]. rewrite Forall_forall in HF. exact (HF _ H). Qed.

Lemma key_tensor : forall k y, In (k, y) sw -> tensor_of g1 k = tensor_of g0 k.
Proof. intros k y H. apply ext_tensor; auto. apply (sw_in _ _ H). Qed.

Lemma repl_found : forall k y, In (k, y) sw -> repl (tensor_of g0 k) = Some (tensor_of g1 y).
Proof.
  intros k y Hin. unfold replacement.
  assert (Hk : forall k y, In (k, y) sw -> tensor_of g1 k = tensor_of g0 k) by exact key_tensor.
  destruct Hsw as [_ Hn]. revert Hk Hin Hn. clear.
  induction sw as [|[k1 y1] l IH]; intros Hk Hin Hn; [destruct Hin|]. simpl. inversion Hn; subst.
  rewrite (Hk k1 y1 (or_introl eq_refl)).
  destruct (Nat.eqb (tensor_of g0 k1) (tensor_of g0 k)) eqn:E.
  - apply Nat.eqb_eq in E. destruct Hin as [Hin|Hin]; [inversion Hin; subst; reflexivity|]. exfalso. apply H1. simpl. rewrite E.
    apply in_map_iff. exists (k, y). auto.
  - destruct Hin as [Hin|Hin]; [inversion Hin; subst; rewrite Nat.eqb_refl in E; discriminate|]. apply IH; auto.
    intros k2 y2 H2'. apply (Hk k2 y2). now right.
Qed.
Lemma repl_some : forall t t', repl t = Some t' -> exists k y, In (k, y) sw /\ tensor_of g0 k = t /\ tensor_of g1 y = t'.
Proof.
  intros t t' H. unfold replacement in H. destruct (find _ sw) as [[k y]|] eqn:E; [|discriminate].
  apply find_some in E. destruct E as [Hin E]. apply Nat.eqb_eq in E. simpl in *. rewrite (key_tensor _ _ Hin) in E. inversion H. eauto.
Qed.
Lemma repl_lt : forall t t', repl t = Some t' -> t' < n1.
Proof.
  intros t t' H. destruct (repl_some _ _ H) as [k [y [Hin [_ <-]]]]. apply sw_in in Hin.
  apply valid_tensor; [|tauto]. intros r d Hr. pose proof (wf_rvs _ Hwf1) as HF. rewrite Forall_forall in HF.
  destruct (HF d (nth_error_In _ _ Hr)) as [_ E]. eapply nth_lt; eauto.
Qed.

Lemma elem_eqb_eq : forall a b, elem_eqb a b = true <-> a = b.
Proof.
  intros [] []; simpl; split; intros H; try discriminate; try (apply Nat.eqb_eq in H; congruence);
    inversion H; apply Nat.eqb_refl.
Qed.
Lemma lookup_some : forall x y, lookup sw x = Some y -> In (x, y) sw.
Proof.
  intros x y H. unfold lookup in H. destruct (find _ sw) as [[k z]|] eqn:E; [|discriminate].
  apply find_some in E. destruct E as [Hin E]. apply elem_eqb_eq in E. simpl in *. subst. inversion H; subst. auto.
Qed.
Lemma lookup_none : forall x, lookup sw x = None -> forall y, ~ In (x, y) sw.
Proof.
  intros x H y Hin. unfold lookup in H. destruct (find _ sw) as [[k z]|] eqn:E; [discriminate|].
  apply (find_none _ _ E) in Hin. simpl in Hin. rewrite (proj2 (elem_eqb_eq x x) eq_refl) in Hin. discriminate.
Qed.

Definition good_result (g : graph) (t : nat) (y : elem) : Prop :=
  valid g y /\ is_op y = false /\ image g t (tensor_of g y).

(** For a tensor of the original graph that may be swapped. *)
Lemma front_tensor : forall g t, extends g1 g -> t < n0 ->
  match front g sw true false (XT t) with
  | inl y => good_result g t y
  | inr y => y = XT t /\ repl t = None /\ is_var g0 t = false
  end.
Proof.
  intros g t He1 Ht. pose proof (extends_trans _ _ _ Hext1 He1) as He.
  assert (Hswap : forall k y, In (k, y) sw -> tensor_of g0 k = t -> good_result g t y).
  { intros k y Hin Hk. destruct (sw_in _ _ Hin) as [Hvk [Hvy [Hok Hoy]]].
    split; [now apply (valid_extends g1 g)|]. split; auto. unfold image. rewrite <- Hk, (repl_found _ _ Hin).
    now apply (tensor_extends g1 g). }
  unfold front. simpl. destruct (lookup sw (XT t)) as [y|] eqn:E1.
  { apply lookup_some in E1. eapply Hswap; eauto. }
  unfold rv_key.
  match goal with |- context [find ?f sw] => destruct (find f sw) as [[k y]|] eqn:E2 end.
  { apply find_some in E2. destruct E2 as [Hin E2]. simpl in E2.
    destruct k as [r|k|k|k]; try discriminate.
    destruct (sw_in _ _ Hin) as [Hvk [Hvy [_ Hoy]]]. unfold value_of in E2. simpl in Hvk.
    rewrite (ext_rv g He) in E2 by auto.
    destruct (nth_error (rvs g0) r) as [dr|] eqn:Er; [|discriminate]. simpl in E2. apply Nat.eqb_eq in E2.
    assert (Hk : tensor_of g0 (XRV r) = t) by (simpl; now rewrite Er).
    pose proof (Hswap _ _ Hin Hk) as Hg.
    destruct y as [q|u|u|u]; try exact Hg.
    simpl in Hvy. unfold value_of.
    destruct (nth_error (rvs g1) q) as [dq|] eqn:Eq; [|apply nth_error_None in Eq; lia].
    pose proof (proj2 He1 _ _ Eq) as Eq1. rewrite Eq1. simpl.
    destruct Hg as [_ [_ Him]]. simpl in Him. rewrite Eq1 in Him.
    split; [|split; auto]. simpl. pose proof (wf_rvs _ Hwf1) as HR. rewrite Forall_forall in HR.
    destruct (HR dq (nth_error_In _ _ Eq)) as [_ Ho]. apply nth_lt in Ho.
    pose proof (named_len _ _ (extends_named _ _ He1)). lia. }
  rewrite (ext_is_var g He) by auto.
  assert (Hnone : is_var g0 t = false \/ lookup sw (XVar t) = None -> repl t = None).
  { intros Hv. destruct (repl t) as [t'|] eqn:Er; auto. exfalso.
    destruct (repl_some _ _ Er) as [k [y [Hin [Hk _]]]]. destruct (sw_in _ _ Hin) as [Hvk [_ [Hok _]]].
    destruct k as [r|k|k|k]; simpl in Hk; subst; try discriminate.
    - simpl in Hvk. destruct (nth_error (rvs g0) r) as [dr|] eqn:Edr; [|apply nth_error_None in Edr; lia].
      apply (find_none _ _ E2) in Hin. simpl in Hin. unfold value_of in Hin.
      rewrite (ext_rv g He), Edr in Hin by auto. simpl in Hin. rewrite Nat.eqb_refl in Hin. discriminate.
    - eapply lookup_none in E1; eauto.
    - destruct Hv as [Hv|Hv].
      + simpl in Hvk. destruct Hvk as [d [Hd Hkd]]. unfold is_var in Hv. rewrite Hd, Hkd in Hv. discriminate.
      + eapply lookup_none in Hv; eauto. }
  destruct (is_var g0 t) eqn:Ev.
  - destruct (lookup sw (XVar t)) as [z|] eqn:E3.
    + simpl. apply lookup_some in E3. eapply Hswap; eauto.
    + specialize (Hnone (or_intror eq_refl)). unfold is_var in Ev.
      destruct (nth_error (ops g0) t) as [d|] eqn:Ed; [|discriminate].
      destruct (okind d) eqn:Ek; try discriminate.
      split; [|split; auto].
      * simpl. exists d. split; auto. now apply He.
      * unfold image. rewrite Hnone. exists d. split; auto. rewrite Ek. reflexivity.
  - split; auto.
Qed.

Lemma find_copy_op : forall P g o d, Inv P g -> nth_error (ops g0) o = Some d -> leaf (okind d) = false ->
  forall o', op_named g (scope ++ oname d) = Some o' -> node_image g o o'.
Proof.
  intros P g o d HI Hd Hl o' H. apply op_named_some in H. destruct H as [d' [Hd' En]].
  exists d. split; auto. rewrite Hl. split; [|eauto].
  destruct (Nat.le_gt_cases n0 o'); auto. exfalso.
  rewrite (ext_op g (i_ext _ _ HI)) in Hd' by auto. destruct Hfresh as [Hf _].
  eapply Hf; [eapply nth_error_In; eauto|eauto].
Qed.

(** No operation is named after a leaf in the scope. *)
Lemma leaf_no_copy : forall P g o d, Inv P g -> nth_error (ops g0) o = Some d -> leaf (okind d) = true ->
  op_named g (scope ++ oname d) = None.
Proof.
  intros P g o d HI Hd Hl. destruct (op_named g (scope ++ oname d)) as [o'|] eqn:E; auto. exfalso.
  apply op_named_some in E. destruct E as [d' [Hd' En]].
  destruct (i_op _ _ HI _ _ _ _ Hd' Hd En) as [Hls _]. congruence.
Qed.

(** ** Readiness: the random variables met above a tensor are already copied *)

Definition is_value (t : nat) : Prop := exists r d, nth_error (rvs g0) r = Some d /\ rvalue d = t.
Inductive cpath : nat -> nat -> Prop :=
| cp_refl : forall t, cpath t t
| cp_step : forall t d i u, nth_error (ops g0) t = Some d -> In i (oins d) -> ~ is_value t ->
    cpath i u -> cpath t u.

Definition done_rv (g : graph) (d : rvdef) : Prop :=
  repl (rvalue d) <> None \/ rv_named g (scope ++ rname d) <> None.
Definition ready (g : graph) (t : nat) : Prop :=
  forall r d, nth_error (rvs g0) r = Some d -> cpath t (rvalue d) -> done_rv g d.
Definition I6 (g : graph) : Prop :=
  forall r d, nth_error (rvs g0) r = Some d ->
  op_named g (scope ++ rname d ++ "sample") <> None -> rv_named g (scope ++ rname d) <> None.

Lemma named_rvs : forall g g' n, rvs g = rvs g' -> rv_named g n <> None -> rv_named g' n <> None.
Proof. intros g g' n E H. unfold rv_named in *. now rewrite <- E. Qed.
Lemma done_rvs : forall g g' d, rvs g = rvs g' -> done_rv g d -> done_rv g' d.
Proof. intros g g' d E [H|H]; [left; auto|right]. unfold rv_named in *. now rewrite <- E. Qed.
Lemma ready_rvs : forall g g' t, rvs g = rvs g' -> ready g t -> ready g' t.
Proof. intros g g' t E H r d Hr Hp. eapply done_rvs; eauto. Qed.

Lemma rv_named_op : forall P g d, Inv P g -> In d (rvs g0) -> rv_named g (scope ++ rname d) <> None ->
  op_named g (scope ++ rname d ++ "sample") <> None.
Proof.
  intros P g d HI Hin H. destruct (rv_named g (scope ++ rname d)) as [r|] eqn:E; [|congruence].
  apply rv_named_some in E. destruct E as [d' [Hd' En]].
  destruct (Nat.lt_ge_cases r m0).
  - exfalso. rewrite (ext_rv g (i_ext _ _ HI)) in Hd' by auto. destruct Hfresh as [_ Hf].
    eapply Hf; [eapply nth_error_In; eauto|eauto].
  - destruct (i_rv _ _ HI _ _ H0 Hd') as [_ [[_ Ho] _]].
    eapply op_named_found; [exact Ho|]. simpl. rewrite En. apply app_assoc_s.
Qed.

(** ** Adding to the graph *)

Lemma forall_lt_mono : forall (l : list nat) a b, a <= b -> Forall (fun i => i < a) l -> Forall (fun i => i < b) l.
Proof. intros l a b Hab H. eapply Forall_impl; [|exact H]. simpl. intros. lia. Qed.

Lemma rv_ok_ext : forall g g' d, extends g g' -> rv_ok g d -> rv_ok g' d.
Proof.
  intros g g' d He [Ha Ho]. split.
  - eapply Forall_impl; [|exact Ha]. intros x [Hv Hx]. split; auto. eapply valid_extends; eauto.
  - rewrite (proj1 He _ _ Ho). do 2 f_equal. apply map_ext_in. intros x Hx. rewrite Forall_forall in Ha.
    symmetry. apply tensor_extends; auto. apply Ha. auto.
Qed.

Lemma nodup_snoc : forall {A} (l : list A) a, NoDup l -> ~ In a l -> NoDup (l ++ [a]).
Proof.
  intros A l a H Hn. rewrite <- (rev_involutive (l ++ [a])). apply NoDup_rev. rewrite rev_app_distr. simpl.
  constructor; [now rewrite <- in_rev|]. now apply NoDup_rev.
Qed.

(** A new operation whose inputs are to be added. *)
Lemma inv_push : forall P g o d, Inv P g -> nth_error (ops g0) o = Some d -> leaf (okind d) = false ->
  op_named g (scope ++ oname d) = None ->
  Inv (length (ops g) :: P) (add_op g (mkop (scope ++ oname d) (okind d) [])).
Proof.
  intros P g o d HI Hd Hl Hn.
  set (new := mkop (scope ++ oname d) (okind d) []).
  pose proof (extends_add_op g new) as He.
  destruct HI as [Hext Hop Hcl Hnew Hnames Hrv Hrnew Hrn Hva]. constructor.
  - eapply extends_trans; eauto.
  - intros o1 d1 s ds Hd1 Hs En. simpl in Hd1. apply nth_app_inv in Hd1. destruct Hd1 as [[Hd1 Hlt]|[-> ->]].
    + destruct (Hop _ _ _ _ Hd1 Hs En) as [H1 [H2 H3]]. split; auto. split; auto.
      destruct H3 as [H3|H3]; [left; now right|right]. eapply images_ext; eauto. now apply extends_named.
    + simpl in En. apply app_inj_s in En.
      assert (s = o) by (exact (nodup_nth oname _ _ _ _ _ (wf_names _ Hwf) Hs Hd (eq_sym En))). subst s.
      assert (ds = d) by congruence. subst ds. split; auto. split; auto. left. now left.
  - intros o1 d1 Hd1. simpl in *. rewrite app_length. apply nth_app_inv in Hd1. destruct Hd1 as [[Hd1 Hlt]|[-> ->]].
    + eapply forall_lt_mono; [|eapply Hcl; eauto]. lia.
    + constructor.
  - intros o1 d1 Ho1 Hd1. simpl in Hd1. apply nth_app_inv in Hd1. destruct Hd1 as [[Hd1 _]|[_ ->]]; eauto.
  - simpl. rewrite map_app. simpl. apply nodup_snoc; auto. intros Hin. apply in_map_iff in Hin.
    destruct Hin as [d1 [E Hin]]. apply In_nth_error in Hin. destruct Hin as [i Hi].
    eapply op_named_none in Hn; eauto.
  - intros r d1 Hr Hd1. simpl in Hd1. destruct (Hrv _ _ Hr Hd1) as [H3 [H4 H5]].
    split; auto. split; [eapply rv_ok_ext; eauto|].
    intros [E|Hin]; [|contradiction]. destruct H4 as [_ H4]. apply nth_lt in H4. lia.
  - auto.
  - auto.
  - auto.
Qed.

Lemma add_input_named : forall g o t, named_ext g (add_input g o t).
Proof.
  intros g o t i d Hd. simpl. destruct (Nat.eq_dec o i) as [->|Hn].
  - exists (mkop (oname d) (okind d) (oins d ++ [t])). rewrite update_same, Hd. split; auto.
  - exists d. rewrite update_other; auto.
Qed.

Lemma map_update_name : forall o t l,
  map oname (update_nth o (fun d => mkop (oname d) (okind d) (oins d ++ [t])) l) = map oname l.
Proof. induction o; destruct l; simpl; auto. f_equal. auto. Qed.

Lemma add_input_tensor : forall g o t x, tensor_of (add_input g o t) x = tensor_of g x.
Proof. intros g o t [r|i|i|i]; simpl; auto. destruct (nth_error (rvs g) r); auto. apply update_length. Qed.

Lemma rv_ok_input : forall g o t d, rvalue d <> o -> rv_ok g d -> rv_ok (add_input g o t) d.
Proof.
  intros g o t d Hn [Ha Ho]. split.
  - eapply Forall_impl; [|exact Ha]. intros x [Hv Hx]. split; auto.
    destruct x as [r|i|i|i]; simpl in *; auto; try (rewrite update_length; auto).
    destruct Hv as [d1 [Hd1 Hk]]. destruct (Nat.eq_dec o i) as [->|Hi].
    + exists (mkop (oname d1) (okind d1) (oins d1 ++ [t])). rewrite update_same, Hd1. auto.
    + exists d1. rewrite update_other; auto.
  - simpl. rewrite update_other by auto. rewrite Ho. do 2 f_equal. apply map_ext. intros x.
    symmetry. apply add_input_tensor.
Qed.

Lemma inv_input : forall P g o t, Inv (o :: P) g -> n1 <= o -> t < length (ops g) -> Inv (o :: P) (add_input g o t).
Proof.
  intros P g o t HI Ho Ht. destruct HI as [Hext Hop Hcl Hnew Hnames Hrv Hrnew Hrn Hva].
  assert (Hlen : length (ops (add_input g o t)) = length (ops g)) by (simpl; apply update_length).
  assert (Hold : forall o1 d1, nth_error (ops (add_input g o t)) o1 = Some d1 ->
    exists d, nth_error (ops g) o1 = Some d /\ oname d1 = oname d /\ okind d1 = okind d /\
      ((o1 = o /\ oins d1 = (oins d ++ [t])%list) \/ (o1 <> o /\ d1 = d))).
  { intros o1 d1 Hd1. simpl in Hd1. destruct (Nat.eq_dec o o1) as [<-|Hn].
    - rewrite update_same in Hd1. destruct (nth_error (ops g) o) as [d|] eqn:Ed; [|discriminate].
      simpl in Hd1. injection Hd1 as <-. exists d. repeat split; auto.
    - rewrite update_other in Hd1 by auto. exists d1. repeat split; auto. }
  constructor; auto.
  - destruct Hext as [H1 H2]. split; auto. intros i d Hd. simpl. rewrite update_other; auto.
    apply nth_lt in Hd. lia.
  - intros o1 d1 s ds Hd1 Hs En. destruct (Hold _ _ Hd1) as [d [Hd [E1 [E2 Hc]]]]. rewrite E1 in En.
    destruct (Hop _ _ _ _ Hd Hs En) as [H1 [H2 H3]]. split; auto. split; [congruence|].
    destruct Hc as [[-> _]|[_ ->]]; [left; now left|].
    destruct H3 as [H3|H3]; auto. right. eapply images_ext; [apply add_input_named|exact H3].
  - intros o1 d1 Hd1. rewrite Hlen. destruct (Hold _ _ Hd1) as [d [Hd [E1 [E2 Hc]]]]. pose proof (Hcl _ _ Hd) as Hcd.
    destruct Hc as [[-> ->]|[_ ->]]; auto. apply Forall_app. auto.
  - intros o1 d1 Ho1 Hd1. destruct (Hold _ _ Hd1) as [d [Hd [E1 _]]]. destruct (Hnew _ _ Ho1 Hd) as [s [ds [H1 H2]]].
    exists s, ds. split; auto. congruence.
  - simpl. rewrite map_update_name. auto.
  - intros r d Hr Hd. destruct (Hrv _ _ Hr Hd) as [H3 [H4 H5]]. split; auto. split; auto. apply rv_ok_input; auto.
    intros E. apply H5. left. auto.
Qed.

(** The inputs are complete. *)
Lemma inv_pop : forall P g o s ds d, Inv (o :: P) g -> nth_error (ops g) o = Some d ->
  nth_error (ops g0) s = Some ds -> leaf (okind ds) = false -> oname d = scope ++ oname ds ->
  Forall2 (image g) (oins ds) (oins d) -> Inv P g.
Proof.
  intros P g o s ds d HI Hd Hs Hl Hn Him. destruct HI as [Hext Hop Hcl Hnew Hnames Hrv Hrnew Hrn Hva]. constructor; auto.
  - intros o1 d1 s1 ds1 Hd1 Hs1 En. destruct (Hop _ _ _ _ Hd1 Hs1 En) as [H1 [H2 H3]]. split; auto. split; auto.
    destruct H3 as [[<-|H3]|H3]; auto.
    right. rewrite Hd in Hd1. inversion Hd1; subst. rewrite En in Hn. apply app_inj_s in Hn.
    assert (s1 = s) by (exact (nodup_nth oname _ _ _ _ _ (wf_names _ Hwf) Hs1 Hs Hn)). subst.
    rewrite Hs in Hs1. inversion Hs1; subst. auto.
  - intros r d1 Hr Hd1. destruct (Hrv _ _ Hr Hd1) as [H3 [H4 H5]]. split; auto. split; auto. intros Hin. apply H5. now right.
Qed.

(** The operations of [g'] that [g] does not have stem from operations not
    higher than [b]. *)
Definition below (g g' : graph) (b : nat) : Prop :=
  forall o d, length (ops g) <= o -> nth_error (ops g') o = Some d ->
  exists s ds, nth_error (ops g0) s = Some ds /\ oname d = scope ++ oname ds /\ h s <= b.

Lemma below_refl : forall g b, below g g b.
Proof. intros g b o d Ho Hd. apply nth_lt in Hd. lia. Qed.
Lemma below_mono : forall g g' a b, a <= b -> below g g' a -> below g g' b.
Proof. intros g g' a b Hab H o d Ho Hd. destruct (H o d Ho Hd) as [s [ds [H1 [H2 H3]]]]. exists s, ds. repeat split; auto. lia. Qed.
Lemma below_trans : forall ga g2 g3 b, named_ext g2 g3 -> below ga g2 b -> below g2 g3 b -> below ga g3 b.
Proof.
  intros ga g2 g3 b He H1 H2 o d Ho Hd. destruct (Nat.lt_ge_cases o (length (ops g2))).
  - destruct (nth_error (ops g2) o) as [d2|] eqn:E; [|apply nth_error_None in E; lia].
    destruct (He _ _ E) as [d3 [Hd3 En]]. rewrite Hd in Hd3. inversion Hd3; subst.
    destruct (H1 _ _ Ho E) as [s [ds [Hs [Hn Hh]]]]. exists s, ds. repeat split; auto. congruence.
  - eapply H2; eauto.
Qed.

(** ** Copying a tensor without its parents *)

Lemma op_named_names : forall g g' n, map oname (ops g) = map oname (ops g') -> op_named g n = op_named g' n.
Proof.
  intros g g' n. unfold op_named. generalize (ops g), (ops g'). induction l as [|a l IH]; intros [|b m] H; simpl in *;
    try discriminate; auto. inversion H as [[Ha Hl]]. rewrite Ha. destruct (String.eqb n (oname b)); auto.
  f_equal. auto.
Qed.
Lemma op_named_app : forall g d n, op_named (add_op g d) n <> None ->
  op_named g n <> None \/ oname d = n.
Proof.
  intros g d n H. destruct (op_named (add_op g d) n) as [o|] eqn:E; [|congruence].
  apply op_named_some in E. destruct E as [d' [Hd' En]]. simpl in Hd'. apply nth_app_inv in Hd'.
  destruct Hd' as [[Hd' _]|[_ ->]]; auto. left. eapply op_named_found; eauto.
Qed.

Definition Post (P : list nat) (g g' : graph) (b : nat) (l : list nat) : Prop :=
  Inv P g' /\ rvs g' = rvs g /\ below g g' b /\ ((forall t, In t l -> ready g t) -> I6 g -> I6 g').

Lemma post_refl : forall P g b l, Inv P g -> Post P g g b l.
Proof. intros. split; [auto|split; [auto|split; [apply below_refl|auto]]]. Qed.

Lemma node_image_leaf : forall g o d, nth_error (ops g0) o = Some d -> leaf (okind d) = true -> node_image g o o.
Proof. intros g o d H Hl. exists d. split; auto. now rewrite Hl. Qed.
Lemma node_image_lt : forall P g o o', Inv P g -> node_image g o o' -> o' < length (ops g).
Proof.
  intros P g o o' HI [d [Hd H]]. destruct (leaf (okind d)).
  - subst. apply nth_lt in Hd. pose proof (named_len _ _ (extends_named _ _ (i_ext _ _ HI))). lia.
  - destruct H as [_ [d' [Hd' _]]]. eapply nth_lt; eauto.
Qed.

Lemma rv_by_op : forall r dr o d, nth_error (rvs g0) r = Some dr -> nth_error (ops g0) o = Some d ->
  oname d = rname dr ++ "sample" -> o = rvalue dr.
Proof.
  intros r dr o d Hr Hd E. destruct (rv_ok0 _ _ Hr) as [_ Ho].
  exact (nodup_nth oname _ _ _ _ _ (wf_names _ Hwf) Hd Ho E).
Qed.

Section Inputs.
Variable f : nat.
Notation c := (copy f pick sw scope true false false).
Hypothesis IHT : forall P g t, Inv P g -> t < n0 -> 2 * h t + 2 <= f ->
  exists g' y, c g (XT t) = (g', Ok y) /\ Post P g g' (h t) [t] /\ good_result g' t y.

Lemma inputs_ok : forall P n name k b l pre pre' g, Inv (n :: P) g -> n1 <= n ->
  nth_error (ops g) n = Some (mkop name k pre') -> Forall2 (image g) pre pre' ->
  Forall (fun i => i < n0 /\ 2 * h i + 2 <= f /\ h i <= b) l ->
  exists g' ins', copy_inputs c g n l = (g', Ok tt) /\ Post (n :: P) g g' b l /\ named_ext g g' /\
    nth_error (ops g') n = Some (mkop name k ins') /\ Forall2 (image g') (pre ++ l) ins'.
Proof.
  intros P n name k b. induction l as [|i l IH]; intros pre pre' g HI Hn Hop Him HF.
  - exists g, pre'. simpl. rewrite app_nil_r. split; auto. split; [now apply post_refl|].
    split; auto. apply extends_named, extends_refl.
  - inversion HF as [|? ? [Hi [Hf Hb]] HF']; subst.
    destruct (IHT _ _ _ HI Hi Hf) as [ga [y [E [[HI1 [Hr1 [Hbe1 H61]]] [Hv [Hx Hy]]]]]].
    pose proof (copy_frame _ _ _ _ _ _ _ _ _ _ _ E) as Hext.
    simpl. rewrite E, (as_tensor_of _ _ Hv Hx). set (t := tensor_of ga y) in *.
    assert (Ht : t < length (ops ga)) by (apply valid_tensor; auto; eapply inv_value_lt; eauto).
    pose proof (inv_input _ _ _ _ HI1 Hn Ht) as HI2.
    pose proof (proj1 Hext _ _ Hop) as Hop1.
    destruct (IH (pre ++ [i])%list (pre' ++ [t])%list (add_input ga n t) HI2 Hn) as [g' [ins' [E' [HP [He' [Ho' Hi']]]]]]; auto.
    + simpl. rewrite update_same, Hop1. reflexivity.
    + apply Forall2_app.
      * eapply images_ext; [apply add_input_named|]. eapply images_ext; [apply extends_named; exact Hext|auto].
      * constructor; auto. eapply image_ext; [apply add_input_named|auto].
    + exists g', ins'. split; auto. destruct HP as [HI' [Hr' [Hbe' H6']]].
      assert (Hne : named_ext ga g').
      { intros o d Hd. destruct (add_input_named ga n t _ _ Hd) as [d1 [Hd1 E1]].
        destruct (He' _ _ Hd1) as [d2 [Hd2 E2]]. exists d2. split; auto. congruence. }
      split; [|split; [|split; [exact Ho'|]]].
      * split; auto. split; [simpl in Hr'; congruence|]. split.
        { apply (below_trans g ga g'); [exact Hne|apply (below_mono g ga (h i)); auto|].
          intros o d Ho Hd. apply (Hbe' o d); auto. simpl. rewrite update_length. auto. }
        intros Hready H6. apply H6'.
        { intros u Hu. eapply ready_rvs; [|apply Hready; right; exact Hu]. simpl. auto. }
        { intros r dr Hr Hnm.
          assert (H61' : I6 ga). { apply H61; auto. intros u [<-|[]]. apply Hready. now left. }
          eapply (named_rvs ga); [reflexivity|]. eapply H61'; eauto.
          rewrite (op_named_names ga (add_input ga n t)); auto. simpl. symmetry. apply map_update_name. }
      * intros o d Hd. apply Hne. apply Hext. auto.
      * rewrite <- app_assoc in Hi'. auto.
Qed.
End Inputs.

Lemma B : forall f,
  (forall P g t, Inv P g -> t < n0 -> 2 * h t + 2 <= f ->
     exists g' y, copy f pick sw scope true false false g (XT t) = (g', Ok y) /\
       Post P g g' (h t) [t] /\ good_result g' t y) /\
  (forall P g o d, Inv P g -> nth_error (ops g0) o = Some d -> okind d <> KPlace -> okind d <> KVar ->
     2 * h o + 1 <= f ->
     exists g' o', copy f pick sw scope true false false g (XOp o) = (g', Ok (XOp o')) /\
       (Inv P g' /\ rvs g' = rvs g /\ below g g' (h o)) /\
       (repl o = None -> Post P g g' (h o) [o]) /\ node_image g' o o').
Proof.
  induction f as [|f [IHT IHO]]; [split; intros; lia|]. split.
  - intros P g t HI Ht Hf. simpl. pose proof (front_tensor g t (i_ext1 _ _ HI) Ht) as Hfr.
    destruct (front g sw true false (XT t)) as [y|y].
    { exists g, y. split; auto. split; [now apply post_refl|auto]. }
    destruct Hfr as [-> [Hr Hv]]. unfold find_copy. rewrite (ext_op g (i_ext _ _ HI)) by auto.
    destruct (nth_error (ops g0) t) as [d|] eqn:Ed; [|apply nth_error_None in Ed; lia].
    assert (Hgood : forall g' o', Inv P g' -> node_image g' t o' -> good_result g' t (XT o')).
    { intros g' o' HI' Hni. split; [eapply node_image_lt; eauto|]. split; auto. unfold image. now rewrite Hr. }
    destruct (op_named g (scope ++ oname d)) as [o'|] eqn:En; simpl.
    { exists g, (XT o'). split; auto. split; [now apply post_refl|]. apply Hgood; auto.
      destruct (leaf (okind d)) eqn:El; [rewrite (leaf_no_copy _ _ _ _ HI Ed El) in En; discriminate|].
      eapply find_copy_op; eauto. }
    assert (Hvar : okind d <> KVar).
    { intros Ek. unfold is_var in Hv. rewrite Ed, Ek in Hv. discriminate. }
    destruct (okind d) as [| | |ty] eqn:Ek.
    + exists g, (XT t). split; auto. split; [now apply post_refl|]. apply Hgood; auto.
      eapply node_image_leaf; eauto. now rewrite Ek.
    + destruct (IHO P g t d) as [g' [o' [E [[HI' _] [HP Hni]]]]]; auto; try congruence; try lia.
      rewrite E. exists g', (XT o'). split; auto.
    + congruence.
    + destruct (IHO P g t d) as [g' [o' [E [[HI' _] [HP Hni]]]]]; auto; try congruence; try lia.
      rewrite E. exists g', (XT o'). split; auto.
  - intros P g o d HI Ed Hk1 Hk2 Hf.
    assert (Hst : forall o', node_image g o o' -> (Inv P g /\ rvs g = rvs g /\ below g g (h o)) /\
       (repl o = None -> Post P g g (h o) [o]) /\ node_image g o o').
    { intros o' Hni. split; [|split; auto; intros; now apply post_refl]. split; auto. split; auto. apply below_refl. }
    assert (Ho : o < n0) by (eapply nth_lt; eauto).
    assert (Hfront : front g sw true false (XOp o) = inr (XOp o)).
    { unfold front. destruct (lookup sw (XOp o)) as [y|] eqn:E; auto. exfalso.
      apply lookup_some in E. apply sw_in in E. simpl in E. intuition discriminate. }
    simpl. rewrite Hfront. unfold find_copy. rewrite (ext_op g (i_ext _ _ HI)), Ed by auto.
    destruct (op_named g (scope ++ oname d)) as [o'|] eqn:En; simpl.
    { exists g, o'. split; auto. apply Hst.
      destruct (leaf (okind d)) eqn:El; [rewrite (leaf_no_copy _ _ _ _ HI Ed El) in En; discriminate|].
      eapply find_copy_op; eauto. }
    destruct (okind d) as [| | |ty] eqn:Ek; try congruence.
    + exists g, o. split; auto. apply Hst. eapply node_image_leaf; eauto. now rewrite Ek.
    + assert (Hl : leaf (okind d) = false) by (now rewrite Ek).
      pose proof (inv_push _ _ _ _ HI Ed Hl En) as HI1. rewrite Ek in HI1.
      set (n := length (ops g)) in *. set (ga := add_op g (mkop (scope ++ oname d) (KOp ty) [])) in *.
      assert (Hn : n1 <= n) by (apply named_len, extends_named, (i_ext1 _ _ HI)).
      assert (Hn' : n0 <= n) by (apply named_len, extends_named, (i_ext _ _ HI)).
      pose proof (Hac _ _ Ed) as Hlow. pose proof (wf_closed _ Hwf _ _ Ed) as Hcl.
      destruct (inputs_ok f IHT P n (scope ++ oname d) (KOp ty) (h o) (oins d) [] [] ga HI1 Hn)
        as [g' [ins' [E [HP [Hne [Hop Him]]]]]].
      { simpl. apply nth_app_new. }
      { constructor. }
      { rewrite Forall_forall in *. intros i Hi. specialize (Hlow _ Hi). specialize (Hcl _ Hi). repeat split; auto; lia. }
      rewrite E. exists g', n. split; auto. simpl in Him. destruct HP as [HI' [Hr' [Hbe' H6']]].
      assert (HI'' : Inv P g') by (eapply inv_pop; eauto).
      assert (Hni : node_image g' o n).
      { exists d. split; auto. rewrite Hl. split; auto. eexists. split; [exact Hop|reflexivity]. }
      assert (Hbel : below g g' (h o)).
      { eapply below_trans; [exact Hne| |exact Hbe']. intros o1 d1 Ho1 Hd1. simpl in Hd1.
        apply nth_app_inv in Hd1. destruct Hd1 as [[_ Hc]|[-> ->]]; [lia|]. exists o, d. simpl. auto. }
      split; [split; auto|]. split; [|exact Hni]. intros Hr. split; auto. split; [auto|]. split; [exact Hbel|].
      intros Hready H6. assert (Hro : ready g o) by (apply Hready; now left).
      apply H6'.
      * intros i Hi. apply (ready_rvs g ga); auto. intros r dr Hdr Hcp. eapply Hro; eauto.
        eapply cp_step; eauto. intros [q [dq [Hq Eq]]]. subst o.
        destruct (Hro q dq Hq (cp_refl _)) as [Hd1|Hd1]; [congruence|].
        eapply rv_named_op in Hd1; [|exact HI|eapply nth_error_In; eauto].
        destruct (rv_ok0 _ _ Hq) as [_ Hqo]. rewrite Ed in Hqo. inversion Hqo; subst d. simpl in *. congruence.
      * intros r dr Hdr Hnm. apply (named_rvs g ga); auto. apply op_named_app in Hnm. destruct Hnm as [Hnm|Hnm].
        { eapply H6; eauto. }
        { simpl in Hnm. apply app_inj_s in Hnm. pose proof (rv_by_op _ _ _ _ Hdr Ed Hnm) as ->.
          destruct (Hro _ _ Hdr (cp_refl _)); [congruence|auto]. }
Qed.

(** ** Parents *)

Lemma in_dataflow : forall l i o, In o (dataflow_from i l) <->
  exists k d, nth_error l k = Some d /\ o = Graph.mkop (oins d) [i + k].
Proof.
  induction l as [|d l IH]; intros i o; simpl.
  - split; [intros []|]. intros [k [d [H _]]]. destruct k; discriminate.
  - rewrite IH. split.
    + intros [<-|[k [d' [Hk ->]]]].
      * exists 0, d. rewrite Nat.add_0_r. auto.
      * exists (S k), d'. rewrite Nat.add_succ_r. auto.
    + intros [[|k] [d' [Hk ->]]]; simpl in Hk.
      * inversion Hk; subst. rewrite Nat.add_0_r. auto.
      * right. exists k, d'. rewrite Nat.add_succ_r. auto.
Qed.
Lemma edge_dataflow : forall g a b, GraphSpec.edge (dataflow g) a b <->
  exists d, nth_error (ops g) b = Some d /\ In a (oins d).
Proof.
  intros g a b. unfold GraphSpec.edge. simpl. split.
  - intros [o [Ho [Ha Hb]]]. apply in_dataflow in Ho. destruct Ho as [k [d [Hk ->]]]. simpl in *.
    destruct Hb as [<-|[]]. eauto.
  - intros [d [Hd Ha]]. exists (Graph.mkop (oins d) [b]). split; [|simpl; auto]. apply in_dataflow. exists b, d. auto.
Qed.
Lemma single_dataflow : forall g, GraphSpec.single_producer (dataflow g).
Proof.
  intros g o1 o2 t H1 H2 Ht1 Ht2. apply in_dataflow in H1. apply in_dataflow in H2.
  destruct H1 as [k1 [d1 [Hk1 ->]]]. destruct H2 as [k2 [d2 [Hk2 ->]]]. simpl in *.
  destruct Ht1 as [<-|[]]. destruct Ht2 as [<-|[]]. congruence.
Qed.
Lemma distinct_dataflow : forall g, NoDup (map rvalue (rvs g)) ->
  GraphSpec.distinct_values (dataflow g) (seq 0 (length (rvs g))).
Proof.
  intros g Hn r s Hr Hs E. apply in_seq in Hr. apply in_seq in Hs. simpl in *. unfold value_of in E.
  destruct (nth_error (rvs g) r) as [dr|] eqn:Er; [|apply nth_error_None in Er; lia].
  destruct (nth_error (rvs g) s) as [ds|] eqn:Es; [|apply nth_error_None in Es; lia].
  simpl in E. exact (nodup_nth rvalue _ _ _ _ _ Hn Er Es E).
Qed.

Lemma up_height : forall g T b a, extends g0 g -> GraphSpec.up (dataflow g) T b a -> b < n0 ->
  a < n0 /\ (a = b \/ h a < h b).
Proof.
  intros g T b a He H. induction H as [b|b c a Hb Hed _ IH]; intros Hlt; auto.
  apply edge_dataflow in Hed. destruct Hed as [d [Hd Hc]]. rewrite (ext_op g He) in Hd by auto.
  pose proof (wf_closed _ Hwf _ _ Hd) as Hcl. pose proof (Hac _ _ Hd) as Hl.
  rewrite Forall_forall in Hcl, Hl. specialize (Hcl _ Hc). specialize (Hl _ Hc).
  destruct (IH Hcl) as [H1 H2]. split; auto. right. destruct H2 as [->|H2]; lia.
Qed.

Lemma cpath_up : forall P g x t u, Inv P g -> t < n0 -> cpath t u ->
  GraphSpec.up (dataflow g) (GraphSpec.clear (dataflow g) (seq 0 (length (rvs g))) x) t u.
Proof.
  intros P g x t u HI Ht H. revert Ht. induction H as [t|t d i u Hd Hi Hv _ IH]; intros Ht; [constructor|].
  apply GraphSpec.up_step with i.
  - intros r Hr E. exfalso. apply Hv. apply in_seq in Hr. simpl in *. unfold value_of in E.
    destruct (nth_error (rvs g) r) as [dr|] eqn:Er; [|apply nth_error_None in Er; lia]. simpl in E.
    destruct (Nat.lt_ge_cases r m0).
    + rewrite (ext_rv g (i_ext _ _ HI)) in Er by auto. exists r, dr. auto.
    + destruct (i_rv _ _ HI _ _ H Er) as [Hge _]. lia.
  - apply edge_dataflow. exists d. split; auto. apply (i_ext _ _ HI). auto.
  - apply IH. pose proof (wf_closed _ Hwf _ _ Hd) as Hcl. rewrite Forall_forall in Hcl. auto.
Qed.

Definition node_of (x : elem) : option Graph.node :=
  match x with XRV r => Some (Graph.NRV r) | XT t => Some (Graph.NT t) | _ => None end.

Lemma parents_exact : forall P g x n, Inv P g -> node_of x = Some n ->
  forall e, In e (parents pick g x) <-> exists q, e = XRV q /\ q < length (rvs g) /\ XRV q <> x /\
    GraphSpec.up (dataflow g) (GraphSpec.clear (dataflow g) (seq 0 (length (rvs g))) n)
      (Graph.tensor_of (dataflow g) n) (Graph.value (dataflow g) q).
Proof.
  intros P g x n HI Hx e.
  destruct (BayesBallProofs.get_parents_exact (dataflow g) (seq 0 (length (rvs g))) pick
    (Graph.enough (dataflow g)) n (single_dataflow g) (distinct_dataflow _ (i_values _ _ HI)) (le_n _))
    as [l [El [_ Hl]]].
  assert (Hp : parents pick g x = map XRV l).
  { destruct x; inversion Hx; subst; simpl; now rewrite El. }
  rewrite Hp, in_map_iff. split.
  - intros [q [<- Hq]]. apply Hl in Hq. destruct Hq as [H1 [H2 H3]]. exists q. apply in_seq in H1.
    repeat split; auto; [lia|]. intros E. subst x. inversion Hx. subst n. congruence.
  - intros [q [-> [H1 [H2 H3]]]]. exists q. split; auto. apply Hl. split; [apply in_seq; lia|]. split; auto.
    intros E. subst n. destruct x; inversion Hx; subst; congruence.
Qed.

Lemma value_dataflow : forall g q d, nth_error (rvs g) q = Some d -> Graph.value (dataflow g) q = rvalue d.
Proof. intros g q d H. simpl. unfold value_of. now rewrite H. Qed.

Lemma parents_sound : forall P g x n t, Inv P g -> node_of x = Some n -> Graph.tensor_of (dataflow g) n = t ->
  t < n0 -> forall e, In e (parents pick g x) ->
  exists q dq, e = XRV q /\ XRV q <> x /\ nth_error (rvs g0) q = Some dq /\ (rvalue dq = t \/ h (rvalue dq) < h t).
Proof.
  intros P g x n t HI Hx Ht Hlt e He. apply (parents_exact _ _ _ _ HI Hx) in He.
  destruct He as [q [-> [Hq [Hn Hup]]]]. rewrite Ht in Hup.
  destruct (nth_error (rvs g) q) as [dq|] eqn:Eq; [|apply nth_error_None in Eq; lia].
  rewrite (value_dataflow _ _ _ Eq) in Hup. apply up_height in Hup; auto; [|apply (i_ext _ _ HI)].
  destruct Hup as [Hv Hh]. exists q, dq. split; auto. split; auto. split; auto.
  destruct (Nat.lt_ge_cases q m0).
  - now rewrite (ext_rv g (i_ext _ _ HI)) in Eq.
  - destruct (i_rv _ _ HI _ _ H Eq) as [Hge _]. lia.
Qed.

(** ** Copying random variables *)

Lemma done_mono : forall g g' d, extends g g' -> done_rv g d -> done_rv g' d.
Proof.
  intros g g' d He [H|H]; [now left|right]. destruct (rv_named g (scope ++ rname d)) as [r|] eqn:E; [|congruence].
  apply rv_named_some in E. destruct E as [d' [Hd' En]]. eapply rv_named_found; [apply He; exact Hd'|auto].
Qed.

Lemma rv_named_mono : forall g g' n, extends g g' -> rv_named g n <> None -> rv_named g' n <> None.
Proof.
  intros g g' n He H. destruct (rv_named g n) as [r|] eqn:E; [|congruence].
  apply rv_named_some in E. destruct E as [d' [Hd' En]]. eapply rv_named_found; [apply He; exact Hd'|auto].
Qed.

Lemma repl_rv_none : forall r d, nth_error (rvs g0) r = Some d -> lookup sw (XRV r) = None -> repl (rvalue d) = None.
Proof.
  intros r d Hr Hl. destruct (repl (rvalue d)) as [t'|] eqn:E; auto. exfalso.
  destruct (repl_some _ _ E) as [k [y [Hin [Hk _]]]]. destruct (sw_in _ _ Hin) as [Hv [_ [Ho _]]].
  destruct k as [q|t|t|t]; simpl in *; try discriminate.
  - destruct (nth_error (rvs g0) q) as [dq|] eqn:Eq; [|apply nth_error_None in Eq; lia].
    pose proof (nodup_nth rvalue _ _ _ _ _ (wf_values _ Hwf) Eq Hr Hk). subst. eapply lookup_none; eauto.
  - destruct (Hdk _ _ Hin) as [_ H]. apply (H d); auto. eapply nth_error_In; eauto.
  - destruct Hv as [dv [Hdv Hkv]]. destruct (rv_ok0 _ _ Hr) as [_ Ho']. subst t. rewrite Hdv in Ho'.
    inversion Ho'; subst. discriminate.
Qed.

Lemma swap_result : forall g k y t, extends g1 g -> In (k, y) sw -> tensor_of g0 k = t -> good_result g t y.
Proof.
  intros g k y t He Hin Hk. destruct (sw_in _ _ Hin) as [Hvk [Hvy [Hok Hoy]]].
  split; [now apply (valid_extends g1 g)|]. split; auto. unfold image. rewrite <- Hk, (repl_found _ _ Hin).
  now apply (tensor_extends g1 g).
Qed.

Lemma rv_tensor : forall r d, nth_error (rvs g0) r = Some d -> tensor_of g0 (XRV r) = rvalue d.
Proof. intros r d H. simpl. now rewrite H. Qed.

Lemma rv_copy_result : forall P g r d r', Inv P g -> nth_error (rvs g0) r = Some d -> repl (rvalue d) = None ->
  rv_named g (scope ++ rname d) = Some r' -> good_result g (rvalue d) (XRV r').
Proof.
  intros P g r d r' HI Hr Hrep Hn. apply rv_named_some in Hn. destruct Hn as [d' [Hd' En]].
  split; [simpl; eapply nth_lt; eauto|]. split; auto. unfold image. rewrite Hrep.
  destruct (rv_ok0 _ _ Hr) as [_ Ho]. eexists. split; [exact Ho|]. simpl. rewrite Hd'.
  destruct (Nat.lt_ge_cases r' m0) as [Hlt|Hge].
  - exfalso. rewrite (ext_rv g (i_ext _ _ HI)) in Hd' by auto. destruct Hfresh as [_ Hf].
    eapply Hf; [eapply nth_error_In; eauto|eauto].
  - destruct (i_rv _ _ HI _ _ Hge Hd') as [Hv [[_ Ho'] _]]. split; auto.
    eexists. split; [exact Ho'|]. simpl. rewrite En. apply app_assoc_s.
Qed.

Lemma good_ext : forall g g' t y, extends g g' -> good_result g t y -> good_result g' t y.
Proof.
  intros g g' t y He [Hv [Hx Hi]]. split; [eapply valid_extends; eauto|]. split; auto.
  rewrite (tensor_extends g g'); auto. eapply image_ext; eauto. now apply extends_named.
Qed.

(** Arguments, once the parents are copied. *)
Lemma args_ok : forall f b l g, Inv [] g ->
  Forall (fun a => valid g0 a /\ is_op a = false /\ 2 * h (tensor_of g0 a) + 2 <= f /\ h (tensor_of g0 a) <= b /\
                   ready g (tensor_of g0 a)) l ->
  I6 g ->
  exists g' ys, copy_list (copy f pick sw scope true false false) g l = (g', Ok ys) /\
    Inv [] g' /\ I6 g' /\ rvs g' = rvs g /\ below g g' b /\ extends g g' /\
    Forall2 (fun a y => good_result g' (tensor_of g0 a) y) l ys.
Proof.
  intros f b. induction l as [|a l IH]; intros g HI HF H6.
  - exists g, []. simpl. split; auto. split; auto. split; auto. split; auto. split; [apply below_refl|].
    split; [apply extends_refl|constructor].
  - inversion HF as [|? ? [Hv [Hx [Hf [Hb Hrd]]]] HF']; subst.
    assert (H1 : exists ga y, copy f pick sw scope true false false g a = (ga, Ok y) /\
      Inv [] ga /\ I6 ga /\ rvs ga = rvs g /\ below g ga b /\ good_result ga (tensor_of g0 a) y).
    { destruct a as [r|t|t|o]; [| | |discriminate].
      - simpl in Hv. destruct (nth_error (rvs g0) r) as [d|] eqn:Er; [|apply nth_error_None in Er; lia].
        rewrite (rv_tensor _ _ Er) in *. destruct f as [|f]; [lia|].
        assert (Hstay : forall y, copy (S f) pick sw scope true false false g (XRV r) = (g, Ok y) ->
          good_result g (rvalue d) y -> exists ga y, copy (S f) pick sw scope true false false g (XRV r) = (ga, Ok y) /\
          Inv [] ga /\ I6 ga /\ rvs ga = rvs g /\ below g ga b /\ good_result ga (rvalue d) y).
        { intros y E Hg. exists g, y. split; auto. split; auto. split; auto. split; auto. split; auto. apply below_refl. }
        destruct (lookup sw (XRV r)) as [y|] eqn:El.
        + apply (Hstay y).
          * simpl. unfold front. rewrite El. reflexivity.
          * apply lookup_some in El. eapply swap_result; eauto; [apply (i_ext1 _ _ HI)|now apply rv_tensor].
        + pose proof (repl_rv_none _ _ Er El) as Hrep.
          destruct (Hrd r d Er (cp_refl _)) as [Hd|Hd]; [congruence|].
          destruct (rv_named g (scope ++ rname d)) as [r'|] eqn:En; [|congruence].
          apply (Hstay (XRV r')).
          * simpl. unfold front. rewrite El. unfold find_copy.
            rewrite (ext_rv g (i_ext _ _ HI)), Er, En by auto. reflexivity.
          * eapply rv_copy_result; eauto.
      - simpl in Hv. destruct (proj1 (B f) [] g t HI Hv Hf) as [ga [y [E [[HI1 [Hr1 [Hbe1 H61]]] Hg]]]].
        exists ga, y. split; auto. split; auto. split.
        + apply H61; auto. intros u [<-|[]]. auto.
        + split; auto. split; auto. eapply below_mono; eauto.
      - simpl in Hv. destruct Hv as [d [Hd Hk]]. destruct f as [|f]; [lia|].
        assert (Ht : t < n0) by (eapply nth_lt; eauto).
        assert (Hivar : is_var g t = true).
        { unfold is_var. rewrite (ext_op g (i_ext _ _ HI)), Hd, Hk by auto. reflexivity. }
        destruct (lookup sw (XVar t)) as [y|] eqn:El.
        + exists g, y. split; [simpl; unfold front; rewrite El; reflexivity|].
          split; auto. split; auto. split; auto. split; [apply below_refl|].
          apply lookup_some in El. eapply swap_result; eauto. apply (i_ext1 _ _ HI).
        + assert (Hfr : front g sw true false (XVar t) = inl (XVar t)).
          { unfold front. cbv iota zeta. rewrite El. cbv iota. rewrite Hivar, El. reflexivity. }
          exists g, (XVar t). split; [cbn [copy]; rewrite Hfr; reflexivity|].
          split; auto. split; auto. split; auto. split; [apply below_refl|].
          split; [simpl; exists d; split; auto; apply (i_ext _ _ HI); auto|]. split; auto.
          unfold image. simpl. assert (Hrep : repl t = None).
          { destruct (repl t) as [t'|] eqn:E; auto. exfalso.
            destruct (repl_some _ _ E) as [k [y [Hin [Hkt _]]]]. destruct (sw_in _ _ Hin) as [Hvk [_ [Hok _]]].
            destruct k as [q|u|u|u]; simpl in *; subst; try discriminate.
            - destruct (nth_error (rvs g0) q) as [dq|] eqn:Eq; [|apply nth_error_None in Eq; lia].
              destruct (rv_ok0 _ _ Eq) as [_ Ho']. rewrite Hd in Ho'. inversion Ho'; subst. discriminate.
            - destruct (Hdk _ _ Hin) as [H _]. unfold is_var in H. rewrite Hd, Hk in H. discriminate.
            - eapply lookup_none; eauto. }
          rewrite Hrep. eapply node_image_leaf; eauto. now rewrite Hk. }
    destruct H1 as [ga [y [E [HI1 [H61 [Hr1 [Hbe1 Hg1]]]]]]].
    pose proof (copy_frame _ _ _ _ _ _ _ _ _ _ _ E) as Hext.
    destruct (IH ga HI1) as [g' [ys [E' [HI' [H6' [Hr' [Hbe' [Hext' Hg']]]]]]]]; auto.
    { eapply Forall_impl; [|exact HF']. intros z [A1 [A2 [A3 [A4 A5]]]]. split; auto. split; auto. split; auto.
      split; auto. eapply ready_rvs; [|exact A5]. auto. }
    exists g', (y :: ys). simpl. rewrite E, E'. split; auto. split; auto. split; auto. split; [congruence|].
    split; [eapply below_trans; [apply extends_named; exact Hext'|exact Hbe1|exact Hbe']|].
    split; [eapply extends_trans; eauto|]. constructor; auto. eapply good_ext; eauto.
Qed.

Lemma tensors_ok : forall g l, Forall (fun y => valid g y /\ is_op y = false) l -> tensors_of g l = Some (map (tensor_of g) l).
Proof.
  intros g l H. induction H as [|y l [Hv Hx] _ IH]; auto. simpl. now rewrite (as_tensor_of _ _ Hv Hx), IH.
Qed.

(** A copied random variable. *)
Lemma build_ok : forall g r d args, Inv [] g -> I6 g -> nth_error (rvs g0) r = Some d ->
  op_named g (scope ++ rname d ++ "sample") = None -> rv_named g (scope ++ rname d) = None ->
  Forall2 (fun a y => good_result g (tensor_of g0 a) y) (rargs d) args ->
  exists g', build_rv g (rclass d) args (scope ++ rname d) = (g', Ok (XRV (length (rvs g)))) /\
    Inv [] g' /\ I6 g' /\ below g g' (h (rvalue d)) /\ done_rv g' d /\ extends g g' /\
    valid g' (XRV (length (rvs g))) /\ node_image g' (rvalue d) (tensor_of g' (XRV (length (rvs g)))).
Proof.
  intros g r d args HI H6 Hr Hon Hrn Hargs.
  assert (Hva : Forall (fun y => valid g y /\ is_op y = false) args).
  { clear - Hargs. induction Hargs; constructor; auto. destruct H as [H1 [H2 _]]. auto. }
  unfold build_rv. rewrite (tensors_ok _ _ Hva). rewrite app_assoc_s.
  assert (Hu : unique (S (length (ops g))) g (scope ++ rname d ++ "sample") = scope ++ rname d ++ "sample")
    by (simpl; now rewrite Hon).
  rewrite Hu. clear Hu.
  set (new := mkop (scope ++ rname d ++ "sample") (KOp (rclass d)) (map (tensor_of g) args)).
  set (nrv := mkrv (scope ++ rname d) (rclass d) args (length (ops g))).
  eexists. split; [reflexivity|]. set (g' := add_rv (add_op g new) nrv).
  assert (He : extends g g') by (eapply extends_trans; [apply extends_add_op|apply extends_add_rv]).
  pose proof (rv_ok0 _ _ Hr) as [Hra Hro].
  assert (Hn : n0 <= length (ops g)) by (apply named_len, extends_named, (i_ext _ _ HI)).
  assert (Him : Forall2 (image g) (map (tensor_of g0) (rargs d)) (map (tensor_of g) args)).
  { clear - Hargs. induction Hargs; constructor; auto. apply H. }
  assert (Hlt : Forall (fun i => i < length (ops g)) (map (tensor_of g) args)).
  { rewrite Forall_forall in *. intros i Hi. apply in_map_iff in Hi. destruct Hi as [y [<- Hy]].
    apply valid_tensor; [eapply inv_value_lt; eauto|]. apply Hva. auto. }
  assert (Hnewop : nth_error (ops g') (length (ops g)) = Some new) by (simpl; apply nth_app_new).
  assert (Hnewrv : nth_error (rvs g') (length (rvs g)) = Some nrv) by (simpl; apply nth_app_new).
  assert (Hrvok : rv_ok g' nrv).
  { split.
    - simpl. eapply Forall_impl; [|exact Hva]. intros y [Hv Hx]. split; auto. eapply valid_extends; eauto.
    - change (rvalue nrv) with (length (ops g)). rewrite Hnewop. unfold new. simpl rname. rewrite app_assoc_s.
      do 2 f_equal. apply map_ext_in. intros y Hy. symmetry. apply tensor_extends; auto.
      rewrite Forall_forall in Hva. apply Hva. auto. }
  pose proof (inv_value_lt _ _ HI) as Hvlt.
  split; [|split; [|split; [|split; [|split; [|split]]]]].
  - destruct HI as [Hext Hop Hcl Hnew Hnames Hrv Hrnew Hrnames Hvals]. constructor.
    + eapply extends_trans; eauto.
    + intros o1 d1 s ds Hd1 Hs En. simpl in Hd1. apply nth_app_inv in Hd1. destruct Hd1 as [[Hd1 Hlt1]|[-> ->]].
      * destruct (Hop _ _ _ _ Hd1 Hs En) as [H3 [H4 H7]]. split; auto. split; auto.
        destruct H7 as [[]|H7]. right. eapply images_ext; [apply extends_named; exact He|auto].
      * simpl in En. apply app_inj_s in En.
        assert (s = rvalue d) by (exact (nodup_nth oname _ _ _ _ _ (wf_names _ Hwf) Hs Hro (eq_sym En))). subst s.
        rewrite Hro in Hs. injection Hs as <-. simpl. split; auto. split; auto.
        right. eapply images_ext; [apply extends_named; exact He|auto].
    + intros o1 d1 Hd1. simpl in *. rewrite app_length. apply nth_app_inv in Hd1. destruct Hd1 as [[Hd1 _]|[-> ->]].
      * eapply forall_lt_mono; [|eapply Hcl; eauto]. lia.
      * eapply forall_lt_mono; [|exact Hlt]. lia.
    + intros o1 d1 Ho1 Hd1. simpl in Hd1. apply nth_app_inv in Hd1. destruct Hd1 as [[Hd1 _]|[_ ->]]; eauto.
    + simpl. rewrite map_app. simpl. apply nodup_snoc; auto. intros Hin. apply in_map_iff in Hin.
      destruct Hin as [d1 [E Hin]]. apply In_nth_error in Hin. destruct Hin as [i Hi].
      eapply op_named_none in Hon; eauto.
    + intros r1 d1 Hr1 Hd1. simpl in Hd1. apply nth_app_inv in Hd1. destruct Hd1 as [[Hd1 _]|[-> ->]].
      * destruct (Hrv _ _ Hr1 Hd1) as [H3 [H4 H5]].
        split; auto. split; [eapply rv_ok_ext; eauto|auto].
      * split; auto.
    + intros r1 d1 Hr1 Hd1. simpl in Hd1. apply nth_app_inv in Hd1. destruct Hd1 as [[Hd1 _]|[-> ->]]; eauto.
    + simpl. rewrite map_app. simpl. apply nodup_snoc; auto. intros Hin. apply in_map_iff in Hin.
      destruct Hin as [d1 [E Hin]]. apply In_nth_error in Hin. destruct Hin as [i Hi].
      eapply rv_named_none in Hrn; eauto.
    + simpl. rewrite map_app. simpl. apply nodup_snoc; auto. intros Hin. apply in_map_iff in Hin.
      destruct Hin as [d1 [E Hin]]. apply In_nth_error in Hin. destruct Hin as [i Hi]. apply Hvlt in Hi. lia.
  - intros q dq Hq Hnm. change (op_named (add_op g new) (scope ++ rname dq ++ "sample") <> None) in Hnm.
    apply op_named_app in Hnm. destruct Hnm as [Hnm|Hnm].
    + eapply rv_named_mono; [exact He|]. eapply H6; eauto.
    + unfold new in Hnm. simpl in Hnm. apply app_inj_s, app_inj_tail_s in Hnm.
      eapply rv_named_found; [exact Hnewrv|]. simpl. congruence.
  - intros o1 d1 Ho1 Hd1. simpl in Hd1. apply nth_app_inv in Hd1. destruct Hd1 as [[_ Hc]|[-> ->]]; [lia|].
    exists (rvalue d). eexists. split; [exact Hro|]. auto.
  - right. eapply rv_named_found; [exact Hnewrv|reflexivity].
  - exact He.
  - simpl. rewrite app_length. simpl. lia.
  - simpl tensor_of. change (rvs g ++ [nrv])%list with (rvs g'). rewrite Hnewrv. simpl rvalue.
    eexists. split; [exact Hro|]. simpl leaf. cbv iota. split; auto. exists new. auto.
Qed.

Definition RVpost (g g' : graph) (b : nat) : Prop :=
  Inv [] g' /\ I6 g' /\ below g g' b /\ extends g g'.

Lemma parents_ok : forall f b l g, Inv [] g -> I6 g ->
  (forall g r d, Inv [] g -> I6 g -> nth_error (rvs g0) r = Some d -> 2 * h (rvalue d) + 2 <= f ->
     exists g' y, copy f pick sw scope true false true g (XRV r) = (g', Ok y) /\
       RVpost g g' (h (rvalue d)) /\ done_rv g' d) ->
  Forall (fun e => exists q d, e = XRV q /\ nth_error (rvs g0) q = Some d /\ 2 * h (rvalue d) + 2 <= f /\ h (rvalue d) <= b) l ->
  exists g' ys, copy_list (copy f pick sw scope true false true) g l = (g', Ok ys) /\ RVpost g g' b /\
    (forall q d, In (XRV q) l -> nth_error (rvs g0) q = Some d -> done_rv g' d).
Proof.
  intros f b l g HI H6 IHR. revert g HI H6. induction l as [|e l IH]; intros g HI H6 HF.
  - exists g, []. simpl. split; auto. split; [|intros ? ? []]. split; auto. split; auto.
    split; [apply below_refl|apply extends_refl].
  - inversion HF as [|? ? [q [d [-> [Hq [Hf Hb]]]]] HF']; subst.
    destruct (IHR g q d HI H6 Hq Hf) as [ga [y [E [[HI1 [H61 [Hbe1 Hexa]]] Hd1]]]].
    destruct (IH ga HI1 H61 HF') as [g' [ys [E' [[HI' [H6' [Hbe' Hext']]] Hd']]]].
    exists g', (y :: ys). cbn [copy_list]. rewrite E, E'. split; auto. split.
    + split; auto. split; auto. split; [|eapply extends_trans; eauto].
      eapply below_trans; [apply extends_named; exact Hext'| |exact Hbe']. eapply below_mono; eauto.
    + intros q' d' [Hin|Hin] Hq'; [|eauto]. inversion Hin; subst. assert (d' = d) by congruence. subst.
      eapply done_mono; eauto.
Qed.

(** The random variable itself, from the point where it is not yet copied. *)
Lemma rv_body : forall f g r d, Inv [] g -> I6 g -> nth_error (rvs g0) r = Some d ->
  (forall g r d, Inv [] g -> I6 g -> nth_error (rvs g0) r = Some d -> 2 * h (rvalue d) + 2 <= f ->
     exists g' y, copy f pick sw scope true false true g (XRV r) = (g', Ok y) /\
       RVpost g g' (h (rvalue d)) /\ done_rv g' d) ->
  2 * h (rvalue d) <= f ->
  op_named g (scope ++ rname d ++ "sample") = None -> rv_named g (scope ++ rname d) = None ->
  exists ga ps g2 args g', copy_list (copy f pick sw scope true false true) g (parents pick g (XRV r)) = (ga, Ok ps) /\
    copy_list (copy f pick sw scope true false false) ga (rargs d) = (g2, Ok args) /\
    nth_error (rvs ga) r = Some d /\
    build_rv g2 (rclass d) args (scope ++ rname d) = (g', Ok (XRV (length (rvs g2)))) /\
    RVpost g g' (h (rvalue d)) /\ done_rv g' d /\ valid g' (XRV (length (rvs g2))) /\
    node_image g' (rvalue d) (tensor_of g' (XRV (length (rvs g2)))).
Proof.
  intros f g r d HI H6 Hr IHR Hf Hon Hrn.
  pose proof (rv_ok0 _ _ Hr) as [Hra Hro]. pose proof (rv_value_lt0 _ _ Hr) as Hvlt.
  assert (Hgr : nth_error (rvs g) r = Some d) by (apply (i_ext _ _ HI); auto).
  assert (Htn : Graph.tensor_of (dataflow g) (Graph.NRV r) = rvalue d) by (apply (value_dataflow _ _ _ Hgr)).
  pose proof (Hac _ _ Hro) as Hlow. simpl in Hlow.
  assert (Hlow' : forall a, In a (rargs d) -> h (tensor_of g0 a) < h (rvalue d)).
  { intros a Ha. rewrite Forall_forall in Hlow. apply Hlow, in_map, Ha. }
  destruct (parents_ok f (h (rvalue d) - 1) (parents pick g (XRV r)) g HI H6 IHR) as [ga [ps [E1 [[HI1 [H61 [Hbe1 Hexa]]] Hd1]]]].
  { rewrite Forall_forall. intros e He.
    destruct (parents_sound [] g (XRV r) (Graph.NRV r) (rvalue d) HI eq_refl Htn Hvlt e He) as [q [dq [-> [Hn [Hq Hh]]]]].
    exists q, dq. assert (h (rvalue dq) < h (rvalue d)).
    { destruct Hh as [Hh|Hh]; auto. exfalso. apply Hn. f_equal.
      exact (nodup_nth rvalue _ _ _ _ _ (wf_values _ Hwf) Hq Hr Hh). }
    repeat split; auto; lia. }
  assert (Hrd : forall a, In a (rargs d) -> ready ga (tensor_of g0 a)).
  { intros a Ha q dq Hq Hcp. eapply Hd1; eauto. apply (parents_exact [] g (XRV r) (Graph.NRV r) HI eq_refl).
    assert (Hin : In (tensor_of g0 a) (map (tensor_of g0) (rargs d))) by (apply in_map; auto).
    pose proof (wf_closed _ Hwf _ _ Hro) as Hcl. simpl in Hcl. rewrite Forall_forall in Hcl.
    pose proof (cpath_up _ g (Graph.NRV r) _ _ HI (Hcl _ Hin) Hcp) as Hup.
    assert (Hgq : nth_error (rvs g) q = Some dq) by (apply (i_ext _ _ HI); auto).
    exists q. split; auto. split; [eapply nth_lt; eauto|]. split.
    - intros E. inversion E; subst. assert (dq = d) by congruence. subst.
      apply up_height in Hup; [|apply (i_ext _ _ HI)|auto]. specialize (Hlow' _ Ha).
      destruct Hup as [_ [Hc|Hc]]; [rewrite Hc in Hlow' |]; lia.
    - rewrite Htn, (value_dataflow _ _ _ Hgq). eapply GraphSpec.up_step; [| |exact Hup].
      + intros s Hs Es. f_equal. apply in_seq in Hs.
        destruct (nth_error (rvs g) s) as [dss|] eqn:Ess; [|apply nth_error_None in Ess; lia].
        rewrite (value_dataflow _ _ _ Ess) in Es.
        exact (nodup_nth rvalue _ _ _ _ _ (i_values _ _ HI) Ess Hgr Es).
      + apply edge_dataflow. eexists. split; [apply (i_ext _ _ HI); exact Hro|]. simpl. auto. }
  destruct (args_ok f (h (rvalue d) - 1) (rargs d) ga HI1) as [g2 [args [E2 [HI2 [H62 [Hr2 [Hbe2 [Hext2 Hg2]]]]]]]]; auto.
  { rewrite Forall_forall in *. intros a Ha. destruct (Hra _ Ha) as [Hv Hx]. specialize (Hlow' _ Ha).
    repeat split; auto; lia. }
  assert (Hnew : forall o d1, nth_error (ops g2) o = Some d1 -> oname d1 = scope ++ rname d ++ "sample" -> False).
  { intros o d1 Ho En.
    assert (Hbb : below g g2 (h (rvalue d) - 1)) by (eapply below_trans; [apply extends_named; exact Hext2|exact Hbe1|exact Hbe2]).
    destruct (Nat.lt_ge_cases o (length (ops g))) as [Hlt|Hge].
    - destruct (nth_error (ops g) o) as [d2|] eqn:Eo; [|apply nth_error_None in Eo; lia].
      pose proof (proj1 (extends_trans _ _ _ Hexa Hext2) _ _ Eo). assert (d2 = d1) by congruence. subst.
      eapply op_named_none in Hon; eauto.
    - destruct (Hbb _ _ Hge Ho) as [s [ds [Hs [Hns Hhs]]]]. rewrite En in Hns. apply app_inj_s in Hns.
      pose proof (rv_by_op _ _ _ _ Hr Hs (eq_sym Hns)). subst s.
      destruct (Nat.eq_dec (h (rvalue d)) 0) as [Hz|Hz]; [|lia].
      (* no arguments and no parents: nothing was copied *)
      assert (Hnil : rargs d = []).
      { destruct (rargs d) as [|a l]; auto. specialize (Hlow' a (or_introl eq_refl)). lia. }
      rewrite Hnil in E2. simpl in E2. inversion E2; subst g2.
      assert (Hp : parents pick g (XRV r) = []).
      { destruct (parents pick g (XRV r)) as [|e l] eqn:Ep; auto. exfalso.
        assert (He : In e (parents pick g (XRV r))) by (rewrite Ep; now left).
        destruct (parents_sound [] g (XRV r) (Graph.NRV r) (rvalue d) HI eq_refl Htn Hvlt e He)
          as [q [dq [-> [Hn [Hq [Hh|Hh]]]]]]; [|lia].
        apply Hn. f_equal. exact (nodup_nth rvalue _ _ _ _ _ (wf_values _ Hwf) Hq Hr Hh). }
      rewrite Hp in E1. simpl in E1. inversion E1; subst ga. apply nth_lt in Ho. lia. }
  assert (Hon2 : op_named g2 (scope ++ rname d ++ "sample") = None).
  { destruct (op_named g2 _) as [o|] eqn:Eo; auto. exfalso. apply op_named_some in Eo. destruct Eo as [d1 [Ho En]]. eauto. }
  assert (Hrn2 : rv_named g2 (scope ++ rname d) = None).
  { destruct (rv_named g2 (scope ++ rname d)) as [q|] eqn:Eq; auto. exfalso.
    eapply (rv_named_op [] g2 d HI2); [eapply nth_error_In; eauto|congruence|auto]. }
  destruct (build_ok g2 r d args HI2 H62 Hr Hon2 Hrn2 Hg2) as [g' [Eb [HI' [H6' [Hbe' [Hd' [He' [Hv' Hni']]]]]]]].
  exists ga, ps, g2, args, g'. split; auto. split; auto. split; [apply Hexa; auto|]. split; auto. split.
  - split; auto. split; auto. split.
    + eapply below_trans; [apply extends_named; exact He'| |exact Hbe'].
      eapply below_trans; [apply extends_named; exact Hext2| |]; apply (below_mono _ _ (h (rvalue d) - 1)); auto; lia.
    + eapply extends_trans; [exact Hexa|]. eapply extends_trans; eauto.
  - auto.
Qed.

Lemma R : forall f g r d, Inv [] g -> I6 g -> nth_error (rvs g0) r = Some d -> 2 * h (rvalue d) + 2 <= f ->
  exists g' y, copy f pick sw scope true false true g (XRV r) = (g', Ok y) /\
    RVpost g g' (h (rvalue d)) /\ done_rv g' d.
Proof.
  induction f as [|f IH]; intros g r d HI H6 Hr Hf; [lia|].
  assert (Hgr : nth_error (rvs g) r = Some d) by (apply (i_ext _ _ HI); auto).
  assert (Hstay : RVpost g g (h (rvalue d))).
  { split; auto. split; auto. split; [apply below_refl|apply extends_refl]. }
  destruct (lookup sw (XRV r)) as [y|] eqn:El.
  { exists g, y. split; [simpl; unfold front; now rewrite El|]. split; auto. left.
    apply lookup_some in El. apply repl_found in El. rewrite (rv_tensor _ _ Hr) in El. congruence. }
  pose proof (repl_rv_none _ _ Hr El) as Hrep.
  destruct (rv_named g (scope ++ rname d)) as [r'|] eqn:En.
  { exists g, (XRV r'). split; [simpl; unfold front; rewrite El; unfold find_copy; rewrite Hgr, En; reflexivity|].
    split; auto. right. congruence. }
  assert (Hon : op_named g (scope ++ rname d ++ "sample") = None).
  { destruct (op_named g (scope ++ rname d ++ "sample")) as [o|] eqn:Eo; auto. exfalso.
    apply (H6 r d Hr); congruence. }
  destruct (rv_body f g r d HI H6 Hr IH) as [ga [ps [g2 [args [g' [E1 [E2 [Hd1 [Eb [HP [Hdn _]]]]]]]]]]]; auto; [lia|].
  exists g', (XRV (length (rvs g2))). split; [|auto].
  cbn [copy]. unfold front. rewrite El. unfold find_copy. rewrite Hgr, En. simpl andb. cbv iota.
  cbn [option_map negb is_op andb]. rewrite E1, Hd1, E2. exact Eb.
Qed.

(** ** The call of the user *)

Lemma I6_start : fresh_scope g1 scope -> I6 g1.
Proof.
  intros [Hf _] r d Hr Hn. exfalso. destruct (op_named g1 (scope ++ rname d ++ "sample")) as [o|] eqn:E; [|congruence].
  apply op_named_some in E. destruct E as [d' [Hd' En]].
  eapply Hf; [eapply nth_error_In; eauto|eauto].
Qed.

Lemma top_rv : forall f g r d, Inv [] g -> I6 g -> nth_error (rvs g0) r = Some d -> 2 * h (rvalue d) + 3 <= f ->
  exists g' r', copy f pick sw scope false false true g (XRV r) = (g', Ok (XRV r')) /\ Inv [] g' /\ I6 g' /\
    valid g' (XRV r') /\ node_image g' (rvalue d) (tensor_of g' (XRV r')) /\ rv_named g' (scope ++ rname d) = Some r' /\
    below g g' (h (rvalue d)) /\ extends g g'.
Proof.
  intros f g r d HI H6 Hr Hf. destruct f as [|f]; [lia|].
  assert (Hgr : nth_error (rvs g) r = Some d) by (apply (i_ext _ _ HI); auto).
  destruct (rv_named g (scope ++ rname d)) as [r'|] eqn:En.
  { exists g, r'. split; [cbn [copy]; unfold front, find_copy; rewrite Hgr, En; reflexivity|].
    split; auto. split; auto. pose proof En as En'. apply rv_named_some in En. destruct En as [d' [Hd' En]].
    split; [simpl; eapply nth_lt; eauto|]. split; [|split; [auto|split; [apply below_refl|apply extends_refl]]].
    destruct (rv_ok0 _ _ Hr) as [_ Ho]. eexists. split; [exact Ho|]. simpl. rewrite Hd'.
    destruct (Nat.lt_ge_cases r' m0) as [Hlt|Hge].
    - exfalso. rewrite (ext_rv g (i_ext _ _ HI)) in Hd' by auto. destruct Hfresh as [_ Hf'].
      eapply Hf'; [eapply nth_error_In; eauto|eauto].
    - destruct (i_rv _ _ HI _ _ Hge Hd') as [Hv [[_ Ho'] _]]. split; auto.
      eexists. split; [exact Ho'|]. simpl. rewrite En. apply app_assoc_s. }
  assert (Hon : op_named g (scope ++ rname d ++ "sample") = None).
  { destruct (op_named g (scope ++ rname d ++ "sample")) as [o|] eqn:Eo; auto. exfalso.
    apply (H6 r d Hr); congruence. }
  destruct (rv_body f g r d HI H6 Hr (fun g r d => R f g r d)) as [ga [ps [g2 [args [g' [E1 [E2 [Hd1 [Eb [HP [Hdn [Hvv Hni]]]]]]]]]]]];
    auto; try lia.
  exists g', (length (rvs g2)). split; [|split; [apply HP|split; [apply HP|split; [auto|split; [auto|split; [|split; apply HP]]]]]].
  - cbn [copy]. unfold front, find_copy. rewrite Hgr, En.
    cbn [option_map negb is_op andb]. rewrite E1, Hd1, E2. exact Eb.
  - pose proof (i_rvnames _ _ (proj1 HP)) as Hnd.
    assert (Hnr : exists dn, nth_error (rvs g') (length (rvs g2)) = Some dn /\ rname dn = scope ++ rname d).
    { unfold build_rv in Eb. destruct (tensors_of g2 args) as [ts|]; [|discriminate]. injection Eb as <-.
      eexists. split; [simpl; apply nth_app_new|reflexivity]. }
    destruct Hnr as [dn [Hdn' Enn]].
    destruct (rv_named g' (scope ++ rname d)) as [q|] eqn:Eq.
    + apply rv_named_some in Eq. destruct Eq as [dq [Hq Enq]]. f_equal.
      eapply (nodup_nth rname); [exact Hnd|exact Hq|exact Hdn'|congruence].
    + exfalso. eapply rv_named_none in Eq; [|exact Hdn']. congruence.
Qed.

Lemma top_from : forall f g x, Inv [] g -> I6 g -> valid g0 x ->
  (forall o d, x = XOp o -> nth_error (ops g0) o = Some d -> okind d <> KPlace /\ okind d <> KVar) ->
  2 * h (tensor_of g0 x) + 3 <= f ->
  exists g' y, copy f pick sw scope false false true g x = (g', Ok y) /\ Inv [] g' /\ valid g' y /\
    is_op y = is_op x /\ node_image g' (tensor_of g0 x) (tensor_of g' y).
Proof.
  intros f g x HI H6 Hv Hop Hf. destruct x as [r|t|t|o].
  - simpl in Hv. destruct (nth_error (rvs g0) r) as [d|] eqn:Er; [|apply nth_error_None in Er; lia].
    rewrite (rv_tensor _ _ Er) in *.
    destruct (top_rv f g r d HI H6 Er Hf) as [g' [r' [E [HI' [_ [Hv' [Hni _]]]]]]].
    exists g', (XRV r'). auto.
  - destruct f as [|f]; [lia|].
    cbn [tensor_of] in *. simpl in Hv. destruct (nth_error (ops g0) t) as [d|] eqn:Ed; [|apply nth_error_None in Ed; lia].
    assert (Eg : nth_error (ops g) t = Some d) by (apply (i_ext _ _ HI); auto).
    destruct (is_var g0 t) eqn:Ev.
    { exists g, (XVar t). split; [cbn [copy]; unfold front; rewrite (ext_is_var g (i_ext _ _ HI)), Ev by auto; reflexivity|].
      unfold is_var in Ev. rewrite Ed in Ev. destruct (okind d) eqn:Ek; try discriminate.
      split; auto. split; [simpl; eauto|]. split; auto. eapply node_image_leaf; eauto. now rewrite Ek. }
    destruct (op_named g (scope ++ oname d)) as [o'|] eqn:En.
    { exists g, (XT o'). split.
      { cbn [copy]. unfold front, find_copy. rewrite (ext_is_var g (i_ext _ _ HI)), Ev, Eg, En by auto. reflexivity. }
      assert (Hni : node_image g t o').
      { destruct (leaf (okind d)) eqn:El; [rewrite (leaf_no_copy _ _ _ _ HI Ed El) in En; discriminate|].
        eapply find_copy_op; eauto. }
      split; auto. split; [simpl; eapply node_image_lt; eauto|]. auto. }
    destruct (parents_ok f (h t) (parents pick g (XT t)) g HI H6 (fun g r d => R f g r d))
      as [ga [ps [E1 [[HI1 [H61 [Hbe1 Hexa]]] Hd1]]]].
    { rewrite Forall_forall. intros e He.
      destruct (parents_sound [] g (XT t) (Graph.NT t) t HI eq_refl eq_refl Hv e He) as [q [dq [-> [Hn [Hq Hh]]]]].
      exists q, dq. assert (h (rvalue dq) <= h t) by (destruct Hh as [->|Hh]; lia). repeat split; auto; lia. }
    assert (Hg1 : nth_error (ops ga) t = Some d) by (apply Hexa; auto).
    assert (Hcopy : forall res, match okind d with
              | KPlace => (ga, Ok (XT t))
              | _ => match copy f pick sw scope true false false ga (XOp t) with
                     | (g2, Ok (XOp o)) => (g2, Ok (XT o))
                     | (g2, Ok _) => (g2, Exc)
                     | (g2, r) => (g2, r)
                     end
              end = res -> copy (S f) pick sw scope false false true g (XT t) = res).
    { intros res Hres. cbn [copy]. unfold front, find_copy. rewrite (ext_is_var g (i_ext _ _ HI)), Ev, Eg, En by auto.
      cbn [option_map negb is_op andb]. rewrite E1, Hg1. exact Hres. }
    destruct (okind d) as [| | |ty] eqn:Ek.
    + exists ga, (XT t). split; [apply Hcopy; reflexivity|]. split; auto.
      split; [simpl; eapply nth_lt; eauto|]. split; auto. eapply node_image_leaf; eauto. now rewrite Ek.
    + destruct (proj2 (B f) [] ga t d HI1 Ed) as [g' [o' [E [[HI' _] [_ Hni]]]]]; try congruence; try lia.
      exists g', (XT o'). split; [apply Hcopy; now rewrite E|]. split; auto.
      split; [simpl; eapply node_image_lt; eauto|]. auto.
    + unfold is_var in Ev. rewrite Ed, Ek in Ev. discriminate.
    + destruct (proj2 (B f) [] ga t d HI1 Ed) as [g' [o' [E [[HI' _] [_ Hni]]]]]; try congruence; try lia.
      exists g', (XT o'). split; [apply Hcopy; now rewrite E|]. split; auto.
      split; [simpl; eapply node_image_lt; eauto|]. auto.
  - destruct f as [|f]; [lia|]. destruct Hv as [d [Hd Hk]]. assert (Ht : t < n0) by (eapply nth_lt; eauto).
    assert (Ev : is_var g0 t = true) by (unfold is_var; now rewrite Hd, Hk).
    exists g, (XVar t). split; [cbn [copy]; unfold front; rewrite (ext_is_var g (i_ext _ _ HI)), Ev by auto; reflexivity|]. split; auto.
    split; [simpl; exists d; split; auto; apply (i_ext _ _ HI); auto|]. split; auto. eapply node_image_leaf; eauto. now rewrite Hk.
  - destruct f as [|f]; [lia|].
    cbn [tensor_of] in *. simpl in Hv. destruct (nth_error (ops g0) o) as [d|] eqn:Ed; [|apply nth_error_None in Ed; lia].
    destruct (Hop o d eq_refl Ed) as [Hk1 Hk2].
    destruct (proj2 (B (S f)) [] g o d HI Ed) as [g' [o' [E [[HI' _] [_ Hni]]]]]; try congruence; try lia.
    exists g', (XOp o'). split; [|split; auto; split; [simpl; eapply node_image_lt; eauto|auto]].
    rewrite <- E. cbn [copy].
    assert (Hfront : front g sw true false (XOp o) = inr (XOp o)).
    { unfold front. destruct (lookup sw (XOp o)) as [y|] eqn:El; auto. exfalso.
      apply lookup_some in El. apply sw_in in El. simpl in El. intuition discriminate. }
    rewrite Hfront. reflexivity.
Qed.

Lemma top : forall f x, new_values -> fresh_scope g1 scope -> valid g0 x ->
  (forall o d, x = XOp o -> nth_error (ops g0) o = Some d -> okind d <> KPlace /\ okind d <> KVar) ->
  2 * h (tensor_of g0 x) + 3 <= f ->
  exists g' y, copy f pick sw scope false false true g1 x = (g', Ok y) /\ Inv [] g' /\ valid g' y /\
    is_op y = is_op x /\ node_image g' (tensor_of g0 x) (tensor_of g' y).
Proof. intros f x Hnv Hf1. apply top_from; [now apply inv_start|now apply I6_start]. Qed.

(** ** What the copy computes *)

Section Eval.
Variable g' : graph.
Hypothesis HI : Inv [] g'.

(** The copy of an operation; a position outside the graph if it has none. *)
Definition copy_of (o : nat) : nat :=
  match nth_error (ops g0) o with
  | Some d => match op_named g' (scope ++ oname d) with Some o' => o' | None => length (ops g') + o end
  | None => length (ops g') + o
  end.

Lemma copy_of_image : forall o o' d, nth_error (ops g0) o = Some d -> leaf (okind d) = false ->
  node_image g' o o' -> o' = copy_of o.
Proof.
  intros o o' d Hd Hl [d1 [Hd1 H]]. assert (d1 = d) by congruence. subst. rewrite Hl in H.
  destruct H as [Hn [d' [Hd' En]]]. unfold copy_of. rewrite Hd.
  destruct (op_named g' (scope ++ oname d)) as [o2|] eqn:E.
  - apply op_named_some in E. destruct E as [d2 [Hd2 En2]].
    apply (nodup_nth oname _ _ _ _ _ (i_names _ _ HI) Hd' Hd2). congruence.
  - exfalso. eapply op_named_none in E; eauto.
Qed.
Lemma copy_of_new : forall o, n0 <= copy_of o.
Proof.
  intros o. pose proof (named_len _ _ (extends_named _ _ (i_ext _ _ HI))). unfold copy_of.
  destruct (nth_error (ops g0) o) as [d|] eqn:Ed; [|lia].
  destruct (op_named g' (scope ++ oname d)) as [o'|] eqn:E; [|lia].
  apply op_named_some in E. destruct E as [d' [Hd' En]]. destruct (Nat.le_gt_cases n0 o'); auto. exfalso.
  rewrite (ext_op g' (i_ext _ _ HI)) in Hd' by auto. destruct Hfresh as [Hf _].
  eapply Hf; [eapply nth_error_In; eauto|eauto].
Qed.
Lemma copy_of_inj : forall a b, a < n0 -> b < n0 -> copy_of a = copy_of b -> a = b.
Proof.
  intros a b Ha Hb. unfold copy_of.
  destruct (nth_error (ops g0) a) as [da|] eqn:Ea; [|apply nth_error_None in Ea; lia].
  destruct (nth_error (ops g0) b) as [db|] eqn:Eb; [|apply nth_error_None in Eb; lia].
  destruct (op_named g' (scope ++ oname da)) as [a'|] eqn:Fa; destruct (op_named g' (scope ++ oname db)) as [b'|] eqn:Fb;
    intros E.
  - subst b'. apply op_named_some in Fa. apply op_named_some in Fb. destruct Fa as [d1 [H1 N1]]. destruct Fb as [d2 [H2 N2]].
    assert (d1 = d2) by congruence. subst d2. rewrite N1 in N2. apply app_inj_s in N2.
    exact (nodup_nth oname _ _ _ _ _ (wf_names _ Hwf) Ea Eb N2).
  - apply op_named_some in Fa. destruct Fa as [d1 [H1 _]]. apply nth_lt in H1. lia.
  - apply op_named_some in Fb. destruct Fb as [d1 [H1 _]]. apply nth_lt in H1. lia.
  - lia.
Qed.

Lemma image_node : forall o o' d, node_image g' o o' -> nth_error (ops g0) o = Some d -> leaf (okind d) = false ->
  exists d', nth_error (ops g') o' = Some d' /\ okind d' = okind d /\ Forall2 (image g') (oins d) (oins d').
Proof.
  intros o o' d [d1 [Hd1 H]] Hd Hl. assert (d1 = d) by congruence. subst. rewrite Hl in H.
  destruct H as [Hn [d' [Hd' En]]]. destruct (i_op _ _ HI _ _ _ _ Hd' Hd En) as [Hls [Hk [[]|Him]]].
  exists d'. auto.
Qed.

Lemma eval_noise : forall V N (sem : nat -> N -> list V -> V) st noise noise',
  (forall o o' d, nth_error (ops g0) o = Some d -> leaf (okind d) = false -> node_image g' o o' -> noise' o = noise o') ->
  forall n o o' v, h o < n -> node_image g' o o' ->
  (ev sem st noise g' o' v <-> sev_node sem st noise noise' g1 sw o v).
Proof.
  intros V N sem st noise noise' Hno. induction n as [|n IH]; intros o o' v Hh Hni; [lia|].
  pose proof Hni as [d [Hd Hcase]]. destruct (leaf (okind d)) eqn:El.
  - subst o'. assert (Hd' : nth_error (ops g') o = Some d) by (apply (i_ext _ _ HI); auto).
    assert (Hd1 : nth_error (ops g1) o = Some d) by (apply Hext1; auto). split; intros E.
    + inversion E as [o1 d1 H1 H2|o1 d1 ty vs H1 H2 H3]; subst.
      * eapply sev_leaf; eauto.
      * assert (d1 = d) by congruence. subst. rewrite H2 in El. discriminate.
    + inversion E as [o1 d1 H1 H2|o1 d1 ty vs H1 H2 H3]; subst.
      * eapply ev_leaf; eauto.
      * assert (d1 = d) by congruence. subst. rewrite H2 in El. discriminate.
  - assert (Hd1 : nth_error (ops g1) o = Some d) by (apply Hext1; auto).
    destruct (image_node _ _ _ Hni Hd El) as [d' [Hd' [Hk Him]]].
    pose proof (Hno _ _ _ Hd El Hni) as Ec.
    pose proof (Hac _ _ Hd) as Hlow.
    assert (Hl : forall vs, evs sem st noise g' (oins d') vs <->
      sevs sem st noise noise' g1 sw (oins d) vs).
    { revert Him Hlow. generalize (oins d') (oins d).
      intros l' l Him. induction Him as [|i i' l l' Hi _ IHl]; intros Hlow vs.
      - split; intros E; inversion E; constructor.
      - inversion Hlow as [|? ? Hhi Hlow']; subst. specialize (IHl Hlow').
        assert (Hone : forall v, ev sem st noise g' i' v <-> sev_tensor sem st noise noise' g1 sw i v).
        { intros w. unfold image in Hi. destruct (repl i) as [t'|] eqn:Er.
          - subst i'. split; intros E.
            + eapply sev_swap; eauto. eapply ev_extends_inv; eauto; [apply (i_ext1 _ _ HI)|apply Hwf1|eapply repl_lt; eauto].
            + inversion E as [t t2 v2 H1 H2|t v2 H1 H2]; subst; [|congruence].
              assert (t2 = t') by congruence. subst. eapply ev_extends; eauto. apply (i_ext1 _ _ HI).
          - rewrite (IH i i' w) by (auto; lia). split; intros E.
            + apply sev_noswap; auto.
            + inversion E; subst; [congruence|auto]. }
        split; intros E; inversion E; subst; constructor; try (apply Hone; auto); apply IHl; auto. }
    split; intros E.
    + inversion E as [o1 d1 H1 H2|o1 d1 ty vs H1 H2 H3]; subst o1.
      * assert (d1 = d') by congruence. subst. rewrite Hk in H2. congruence.
      * assert (d1 = d') by congruence. subst d1. rewrite Hk in H2. rewrite <- Ec.
        apply (sev_op sem st noise noise' g1 sw o d ty vs Hd1 H2). apply Hl. auto.
    + inversion E as [o1 d1 H1 H2|o1 d1 ty vs H1 H2 H3]; subst o1.
      * congruence.
      * assert (d1 = d) by congruence. subst d1. rewrite Ec.
        apply (ev_op sem st noise g' o' d' ty vs Hd'); [congruence|]. apply Hl. auto.
Qed.

Lemma eval : forall V N (sem : nat -> N -> list V -> V) st noise n o o' v, h o < n -> node_image g' o o' ->
  (ev sem st noise g' o' v <-> sev_node sem st noise (fun i => noise (copy_of i)) g1 sw o v).
Proof.
  intros V N sem st noise. apply eval_noise. intros o o' d Hd Hl Hni. f_equal. symmetry. eapply copy_of_image; eauto.
Qed.

(** Which leaves the copy depends on. *)
Lemma deps : forall L dl, nth_error (ops g') L = Some dl -> leaf (okind dl) = true ->
  forall n o o', h o < n -> node_image g' o o' -> (depends g' o' L <-> sdepends g1 sw o L).
Proof.
  assert (Hdown : forall t l, t < n1 -> depends g' t l -> depends g1 t l).
  { intros t l Ht H. revert Ht. induction H as [t|t d i l Hd Hi _ IH]; intros Ht; [constructor|].
    assert (Hd1 : nth_error (ops g1) t = Some d).
    { destruct (nth_error (ops g1) t) as [d2|] eqn:E2; [|apply nth_error_None in E2; lia].
      apply (i_ext1 _ _ HI) in E2. congruence. }
    pose proof (wf_closed _ Hwf1 _ _ Hd1) as Hc. rewrite Forall_forall in Hc.
    econstructor; eauto. }
  assert (Hup : forall t l, depends g1 t l -> depends g' t l).
  { intros t l H. induction H as [t|t d i l Hd Hi _ IH]; [constructor|].
    econstructor; [apply (i_ext1 _ _ HI); eauto|eauto|eauto]. }
  assert (Hlen : n0 <= n1) by (apply named_len, extends_named; auto).
  intros L dl HL HlL. induction n as [|n IH]; intros o o' Hh Hni; [lia|].
  pose proof Hni as [d [Hd Hcase]]. assert (Hd1 : nth_error (ops g1) o = Some d) by (apply Hext1; auto).
  destruct (leaf (okind d)) eqn:El.
  - subst o'. split; intros E.
    + apply Hdown in E; [|apply nth_lt in Hd; lia]. eapply sdep_leaf; eauto.
    + inversion E as [t d1 l H1 H2 H3|t d1 i i' l H1 H0 H2 H3 H4|t d1 i l H1 H0 H2 H3 H4]; subst; [now apply Hup| |];
        congruence.
  - destruct (image_node _ _ _ Hni Hd El) as [d' [Hd' [Hk Him]]].
    pose proof (Hac _ _ Hd) as Hlow. rewrite Forall_forall in Hlow.
    assert (Hone : forall i i', image g' i i' -> In i (oins d) ->
      (depends g' i' L <-> match repl i with Some t' => depends g1 t' L | None => sdepends g1 sw i L end)).
    { intros i i' Hi Hin. unfold image in Hi. destruct (repl i) as [t'|] eqn:Er.
      - subst. split; auto. apply Hdown. eapply repl_lt; eauto.
      - apply IH; auto. specialize (Hlow _ Hin). lia. }
    split; intros E.
    + inversion E as [t|t d1 i' l H1 H2 H3]; subst.
      * exfalso. assert (d' = dl) by congruence. subst. congruence.
      * assert (d1 = d') by congruence. subst d1.
        destruct (Forall2_in_r _ _ _ Him _ H2) as [i [Hin Hi]]. apply (Hone _ _ Hi Hin) in H3.
        destruct (repl i) as [t'|] eqn:Er; [eapply sdep_swap; eauto|eapply sdep_step; eauto].
    + inversion E as [t d1 l H1 H2 H3|t d1 i t' l H1 H0 H2 H3 H4|t d1 i l H1 H0 H2 H3 H4]; subst.
      * congruence.
      * assert (d1 = d) by congruence. subst d1. destruct (Forall2_in_l _ _ _ Him _ H2) as [i' [Hin Hi]].
        econstructor; eauto. apply (Hone _ _ Hi H2). now rewrite H3.
      * assert (d1 = d) by congruence. subst d1. destruct (Forall2_in_l _ _ _ Him _ H2) as [i' [Hin Hi]].
        econstructor; eauto. apply (Hone _ _ Hi H2). now rewrite H3.
Qed.

Lemma inv_wf : wf g'.
Proof.
  pose proof (i_ext _ _ HI) as Hext0.
  destruct HI as [Hext Hop Hcl Hnew Hnames Hrv Hrnew Hrn Hva]. constructor; auto.
  rewrite Forall_forall. intros d Hin. apply In_nth_error in Hin. destruct Hin as [r Hr].
  destruct (Nat.lt_ge_cases r m0).
  - rewrite (ext_rv g' Hext0) in Hr by auto. eapply rv_ok_ext; [exact Hext0|]. eapply rv_ok0; eauto.
  - destruct (Hrv _ _ H Hr) as [_ [H5 _]]. auto.
Qed.

Lemma bounded : forall (h1 : nat -> nat) n, exists M, forall o, o < n -> h1 o < M.
Proof.
  intros h1. induction n as [|n [M HM]]; [exists 0; lia|]. exists (S (M + h1 n)). intros o Ho.
  destruct (Nat.eq_dec o n) as [->|Hne]; [lia|]. assert (h1 o < M) by (apply HM; lia). lia.
Qed.

Lemma inv_acyclic : forall h1, acyclic g1 h1 -> exists h', acyclic g' h'.
Proof.
  intros h1 Hac1. destruct (bounded h1 n1) as [M HM].
  set (src := fun o => match nth_error (ops g') o with
     | Some d => match find_index (fun ds => String.eqb (oname d) (scope ++ oname ds)) (ops g0) with Some s => s | None => 0 end
     | None => 0 end).
  assert (Hsrc : forall o d s ds, nth_error (ops g') o = Some d -> nth_error (ops g0) s = Some ds ->
     oname d = scope ++ oname ds -> src o = s).
  { intros o d s ds Hd Hs En. unfold src. rewrite Hd.
    destruct (find_index _ (ops g0)) as [s2|] eqn:E.
    - apply find_index_some in E. destruct E as [d2 [H2 E2]]. apply String.eqb_eq in E2. rewrite En in E2.
      apply app_inj_s in E2. exact (eq_sym (nodup_nth oname _ _ _ _ _ (wf_names _ Hwf) Hs H2 E2)).
    - pose proof (find_index_none _ _ E _ _ Hs) as F. simpl in F. rewrite En, String.eqb_refl in F. discriminate. }
  assert (Hlen : n0 <= n1) by (apply named_len, extends_named; auto).
  exists (fun o => if Nat.ltb o n1 then h1 o else M + h (src o)).
  intros o d Hd. destruct (Nat.lt_ge_cases o n1) as [Hlt|Hge].
  - assert (Hd1 : nth_error (ops g1) o = Some d).
    { destruct (nth_error (ops g1) o) as [d2|] eqn:E2; [|apply nth_error_None in E2; lia].
      apply (i_ext1 _ _ HI) in E2. congruence. }
    pose proof (Hac1 _ _ Hd1) as Hlow. pose proof (wf_closed _ Hwf1 _ _ Hd1) as Hc.
    rewrite Forall_forall in *. intros i Hi. specialize (Hlow _ Hi). specialize (Hc _ Hi).
    apply Nat.ltb_lt in Hc. rewrite Hc. apply Nat.ltb_lt in Hlt. rewrite Hlt. auto.
  - destruct (i_new _ _ HI _ _ Hge Hd) as [s [ds [Hs Hn]]].
    destruct (i_op _ _ HI _ _ _ _ Hd Hs Hn) as [Hl [Hk [[]|Him]]].
    pose proof (Hsrc _ _ _ _ Hd Hs Hn) as Es. rewrite Es. pose proof (proj2 (Nat.ltb_ge o n1) Hge) as Hb. rewrite Hb.
    pose proof (Hac _ _ Hs) as Hlow. rewrite Forall_forall in *. intros i' Hi'.
    destruct (Forall2_in_r _ _ _ Him _ Hi') as [i [Hi Himg]]. specialize (Hlow _ Hi).
    destruct (Nat.ltb i' n1) eqn:Ei'; [apply Nat.ltb_lt in Ei'; specialize (HM _ Ei'); lia|].
    apply Nat.ltb_ge in Ei'. unfold image in Himg. destruct (repl i) as [t'|] eqn:Er.
    + subst. apply repl_lt in Er. lia.
    + destruct Himg as [di [Hdi Hci]]. destruct (leaf (okind di)).
      * subst. apply nth_lt in Hdi. lia.
      * destruct Hci as [_ [d'' [Hd'' En'']]]. rewrite (Hsrc _ _ _ _ Hd'' Hdi En''). lia.
Qed.
End Eval.
End Subst.
