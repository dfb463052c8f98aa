(** * copy (proofs). *)
From Coq Require Import String List Arith Bool Lia.
From Verif Require Graph GraphSpec GraphProofs.
From Verif Require Import Copy CopySpec.
Import ListNotations.
Local Open Scope string_scope.

(** ** Lists and strings *)

Lemma app_assoc_s : forall a b c : string, (a ++ b) ++ c = a ++ (b ++ c).
Proof. induction a; simpl; intros; congruence. Qed.
Lemma app_inj_s : forall a b c : string, a ++ b = a ++ c -> b = c.
Proof. induction a; simpl; intros b c H; auto. inversion H. auto. Qed.
Lemma app_inj_tail_s : forall a b c : string, a ++ c = b ++ c -> a = b.
Proof.
  assert (Hl : forall a b : string, String.length (a ++ b) = String.length a + String.length b).
  { induction a; simpl; intros; auto. }
  induction a as [|x a IH]; intros [|y b] c H; auto.
  - exfalso. apply (f_equal String.length) in H. simpl in H. rewrite Hl in H. lia.
  - exfalso. apply (f_equal String.length) in H. simpl in H. rewrite Hl in H. lia.
  - simpl in H. inversion H; subst. f_equal. eauto.
Qed.

Lemma nth_app_l : forall {A} (l m : list A) i d, nth_error l i = Some d -> nth_error (l ++ m) i = Some d.
Proof. intros. rewrite nth_error_app1; auto. apply nth_error_Some. congruence. Qed.
Lemma nth_app_new : forall {A} (l : list A) d, nth_error (l ++ [d]) (length l) = Some d.
Proof. intros. rewrite nth_error_app2, Nat.sub_diag; auto. Qed.
Lemma nth_app_inv : forall {A} (l : list A) d i e, nth_error (l ++ [d]) i = Some e ->
  (nth_error l i = Some e /\ i < length l) \/ (i = length l /\ e = d).
Proof.
  intros A l d i e H. destruct (Nat.lt_ge_cases i (length l)).
  - rewrite nth_error_app1 in H by auto. auto.
  - rewrite nth_error_app2 in H by auto. destruct (i - length l) as [|k] eqn:E.
    + simpl in H. inversion H. right. split; auto. lia.
    + simpl in H. destruct k; discriminate.
Qed.
Lemma nth_lt : forall {A} (l : list A) i d, nth_error l i = Some d -> i < length l.
Proof. intros. apply nth_error_Some. congruence. Qed.

Lemma update_length : forall {A} i (f : A -> A) l, length (update_nth i f l) = length l.
Proof. induction i; destruct l; simpl; auto. Qed.
Lemma update_other : forall {A} i j (f : A -> A) l, i <> j -> nth_error (update_nth i f l) j = nth_error l j.
Proof. induction i; destruct l, j; simpl; intros; auto; try congruence. Qed.
Lemma update_same : forall {A} i (f : A -> A) l, nth_error (update_nth i f l) i = option_map f (nth_error l i).
Proof. induction i; destruct l; simpl; auto. Qed.

Lemma find_index_some : forall {A} (f : A -> bool) l i, find_index f l = Some i ->
  exists a, nth_error l i = Some a /\ f a = true.
Proof.
  induction l as [|a l IH]; simpl; intros i H; [discriminate|]. destruct (f a) eqn:E.
  - inversion H; subst. simpl. eauto.
  - destruct (find_index f l) as [k|]; [|discriminate]. inversion H; subst. simpl. eauto.
Qed.
Lemma find_index_none : forall {A} (f : A -> bool) l, find_index f l = None ->
  forall i a, nth_error l i = Some a -> f a = false.
Proof.
  induction l as [|a l IH]; simpl; intros H i b Hi; [destruct i; discriminate|].
  destruct (f a) eqn:E; [discriminate|]. destruct (find_index f l); [discriminate|].
  destruct i; simpl in Hi; [inversion Hi; subst; auto|eauto].
Qed.

Lemma op_named_some : forall g n o, op_named g n = Some o ->
  exists d, nth_error (ops g) o = Some d /\ oname d = n.
Proof.
  intros g n o H. destruct (find_index_some _ _ _ H) as [d [Hd E]]. apply String.eqb_eq in E. eauto.
Qed.
Lemma op_named_none : forall g n, op_named g n = None ->
  forall o d, nth_error (ops g) o = Some d -> oname d <> n.
Proof.
  intros g n H o d Hd E. pose proof (find_index_none _ _ H _ _ Hd) as F. simpl in F.
  rewrite E, String.eqb_refl in F. discriminate.
Qed.
Lemma op_named_found : forall g n o d, nth_error (ops g) o = Some d -> oname d = n -> op_named g n <> None.
Proof. intros g n o d H E C. eapply op_named_none in C; eauto. Qed.
Lemma rv_named_some : forall g n r, rv_named g n = Some r ->
  exists d, nth_error (rvs g) r = Some d /\ rname d = n.
Proof.
  intros g n o H. destruct (find_index_some _ _ _ H) as [d [Hd E]]. apply String.eqb_eq in E. eauto.
Qed.
Lemma rv_named_none : forall g n, rv_named g n = None ->
  forall r d, nth_error (rvs g) r = Some d -> rname d <> n.
Proof.
  intros g n H o d Hd E. pose proof (find_index_none _ _ H _ _ Hd) as F. simpl in F.
  rewrite E, String.eqb_refl in F. discriminate.
Qed.
Lemma rv_named_found : forall g n r d, nth_error (rvs g) r = Some d -> rname d = n -> rv_named g n <> None.
Proof. intros g n o d H E C. eapply rv_named_none in C; eauto. Qed.

Lemma nodup_nth : forall {A B} (f : A -> B) l i j a b, NoDup (map f l) ->
  nth_error l i = Some a -> nth_error l j = Some b -> f a = f b -> i = j.
Proof.
  intros A B f l i j a b Hn Hi Hj E.
  apply (proj1 (NoDup_nth_error (map f l)) Hn).
  - rewrite map_length. eapply nth_lt; eauto.
  - rewrite !nth_error_map, Hi, Hj. simpl. congruence.
Qed.

Lemma Forall2_in_r : forall {A B} (R : A -> B -> Prop) l l', Forall2 R l l' -> forall b, In b l' -> exists a, In a l /\ R a b.
Proof.
  intros A B R l l' H. induction H; intros b Hb; [destruct Hb|]. destruct Hb as [<-|Hb].
  - exists x. split; [now left|auto].
  - destruct (IHForall2 _ Hb) as [a [Ha Hr]]. exists a. split; [now right|auto].
Qed.
Lemma Forall2_in_l : forall {A B} (R : A -> B -> Prop) l l', Forall2 R l l' -> forall a, In a l -> exists b, In b l' /\ R a b.
Proof.
  intros A B R l l' H. induction H; intros a Ha; [destruct Ha|]. destruct Ha as [<-|Ha].
  - exists y. split; [now left|auto].
  - destruct (IHForall2 _ Ha) as [b [Hb Hr]]. exists b. split; [now right|auto].
Qed.

(** ** C09: copy only adds *)

Lemma extends_refl : forall g, extends g g.
Proof. split; auto. Qed.
Lemma extends_trans : forall a b c, extends a b -> extends b c -> extends a c.
Proof. intros a b c [H1 H2] [H3 H4]. split; auto. Qed.
Lemma extends_add_op : forall g d, extends g (add_op g d).
Proof. split; simpl; auto. intros. now apply nth_app_l. Qed.
Lemma extends_add_rv : forall g d, extends g (add_rv g d).
Proof. split; simpl; auto. intros. now apply nth_app_l. Qed.

Lemma copy_list_frame : forall c, (forall g x g' r, c g x = (g', r) -> extends g g') ->
  forall l g g' r, copy_list c g l = (g', r) -> extends g g'.
Proof.
  intros c Hc. induction l as [|x l IH]; intros g g' r H; simpl in H.
  - inversion H; subst. apply extends_refl.
  - destruct (c g x) as [g1 [y| |]] eqn:E; try (inversion H; subst; eauto; fail).
    destruct (copy_list c g1 l) as [g2 [ys| |]] eqn:E2; inversion H; subst;
      eapply extends_trans; eauto.
Qed.

Lemma copy_inputs_frame : forall c, (forall g x g' r, c g x = (g', r) -> extends g g') ->
  forall o l g g' r, copy_inputs c g o l = (g', r) ->
  (forall i d, i <> o -> nth_error (ops g) i = Some d -> nth_error (ops g') i = Some d) /\
  (forall r d, nth_error (rvs g) r = Some d -> nth_error (rvs g') r = Some d).
Proof.
  intros c Hc o. induction l as [|x l IH]; intros g g' r H; simpl in H.
  - inversion H; subst. split; auto.
  - destruct (c g (XT x)) as [g1 [y| |]] eqn:E; apply Hc in E as [E1 E2];
      try (inversion H; subst; split; auto; fail).
    destruct (as_tensor g1 y) as [t|]; [|inversion H; subst; split; auto].
    apply IH in H as [H1 H2]. simpl in *. split; auto. intros i d Hi Hd. apply H1; auto.
    rewrite update_other; auto.
Qed.

Lemma build_rv_frame : forall g cls args n g' r, build_rv g cls args n = (g', r) -> extends g g'.
Proof.
  intros g cls args n g' r H. unfold build_rv in H. destruct (tensors_of g args).
  - inversion H; subst. eapply extends_trans; [apply extends_add_op|apply extends_add_rv].
  - inversion H; subst. apply extends_refl.
Qed.

Lemma copy_frame : forall fuel pick sw scope ri cq cps g x g' r,
  copy fuel pick sw scope ri cq cps g x = (g', r) -> extends g g'.
Proof.
  induction fuel as [|f IH]; intros pick sw scope ri cq cps g x g' r H; simpl in H.
  { inversion H; subst. apply extends_refl. }
  destruct (front g sw ri cq x) as [y|y]; [inversion H; subst; apply extends_refl|].
  destruct (find_copy g scope y); [inversion H; subst; apply extends_refl|].
  destruct (if cps && negb (is_op y) then _ else (g, Ok [])) as [g1 r1] eqn:Ep.
  assert (H1 : extends g g1).
  { destruct (cps && negb (is_op y)); [|inversion Ep; subst; apply extends_refl].
    eapply copy_list_frame; [|exact Ep]. intros. eapply IH; eauto. }
  eapply extends_trans; [exact H1|]. clear Ep H1.
  destruct r1; try (inversion H; subst; apply extends_refl).
  destruct y as [s|t|t|o].
  - destruct (nth_error (rvs g1) s) as [d|]; [|inversion H; subst; apply extends_refl].
    destruct (copy_list _ g1 (rargs d)) as [g2 r2] eqn:E.
    assert (E' : extends g1 g2) by (eapply copy_list_frame; [|exact E]; intros; eapply IH; eassumption).
    destruct r2 as [args| |]; try (inversion H; subst; exact E').
    apply build_rv_frame in H. eapply extends_trans; eauto.
  - destruct (nth_error (ops g1) t) as [d|]; [|inversion H; subst; apply extends_refl].
    destruct (copy f pick sw scope true cq false g1 (XOp t)) as [g2 r2] eqn:E. apply IH in E.
    destruct (okind d); try (inversion H; subst; apply extends_refl);
      destruct r2 as [[]| |]; inversion H; subst; auto.
  - inversion H; subst. apply extends_refl.
  - destruct (nth_error (ops g1) o) as [d|]; [|inversion H; subst; apply extends_refl].
    assert (Hop : forall k, (let n := length (ops g1) in
        let g2 := add_op g1 {| oname := scope ++ oname d; okind := k; oins := [] |} in
        match copy_inputs (copy f pick sw scope true cq false) g2 n (oins d) with
        | (g3, Ok _) => (g3, Ok (XOp n))
        | (g3, Exc) => (g3, Exc)
        | (g3, Fuel) => (g3, Fuel)
        end) = (g', r) -> extends g1 g').
    { clear H. intros k Hk. cbv zeta in Hk.
      destruct (copy_inputs _ _ _ _) as [g3 r3] eqn:E.
      destruct (copy_inputs_frame _ (fun g x g' r => IH pick sw scope true cq false g x g' r) _ _ _ _ _ E)
        as [E1 E2]. simpl in *.
      assert (g3 = g') by (destruct r3; congruence). subst g3. split; auto.
      intros i di Hi. apply E1; [apply nth_lt in Hi; lia|]. now apply nth_app_l. }
    destruct (okind d); try (eapply Hop; eassumption). inversion H; subst. apply extends_refl.
Qed.

Scheme ev_ind2 := Induction for ev Sort Prop with evs_ind2 := Induction for evs Sort Prop.

Section EvFrame.
Variables (V N : Type) (sem : nat -> N -> list V -> V) (st : nat -> V) (noise : nat -> N).

Lemma ev_extends : forall g g', extends g g' ->
  forall t v, ev sem st noise g t v -> ev sem st noise g' t v.
Proof.
  intros g g' [H _] t v E.
  apply (ev_ind2 V N sem st noise g (fun t v _ => ev sem st noise g' t v)
    (fun l vs _ => evs sem st noise g' l vs)); intros; auto.
  - eapply ev_leaf; eauto.
  - eapply ev_op; eauto.
  - constructor.
  - constructor; auto.
Qed.

Lemma ev_extends_inv : forall g g', extends g g' ->
  (forall o d, nth_error (ops g) o = Some d -> Forall (fun i => i < length (ops g)) (oins d)) ->
  forall t v, t < length (ops g) -> ev sem st noise g' t v -> ev sem st noise g t v.
Proof.
  intros g g' [H _] Hc t v Ht E. revert Ht.
  apply (ev_ind2 V N sem st noise g' (fun t v _ => t < length (ops g) -> ev sem st noise g t v)
    (fun l vs _ => Forall (fun i => i < length (ops g)) l -> evs sem st noise g l vs)); auto.
  - intros o d Hd Hl Ho. destruct (nth_error (ops g) o) as [d0|] eqn:E0.
    + pose proof (H _ _ E0). eapply ev_leaf; eauto. congruence.
    + apply nth_error_None in E0. lia.
  - intros o d ty vs Hd Hk Hvs IH Ho. destruct (nth_error (ops g) o) as [d0|] eqn:E0.
    + pose proof (H _ _ E0) as H0. assert (d0 = d) by congruence. subst. eapply ev_op; eauto.
    + apply nth_error_None in E0. lia.
  - intros _. constructor.
  - intros o v0 l vs _ IH1 _ IH2 HF. inversion HF; subst. constructor; auto.
Qed.

Lemma evs_fun : forall g, (forall t v, ev sem st noise g t v -> forall v', ev sem st noise g t v' -> v = v').
Proof.
  intros g t v E.
  apply (ev_ind2 V N sem st noise g (fun t v _ => forall v', ev sem st noise g t v' -> v = v')
    (fun l vs _ => forall vs', evs sem st noise g l vs' -> vs = vs')); auto.
  - intros o d Hd Hl v' H'. inversion H' as [o' d' Hd' Hl'|o' d' ty vs Hd' Hk Hv]; subst; auto.
    rewrite Hd in Hd'. inversion Hd'; subst. rewrite Hk in Hl. discriminate.
  - intros o d ty vs Hd Hk Hvs IH v' H'. inversion H' as [o' d' Hd' Hl'|o' d' ty' vs' Hd' Hk' Hv']; subst.
    + rewrite Hd in Hd'. inversion Hd'; subst. rewrite Hk in Hl'. discriminate.
    + rewrite Hd in Hd'. inversion Hd'; subst. rewrite Hk in Hk'. inversion Hk'; subst. f_equal. auto.
  - intros vs' H'. inversion H'. auto.
  - intros o v0 l vs _ IH1 _ IH2 vs' H'. inversion H'; subst. f_equal; auto.
Qed.
End EvFrame.

Lemma ed_copy_frame : forall fuel pick sw scope ri cq cps g x g' r,
  ed_copy_at fuel pick sw scope ri cq cps g x = (g', r) -> extends g g'.
Proof.
  intros fuel pick sw scope ri cq cps g x g' r H. unfold ed_copy_at in H. destruct (with_slash scope).
  - eapply copy_frame; eauto.
  - inversion H; subst. apply extends_refl.
Qed.

Lemma history_frame : forall cs g, extends g (fold_left run_call cs g).
Proof.
  induction cs as [|c cs IH]; intros g; simpl; [apply extends_refl|].
  eapply extends_trans; [|apply IH]. unfold run_call.
  destruct (ed_copy_at _ _ _ _ _ _ _ _ _) eqn:E. simpl. eapply ed_copy_frame; eauto.
Qed.

Lemma history_values : forall cs g, wf g ->
  forall V N (sem : nat -> N -> list V -> V) st noise t v, t < length (ops g) ->
  (ev sem st noise (fold_left run_call cs g) t v <-> ev sem st noise g t v).
Proof.
  intros cs g Hw V N sem st noise t v Ht. split.
  - apply ev_extends_inv; auto; [apply history_frame|]. apply Hw.
  - apply ev_extends. apply history_frame.
Qed.
