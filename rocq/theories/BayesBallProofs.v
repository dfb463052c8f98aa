From Coq Require Import List Arith Bool Lia Relations.
From Verif Require Import Graph GraphSpec GraphProofs BayesBall BayesBallSpec.
Import ListNotations.

Lemma push_In : forall ms d s e,
  In e (push ms d s) <-> In e s \/ exists m, In m ms /\ e = (m, d).
Proof.
  unfold push. induction ms as [|m ms IH]; intros d s e; simpl.
  - split; auto. intros [H|[m [[] _]]]; auto.
  - rewrite IH. simpl. split.
    + intros [[H|H]|[m' [H1 H2]]]; eauto.
    + intros [H|[m' [[H1|H1] H2]]]; subst; eauto.
Qed.

Lemma push_length : forall ms d s, length (push ms d s) = length ms + length s.
Proof.
  unfold push. induction ms as [|m ms IH]; intros d s; simpl; auto.
  rewrite IH. simpl. lia.
Qed.

Lemma memb_false : forall x l, memb x l = false <-> ~ In x l.
Proof.
  intros x l. rewrite <- memb_iff. destruct (memb x l); split; congruence.
Qed.

Section BB.
Variables par ch : nat -> list nat.
Variable pm : nat -> bool.
Variables A B C : list nat.

(** Ball states that can be reached. *)
Inductive visit : nat -> from -> Prop :=
| v_start : forall b, In b B -> visit b FromChild
| v_uu : forall n p, visit n FromChild -> ~ In n C -> In p (par n) -> visit p FromChild
| v_ud : forall n c, visit n FromChild -> ~ In n C -> pm n = false ->
    In c (ch n) -> visit c FromParent
| v_du : forall n p, visit n FromParent -> In n C -> In p (par n) -> visit p FromChild
| v_dd : forall n c, visit n FromParent -> ~ In n C -> In c (ch n) -> visit c FromParent.

Definition relevant (n : nat) : Prop :=
  ~ In n C /\ ((visit n FromChild /\ pm n = false) \/ visit n FromParent).

Definition proc (top bottom : list nat) (n : nat) (f : from) : Prop :=
  match f with
  | FromChild => In n C \/ (In n top /\ (pm n = true \/ In n bottom))
  | FromParent => (In n C -> In n top) /\ (~ In n C -> In n bottom)
  end.

Record bbinv (sched : list (nat * from)) (top bottom : list nat) : Prop := {
  bb_visit : forall n f, In (n, f) sched -> visit n f;
  bb_start : forall b, In b B -> In (b, FromChild) sched \/ proc top bottom b FromChild;
  bb_top : forall n p, In n top -> In p (par n) ->
     In (p, FromChild) sched \/ proc top bottom p FromChild;
  bb_bottom : forall n c, In n bottom -> In c (ch n) ->
     In (c, FromParent) sched \/ proc top bottom c FromParent;
  bb_notA : forall n, In n bottom -> ~ In n A
}.

Lemma proc_mono : forall top bottom top' bottom' n f,
  incl top top' -> incl bottom bottom' ->
  proc top bottom n f -> proc top' bottom' n f.
Proof.
  intros top bottom top' bottom' n f H1 H2 H. destruct f; simpl in *.
  - destruct H as [H|[H [H'|H']]]; auto.
  - destruct H as [Ha Hb]. split; auto.
Qed.

(* One loop iteration without return, abstractly. *)
Lemma bbinv_step : forall n f sched top bottom top' bottom' sched',
  bbinv ((n, f) :: sched) top bottom ->
  incl top top' -> incl bottom bottom' ->
  (forall e, In e sched -> In e sched') ->
  (forall m d, In (m, d) sched' -> In (m, d) sched \/ visit m d) ->
  proc top' bottom' n f ->
  (forall m (_ : nat), In m top' -> In m top \/ (forall p, In p (par m) -> In (p, FromChild) sched')) ->
  (forall m (_ : nat), In m bottom' -> In m bottom \/ (~ In m A /\ forall p, In p (ch m) -> In (p, FromParent) sched')) ->
  bbinv sched' top' bottom'.
Proof.
  intros n f sched top bottom top' bottom' sched' [I1 I2 I3 I4 I5]
    Ht Hb Hs Hs' Hp HT HB.
  assert (K : forall m d, In (m, d) ((n, f) :: sched) \/ proc top bottom m d ->
     In (m, d) sched' \/ proc top' bottom' m d).
  { intros m d [[E|H]|H].
    - injection E as -> ->. auto.
    - auto.
    - right. eapply proc_mono; eauto. }
  constructor.
  - intros m d H. apply Hs' in H. destruct H as [H|H]; auto. apply I1. simpl; auto.
  - intros b H. apply K. auto.
  - intros m p Hm Hpp. destruct (HT m p Hm) as [H|H]; auto.
    apply K. eauto.
  - intros m p Hm Hpp. destruct (HB m p Hm) as [H|[_ H]]; auto.
    apply K. eauto.
  - intros m Hm. destruct (HB m 0 Hm) as [H|[H _]]; auto.
Qed.

Lemma relevant_proc : forall top bottom, bbinv [] top bottom ->
  forall n, relevant n -> ~ In n A.
Proof.
  intros top bottom [I1 I2 I3 I4 I5] n.
  assert (K : forall m d, visit m d -> proc top bottom m d).
  { intros m d H. induction H as [b H|m p H IH Hc Hp|m c H IH Hc Hpm Hp|m p H IH Hc Hp|m c H IH Hc Hp].
    - destruct (I2 b H) as [[]|]; auto.
    - destruct IH as [IH|[IH _]]; [contradiction|]. destruct (I3 m p IH Hp) as [[]|]; auto.
    - destruct IH as [IH|[_ [IH|IH]]]; [contradiction|congruence|].
      destruct (I4 m c IH Hp) as [[]|]; auto.
    - destruct IH as [IH _]. destruct (I3 m p (IH Hc) Hp) as [[]|]; auto.
    - destruct IH as [_ IH]. destruct (I4 m c (IH Hc) Hp) as [[]|]; auto. }
  intros [Hc [[Hv Hpm]|Hv]]; apply K in Hv; simpl in Hv; apply I5.
  - destruct Hv as [Hv|[_ [Hv|Hv]]]; [contradiction|congruence|auto].
  - now apply Hv.
Qed.

Lemma bb_loop_sound : forall fuel sched top bottom res,
  bbinv sched top bottom ->
  bb_loop par ch pm A C fuel sched top bottom = Some res ->
  (res = false <-> exists n, relevant n /\ In n A).
Proof.
  induction fuel as [|fuel IH]; intros sched top bottom res Hinv H; simpl in H;
    [discriminate|].
  destruct sched as [|[n d] sched1].
  { injection H as <-. split; [discriminate|]. intros [n [Hr HA]].
    exfalso. eapply relevant_proc; eauto. }
  pose proof (bb_visit _ _ _ Hinv n d (or_introl eq_refl)) as Hv.
  destruct d.
  - destruct (memb n C) eqn:EC.
    + apply memb_iff in EC. eapply IH; [|exact H].
      eapply bbinv_step; eauto; try apply incl_refl; simpl; auto.
    + apply memb_false in EC.
      set (ts := if memb n top then (top, sched1)
                 else (n :: top, push (par n) FromChild sched1)) in *.
      destruct ts as [top2 sched2] eqn:Ets.
      assert (Htop : In n top2 /\ incl top top2 /\
         (forall e, In e sched1 -> In e sched2) /\
         (forall m d, In (m, d) sched2 -> In (m, d) sched1 \/ visit m d) /\
         (forall m, In m top2 -> In m top \/
             (forall p, In p (par m) -> In (p, FromChild) sched2))).
      { subst ts. destruct (memb n top) eqn:Et; injection Ets as <- <-.
        - apply memb_iff in Et. repeat split; auto. apply incl_refl.
        - repeat split; simpl; auto.
          + intros m Hm; simpl; auto.
          + intros e He. apply push_In; auto.
          + intros m d Hm. apply push_In in Hm. destruct Hm as [Hm|[q [Hq Eq]]]; auto.
            injection Eq as -> ->. right. eapply v_uu; eauto.
          + intros m [Hm|Hm]; auto. subst m. right. intros p Hp.
            apply push_In. right. eauto. }
      destruct Htop as [T1 [T2 [T3 [T4 T5]]]]. clear Ets.
      destruct (negb (pm n) && negb (memb n bottom)) eqn:EB.
      * apply andb_true_iff in EB. destruct EB as [Epm Eb].
        apply negb_true_iff in Epm, Eb. apply memb_false in Eb.
        destruct (memb n A) eqn:EA.
        -- injection H as <-. split; auto. intros _. exists n. apply memb_iff in EA.
           split; auto. split; auto.
        -- apply memb_false in EA. eapply IH; [|exact H].
           eapply bbinv_step; eauto.
           ++ intros m Hm; simpl; auto.
           ++ intros e He. apply push_In. auto.
           ++ intros m d Hm. apply push_In in Hm. destruct Hm as [Hm|[q [Hq Eq]]]; auto.
              injection Eq as -> ->. right. eapply v_ud; eauto.
           ++ simpl. auto.
           ++ intros m _ Hm. destruct (T5 m Hm) as [Hx|Hx]; auto.
              right. intros p Hp. apply push_In. auto.
           ++ intros m _ [Hm|Hm]; auto. subst m. right. split; auto.
              intros p Hp. apply push_In. right. eauto.
      * eapply IH; [|exact H]. eapply bbinv_step; eauto.
        -- apply incl_refl.
        -- simpl. right. split; auto. apply andb_false_iff in EB.
           destruct EB as [EB|EB]; apply negb_false_iff in EB; auto.
           right. now apply memb_iff.
  - destruct (memb n C && negb (memb n top)) eqn:E1.
    + apply andb_true_iff in E1. destruct E1 as [EC Et].
      apply memb_iff in EC. apply negb_true_iff in Et.
      eapply IH; [|exact H]. eapply bbinv_step; eauto.
      * intros m Hm; simpl; auto.
      * apply incl_refl.
      * intros e He. apply push_In; auto.
      * intros m d Hm. apply push_In in Hm. destruct Hm as [Hm|[q [Hq Eq]]]; auto.
        injection Eq as -> ->. right. eapply v_du; eauto.
      * simpl. split; auto. intros; contradiction.
      * intros m _ [Hm|Hm]; auto. subst m. right. intros p Hp. apply push_In. right; eauto.
    + destruct (negb (memb n C) && negb (memb n bottom)) eqn:E2.
      * apply andb_true_iff in E2. destruct E2 as [EC Eb].
        apply negb_true_iff in EC, Eb. apply memb_false in EC, Eb.
        destruct (memb n A) eqn:EA.
        -- injection H as <-. split; auto. intros _. exists n. apply memb_iff in EA.
           split; auto. split; auto.
        -- apply memb_false in EA. eapply IH; [|exact H].
           eapply bbinv_step; eauto.
           ++ apply incl_refl.
           ++ intros m Hm; simpl; auto.
           ++ intros e He. apply push_In. auto.
           ++ intros m d Hm. apply push_In in Hm. destruct Hm as [Hm|[q [Hq Eq]]]; auto.
              injection Eq as -> ->. right. eapply v_dd; eauto.
           ++ simpl. split; auto. intros; contradiction.
           ++ intros m _ [Hm|Hm]; auto. subst m. right. split; auto.
              intros p Hp. apply push_In. right. eauto.
      * eapply IH; [|exact H]. eapply bbinv_step; eauto; try apply incl_refl.
        simpl. apply andb_false_iff in E1, E2. split; intros HC.
        -- destruct E1 as [E1|E1]; [apply memb_false in E1; contradiction|].
           apply negb_false_iff in E1. now apply memb_iff.
        -- destruct E2 as [E2|E2]; apply negb_false_iff in E2; apply memb_iff in E2;
             [contradiction|auto].
Qed.

Lemma bbinv_init : bbinv (map (fun b => (b, FromChild)) B) [] [].
Proof.
  constructor; simpl; try tauto.
  - intros n f H. apply in_map_iff in H. destruct H as [b [E H]].
    injection E as <- <-. now constructor.
  - intros b H. left. apply in_map_iff. eauto.
Qed.

(** Termination: every iteration pops one entry; entries are pushed once per
    mark. *)
Variable U : list nat.
Hypothesis U_nodup : NoDup U.
Hypothesis U_par : forall n p, In n U -> In p (par n) -> In p U.
Hypothesis U_ch : forall n p, In n U -> In p (ch n) -> In p U.

Fixpoint weight (f : nat -> list nat) (l marked : list nat) : nat :=
  match l with
  | [] => 0
  | n :: l' => (if memb n marked then 0 else length (f n)) + weight f l' marked
  end.

Lemma weight_notin : forall f l marked n, ~ In n l -> weight f l (n :: marked) = weight f l marked.
Proof.
  intros f l marked n. induction l as [|m l IH]; intros Hn; auto.
  cbn [weight]. rewrite IH by (intros H; apply Hn; simpl; auto).
  assert (E : memb m (n :: marked) = memb m marked).
  { unfold memb. simpl. destruct (Nat.eqb_spec m n) as [E|E]; auto.
    exfalso. apply Hn. simpl; auto. }
  now rewrite E.
Qed.

Lemma weight_mark : forall f l marked n, NoDup l -> In n l -> ~ In n marked ->
  weight f l marked = length (f n) + weight f l (n :: marked).
Proof.
  intros f l marked n Hnd Hin Hm. induction l as [|m l IH]; [destruct Hin|].
  inversion Hnd as [|? ? Hn1 Hn2]; subst. cbn [weight]. destruct Hin as [E|Hin].
  - subst m.
    assert (E1 : memb n marked = false) by (now apply memb_false).
    assert (E2 : memb n (n :: marked) = true) by (apply memb_iff; simpl; auto).
    rewrite E1, E2, weight_notin by auto. reflexivity.
  - rewrite IH by auto.
    assert (E : memb m (n :: marked) = memb m marked).
    { unfold memb. simpl. destruct (Nat.eqb_spec m n) as [E|E]; auto. subst; contradiction. }
    rewrite E. lia.
Qed.

Lemma bb_loop_total : forall fuel sched top bottom,
  (forall n f, In (n, f) sched -> In n U) ->
  weight par U top + weight ch U bottom + length sched < fuel ->
  exists res, bb_loop par ch pm A C fuel sched top bottom = Some res.
Proof.
  induction fuel as [|fuel IH]; intros sched top bottom HU Hf; [lia|].
  simpl. destruct sched as [|[n d] sched1]; [eauto|].
  assert (HnU : In n U) by (eapply HU; simpl; eauto).
  assert (HU1 : forall m f, In (m, f) sched1 -> In m U) by (intros; eapply HU; simpl; eauto).
  simpl length in Hf.
  destruct d.
  - destruct (memb n C); [apply IH; auto; lia|].
    destruct (memb n top) eqn:Et.
    + destruct (negb (pm n) && negb (memb n bottom)) eqn:EB.
      * apply andb_true_iff in EB. destruct EB as [_ Eb]. apply negb_true_iff, memb_false in Eb.
        destruct (memb n A); [eauto|]. apply IH.
        -- intros m f Hm. apply push_In in Hm. destruct Hm as [Hm|[q [Hq Eq]]]; eauto.
           injection Eq as -> ->. eauto.
        -- rewrite push_length. rewrite (weight_mark ch U bottom n) in Hf by auto. lia.
      * apply IH; auto. lia.
    + apply memb_false in Et.
      assert (HU2 : forall m f, In (m, f) (push (par n) FromChild sched1) -> In m U).
      { intros m f Hm. apply push_In in Hm. destruct Hm as [Hm|[q [Hq Eq]]]; eauto.
        injection Eq as -> ->. eauto. }
      rewrite (weight_mark par U top n) in Hf by auto.
      destruct (negb (pm n) && negb (memb n bottom)) eqn:EB.
      * apply andb_true_iff in EB. destruct EB as [_ Eb]. apply negb_true_iff, memb_false in Eb.
        destruct (memb n A); [eauto|]. apply IH.
        -- intros m f Hm. apply push_In in Hm. destruct Hm as [Hm|[q [Hq Eq]]]; eauto.
           injection Eq as -> ->. eauto.
        -- rewrite !push_length. rewrite (weight_mark ch U bottom n) in Hf by auto. lia.
      * apply IH; auto. rewrite push_length. lia.
  - destruct (memb n C && negb (memb n top)) eqn:E1.
    + apply andb_true_iff in E1. destruct E1 as [_ Et]. apply negb_true_iff, memb_false in Et.
      apply IH.
      * intros m f Hm. apply push_In in Hm. destruct Hm as [Hm|[q [Hq Eq]]]; eauto.
        injection Eq as -> ->. eauto.
      * rewrite push_length. rewrite (weight_mark par U top n) in Hf by auto. lia.
    + destruct (negb (memb n C) && negb (memb n bottom)) eqn:E2.
      * apply andb_true_iff in E2. destruct E2 as [_ Eb]. apply negb_true_iff, memb_false in Eb.
        destruct (memb n A); [eauto|]. apply IH.
        -- intros m f Hm. apply push_In in Hm. destruct Hm as [Hm|[q [Hq Eq]]]; eauto.
           injection Eq as -> ->. eauto.
        -- rewrite push_length. rewrite (weight_mark ch U bottom n) in Hf by auto. lia.
      * apply IH; auto. lia.
Qed.

Lemma weight_bound : forall f l k, (forall n, length (f n) <= k) -> weight f l [] <= length l * k.
Proof.
  intros f l k Hk. induction l as [|n l IH]; simpl; auto.
  specialize (Hk n). lia.
Qed.

(** ** Trails *)

Variable parent : nat -> nat -> Prop.
Variable dom : nat -> Prop.
Hypothesis par_spec : forall n p, dom n -> (In p (par n) <-> parent p n).
Hypothesis ch_spec : forall n c, dom n -> (In c (ch n) <-> dom c /\ parent n c).
Hypothesis parent_dom : forall p n, dom n -> parent p n -> dom p.
Hypothesis B_dom : forall b, In b B -> dom b.
(* children of dom nodes only matter inside dom *)
Hypothesis child_dom : forall n c, dom n -> parent n c -> dom c.

Definition Cs (n : nat) : Prop := In n C.
Definition dets (n : nat) : Prop := pm n = true.
Definition dir_of (f : from) : dir := match f with FromChild => Up | FromParent => Down end.

Lemma visit_dom : forall n f, visit n f -> dom n.
Proof.
  intros n f H. induction H; auto.
  - eapply parent_dom; eauto. now apply par_spec.
  - apply ch_spec in H2; tauto.
  - eapply parent_dom; eauto. now apply par_spec.
  - apply ch_spec in H1; tauto.
Qed.

Lemma bounce : forall n c, descendant parent n c -> In c C ->
  visit n FromParent -> ~ In n C -> visit n FromChild.
Proof.
  intros n c H Hc. apply clos_rt_rt1n in H.
  induction H as [n|n k c H1 H2 IH]; intros Hv Hn; [contradiction|].
  assert (Hdn : dom n) by (eapply visit_dom; eauto).
  assert (Hdk : dom k) by (eapply child_dom; eauto).
  assert (Hvk : visit k FromParent) by (eapply v_dd; eauto; apply ch_spec; auto).
  destruct (in_dec Nat.eq_dec k C) as [Hk|Hk].
  - eapply v_du; eauto. apply par_spec; auto.
  - eapply v_uu; [apply IH; auto|auto|]. apply par_spec; auto.
Qed.

Lemma active_relevant : forall steps n f, visit n f ->
  active parent Cs dets n (dir_of f) steps -> relevant (last_node n steps).
Proof.
  induction steps as [|[o m] steps IH]; intros n f Hv Ha; simpl in *.
  - destruct Ha as [Hc Hd]. split; auto. destruct f; simpl in *; auto.
    left. split; auto. unfold dets in Hd. destruct (pm n); auto. exfalso; now apply Hd.
  - assert (Hdn : dom n) by (eapply visit_dom; eauto).
    destruct Ha as [Ho [Hadj Ha]].
    destruct f, o; simpl in *.
    + eapply (IH m FromChild); eauto. eapply v_uu; eauto. now apply par_spec.
    + eapply (IH m FromParent); eauto. destruct Ho as [Ho1 Ho2]. eapply v_ud; eauto.
      * unfold dets in Ho2. destruct (pm n); auto. exfalso; now apply Ho2.
      * apply ch_spec; auto. split; auto. eapply child_dom; eauto.
    + eapply (IH m FromChild); eauto. destruct Ho as [c [Hdc Hcc]].
      destruct (in_dec Nat.eq_dec n C) as [Hn|Hn].
      * eapply v_du; eauto. now apply par_spec.
      * eapply v_uu; [|exact Hn|]. { eapply bounce; eauto. } now apply par_spec.
    + eapply (IH m FromParent); eauto. eapply v_dd; eauto. apply ch_spec; auto.
      split; auto. eapply child_dom; eauto.
Qed.

Lemma visit_trail : forall n f, visit n f -> forall steps,
  active parent Cs dets n (dir_of f) steps ->
  exists b steps', In b B /\ active parent Cs dets b Up steps' /\
    last_node b steps' = last_node n steps.
Proof.
  intros n f H. induction H as [b H|n p H IH Hc Hp|n c H IH Hc Hpm Hp|n p H IH Hc Hp|n c H IH Hc Hp];
    intros steps Ha; simpl in Ha;
    try (assert (Hdn : dom n) by (eapply visit_dom; eauto)).
  - eauto.
  - destruct (IH ((Up, p) :: steps)) as [b [s' [H1 [H2 H3]]]]; [|eauto].
    simpl. repeat split; auto. now apply par_spec.
  - destruct (IH ((Down, c) :: steps)) as [b [s' [H1 [H2 H3]]]]; [|eauto].
    simpl. repeat split; auto. { unfold dets. congruence. } apply ch_spec in Hp; tauto.
  - destruct (IH ((Up, p) :: steps)) as [b [s' [H1 [H2 H3]]]]; [|eauto].
    simpl. split; [|split; auto; now apply par_spec].
    exists n. split; auto. apply rt_refl.
  - destruct (IH ((Down, c) :: steps)) as [b [s' [H1 [H2 H3]]]]; [|eauto].
    simpl. repeat split; auto. apply ch_spec in Hp; tauto.
Qed.

Lemma relevant_connected :
  (exists n, relevant n /\ In n A) <-> d_connected parent Cs dets A B.
Proof.
  split.
  - intros [n [[Hc Hv] HA]].
    assert (G : exists f, visit n f /\ active parent Cs dets n (dir_of f) []).
    { destruct Hv as [[Hv Hpm]|Hv].
      - exists FromChild. simpl. repeat split; auto. unfold dets. congruence.
      - exists FromParent. simpl. repeat split; auto; discriminate. }
    destruct G as [f [Hvf Haf]].
    destruct (visit_trail n f Hvf [] Haf) as [b [s [H1 [H2 H3]]]].
    exists b, s. repeat split; auto. rewrite H3. exact HA.
  - intros [b [s [H1 [H2 H3]]]]. exists (last_node b s). split; auto.
    eapply (active_relevant s b FromChild); eauto. now constructor.
Qed.
End BB.

(** ** On graphs *)

Lemma found_parents : forall g coll pick n p,
  single_producer g -> distinct_values g coll ->
  (In p (found (get_parents g coll pick (enough g) (NRV n))) <-> parent_rel g coll p n).
Proof.
  intros g coll pick n p Hsp Hd.
  destruct (queries_terminate g coll pick (enough g) (NRV n) (le_n _)) as [[ps E] _].
  rewrite E. simpl. apply get_parents_correct in E; auto. destruct E as [_ E].
  rewrite E. unfold parent_rel. simpl. split; intros [H1 [H2 H3]]; repeat split; auto; congruence.
Qed.

Lemma found_children : forall g coll pick n c,
  single_producer g -> distinct_values g coll -> In n coll ->
  (In c (found (get_children g coll pick (enough g) (NRV n))) <->
   In c coll /\ parent_rel g coll n c).
Proof.
  intros g coll pick n p Hsp Hd Hn.
  destruct (queries_terminate g coll pick (enough g) (NRV n) (le_n _)) as [_ [[ps E] _]].
  rewrite E. simpl. apply get_children_correct in E; auto. destruct E as [_ E].
  rewrite E. simpl. split.
  - intros [H1 [H2 H3]]. split; auto. apply parent_child_rel; auto.
    repeat split; auto; congruence.
  - intros [H1 H2]. apply parent_child_rel in H2; auto. destruct H2 as [H2 [H3 H4]].
    repeat split; auto; congruence.
Qed.

Lemma is_independent_correct : forall g coll pm pick fuel A B C res,
  single_producer g -> distinct_values g coll -> incl B coll ->
  is_independent g coll pm pick fuel A B C = Some res ->
  (res = false <->
   d_connected (parent_in g coll) (fun n => In n C) (fun n => pm n = true) A B).
Proof.
  intros g coll pm pick fuel A B C res Hsp Hd HB H. unfold is_independent in H.
  eapply bb_loop_sound in H; [|apply bbinv_init].
  rewrite H.
  apply (relevant_connected _ _ pm A B C (parent_in g coll) (fun n => In n coll)).
  - intros n p Hn. rewrite found_parents by auto. unfold parent_in. tauto.
  - intros n c Hn. rewrite found_children by auto. unfold parent_in. tauto.
  - intros p n Hn [_ [Hp _]]. exact Hp.
  - auto.
  - intros n c Hn [Hc _]. exact Hc.
Qed.

Lemma nodup_coll_bound : forall (l coll : list nat), NoDup l -> incl l coll -> length l <= length coll.
Proof. intros; now apply NoDup_incl_length. Qed.

Lemma is_independent_total : forall g coll pm pick fuel A B C,
  NoDup coll -> single_producer g -> distinct_values g coll -> incl B coll ->
  bb_enough coll B <= fuel ->
  exists res, is_independent g coll pm pick fuel A B C = Some res.
Proof.
  intros g coll pm pick fuel A B C Hnd Hsp Hd HB Hf. unfold is_independent.
  assert (Hp : forall n, length (found (get_parents g coll pick (enough g) (NRV n))) <= length coll).
  { intros n. apply NoDup_incl_length.
    - destruct (queries_terminate g coll pick (enough g) (NRV n) (le_n _)) as [[ps E] _].
      rewrite E. apply get_parents_correct in E; auto. apply E.
    - intros p Hp. apply found_parents in Hp; auto. apply Hp. }
  assert (Hc : forall n, length (found (get_children g coll pick (enough g) (NRV n))) <= length coll).
  { intros n. apply NoDup_incl_length.
    - destruct (queries_terminate g coll pick (enough g) (NRV n) (le_n _)) as [_ [[ps E] _]].
      rewrite E. apply get_children_correct in E; auto. apply E.
    - intros p Hp'.
      destruct (queries_terminate g coll pick (enough g) (NRV n) (le_n _)) as [_ [[ps E] _]].
      rewrite E in Hp'. apply get_children_correct in E; auto. simpl in Hp'. apply E in Hp'. apply Hp'. }
  apply bb_loop_total with (U := coll); auto.
  - intros n p Hn Hpp. apply found_parents in Hpp; auto. apply Hpp.
  - intros n p Hn Hpp. apply found_children in Hpp; auto. apply Hpp.
  - intros n f Hi. apply in_map_iff in Hi. destruct Hi as [b [E Hb]]. injection E as <- <-. auto.
  - rewrite map_length.
    pose proof (weight_bound _ coll _ Hp). pose proof (weight_bound _ coll _ Hc).
    unfold bb_enough in Hf. lia.
Qed.

(** ** Blanket shields; symmetry *)

Section Shield.
Variable parent : nat -> nat -> Prop.
Variable det : nat -> Prop.
Variable x : nat.
Variable C : nat -> Prop.
Hypothesis C_spec : forall n, n <> x ->
  (parent n x \/ parent x n \/ exists c, parent x c /\ parent n c) -> C n.

Lemma shielded : forall steps n i, active parent C det n i steps ->
  last_node n steps = x -> n <> x ->
  (i = Down -> exists q, parent q n /\ q <> x /\ ~ C q) -> False.
Proof.
  induction steps as [|[o m] s IH]; intros n i Ha Hl Hn Hq; simpl in *; [congruence|].
  destruct Ha as [Ho [Hadj Ha]].
  destruct (Nat.eq_dec m x) as [E|E].
  - subst m.
    assert (HC : C n).
    { apply C_spec; auto. destruct o; simpl in Hadj; auto. }
    destruct i, o; simpl in *; try tauto.
    destruct (Hq eq_refl) as [q [Hq1 [Hq2 Hq3]]]. apply Hq3. apply C_spec; auto.
    right. right. eauto.
  - eapply (IH m o); eauto. intros ->. exists n. simpl in *. repeat split; auto.
    destruct i; simpl in Ho; tauto.
Qed.
End Shield.

Section Symmetry.
Variable parent : nat -> nat -> Prop.
Variable C : nat -> Prop.
Let det := fun _ : nat => False.

Definition flip_dir (d : dir) : dir := match d with Up => Down | Down => Up end.

Lemma open_flip : forall n i o, open parent C det n i o ->
  open parent C det n (flip_dir o) (flip_dir i).
Proof. intros n [] [] H; simpl in *; unfold det in *; tauto. Qed.

Lemma adjacent_flip : forall n o m, adjacent parent n o m -> adjacent parent m (flip_dir o) n.
Proof. intros n [] m H; exact H. Qed.

Lemma active_reverse : forall steps n i acc, active parent C det n i steps ->
  match acc with
  | [] => i = Up
  | (o, q) :: tail => o = flip_dir i /\ adjacent parent n o q /\ active parent C det q o tail
  end ->
  exists acc', active parent C det (last_node n steps) Up acc' /\
    last_node (last_node n steps) acc' = last_node n acc.
Proof.
  induction steps as [|[o m] s IH]; intros n i acc Ha HR; simpl in Ha.
  - exists acc. simpl. split; auto. destruct acc as [|[o q] tail]; simpl.
    + split; [tauto|]. intros _ H; exact H.
    + destruct HR as [-> [H1 H2]]. repeat split; auto.
      destruct Ha as [Ha _]. destruct i; simpl; unfold det; tauto.
  - destruct Ha as [Ho [Hadj Ha]].
    destruct (IH m o ((flip_dir o, n) :: acc) Ha) as [acc' [H1 H2]].
    + split; auto. split; [now apply adjacent_flip|].
      destruct acc as [|[o' q] tail]; simpl.
      * subst i. destruct o; simpl in *; unfold det; tauto.
      * destruct HR as [-> [H1 H2]]. repeat split; auto. now apply open_flip.
    + exists acc'. simpl. auto.
Qed.

Lemma d_connected_sym : forall A B, d_connected parent C det A B -> d_connected parent C det B A.
Proof.
  intros A B [b [s [H1 [H2 H3]]]].
  destruct (active_reverse s b Up [] H2 eq_refl) as [acc [H4 H5]].
  exists (last_node b s), acc. repeat split; auto. rewrite H5. exact H1.
Qed.
End Symmetry.

Lemma d_connected_ext : forall parent (C C' det det' : nat -> Prop) A B,
  (forall n, C n <-> C' n) -> (forall n, det n <-> det' n) ->
  d_connected parent C det A B -> d_connected parent C' det' A B.
Proof.
  intros parent C C' det det' A B HC Hd [b [s [H1 [H2 H3]]]].
  exists b, s. repeat split; auto. clear H1 H3. revert H2. generalize Up as i. revert b.
  induction s as [|[o m] s IH]; intros n i; simpl.
  - rewrite HC, Hd. auto.
  - intros [Ho [Ha Hs]]. repeat split; auto.
    destruct i, o; simpl in *.
    + now rewrite <- HC.
    + now rewrite <- HC, <- Hd.
    + destruct Ho as [c [H1 H2]]. exists c. split; auto. now apply HC.
    + now rewrite <- HC.
Qed.

Lemma blanket_shields : forall g coll pm pick pick' fuel x rest bl,
  single_producer g -> distinct_values g coll -> NoDup coll ->
  In x coll -> incl rest coll -> ~ In x rest ->
  get_blanket g coll pick' (enough g) (NRV x) = Some bl ->
  bb_enough coll rest <= fuel ->
  is_independent g coll pm pick fuel [x] rest bl = Some true.
Proof.
  intros g coll pm pick pick' fuel x rest bl Hsp Hd Hnd Hx Hrest Hnx Hbl Hf.
  destruct (is_independent_total g coll pm pick fuel [x] rest bl Hnd Hsp Hd Hrest Hf) as [[|] E]; auto.
  exfalso.
  pose proof (is_independent_correct _ _ _ _ _ _ _ _ _ Hsp Hd Hrest E) as [H _].
  destruct (H eq_refl) as [b [s [H1 [H2 H3]]]].
  apply get_blanket_correct in Hbl. destruct Hbl as [ps [cs [Hps [Hcs [_ Hbl]]]]].
  destruct H3 as [H3|[]].
  eapply (shielded (parent_in g coll) (fun n => pm n = true) x (fun n => In n bl)); eauto.
  - intros n Hn Hrel. apply Hbl. split; [congruence|].
    apply get_parents_correct in Hps; auto. destruct Hps as [_ Hps].
    apply get_children_correct in Hcs; auto. destruct Hcs as [_ Hcs].
    destruct Hrel as [[_ [R1 [R2 R3]]]|[[R0 R]|[c [[Rc0 Rc] [_ Rn]]]]].
    + left. apply Hps. repeat split; auto; congruence.
    + right. left. apply Hcs.
      apply parent_child_rel in R; auto. destruct R as [R1 [R2 R3]].
      repeat split; auto; congruence.
    + right. right. exists c.
      destruct (queries_terminate g coll pick' (enough g) (NRV c) (le_n _)) as [[qs Eq] _].
      exists qs. split; [|split; auto].
      * apply Hcs. apply parent_child_rel in Rc; auto. destruct Rc as [R1 [R2 R3]].
        repeat split; auto; congruence.
      * apply get_parents_correct in Eq; auto. destruct Eq as [_ Eq]. apply Eq.
        destruct Rn as [R1 [R2 R3]]. repeat split; auto; congruence.
  - congruence.
  - intros E'. discriminate.
Qed.

Lemma is_independent_symmetric : forall g coll p1 p2 f1 f2 A B C r1 r2,
  single_producer g -> distinct_values g coll -> incl A coll -> incl B coll ->
  is_independent g coll (fun _ => false) p1 f1 A B C = Some r1 ->
  is_independent g coll (fun _ => false) p2 f2 B A C = Some r2 ->
  r1 = r2.
Proof.
  intros g coll p1 p2 f1 f2 A B C r1 r2 Hsp Hd HA HB H1 H2.
  apply is_independent_correct in H1; auto. apply is_independent_correct in H2; auto.
  assert (K : forall A B,
    d_connected (parent_in g coll) (fun n => In n C) (fun _ => false = true) A B ->
    d_connected (parent_in g coll) (fun n => In n C) (fun _ => false = true) B A).
  { intros A' B' H. 
    apply (d_connected_ext _ (fun n => In n C) (fun n => In n C) (fun _ => False)); try tauto.
    { intros; split; [tauto|discriminate]. }
    apply d_connected_sym.
    apply (d_connected_ext _ (fun n => In n C) (fun n => In n C) (fun _ => false = true)); try tauto.
    intros; split; [discriminate|tauto]. }
  destruct r1, r2; auto; exfalso.
  - assert (true = false) by (apply H1; apply K; now apply H2). discriminate.
  - assert (true = false) by (apply H2; apply K; now apply H1). discriminate.
Qed.

(** ** Total-correctness forms used by the property file *)

Lemma get_parents_exact : forall g coll pick fuel x,
  single_producer g -> distinct_values g coll -> enough g <= fuel ->
  exists res, get_parents g coll pick fuel x = Some res /\ NoDup res /\
    forall r, In r res <->
      In r coll /\ NRV r <> x /\
      up g (clear g coll x) (tensor_of g x) (value g r).
Proof.
  intros g coll pick fuel x Hsp Hd Hf.
  destruct (queries_terminate g coll pick fuel x Hf) as [[res E] _].
  exists res. split; auto. eapply get_parents_correct; eauto.
Qed.

Lemma get_children_exact : forall g coll pick fuel x,
  distinct_values g coll -> enough g <= fuel ->
  exists res, get_children g coll pick fuel x = Some res /\ NoDup res /\
    forall r, In r res <->
      In r coll /\ NRV r <> x /\
      down g (clear g coll x) (tensor_of g x) (value g r).
Proof.
  intros g coll pick fuel x Hd Hf.
  destruct (queries_terminate g coll pick fuel x Hf) as [_ [[res E] _]].
  exists res. split; auto. eapply get_children_correct; eauto.
Qed.

Lemma get_ancestors_exact : forall g coll pick fuel x,
  single_producer g -> distinct_values g coll -> enough g <= fuel ->
  exists res, get_ancestors g coll pick fuel x = Some res /\ NoDup res /\
    forall r, In r res <->
      In r coll /\ NRV r <> x /\ up g anything (tensor_of g x) (value g r).
Proof.
  intros g coll pick fuel x Hsp Hd Hf.
  destruct (queries_terminate g coll pick fuel x Hf) as [_ [_ [[res E] _]]].
  exists res. split; auto. eapply get_ancestors_correct; eauto.
Qed.

Lemma get_descendants_exact : forall g coll pick fuel x,
  distinct_values g coll -> enough g <= fuel ->
  exists res, get_descendants g coll pick fuel x = Some res /\ NoDup res /\
    forall r, In r res <->
      In r coll /\ NRV r <> x /\ down g anything (tensor_of g x) (value g r).
Proof.
  intros g coll pick fuel x Hd Hf.
  destruct (queries_terminate g coll pick fuel x Hf) as [_ [_ [_ [[res E] _]]]].
  exists res. split; auto. eapply get_descendants_correct; eauto.
Qed.

Lemma get_variables_exact : forall g coll pick fuel x,
  single_producer g ->
  (forall v w, In v coll -> In w coll -> vref g v = vref g w -> v = w) ->
  enough g <= fuel ->
  exists res, get_variables g coll pick fuel x = Some res /\ NoDup res /\
    forall v, In v res <->
      In v coll /\ up g anything (tensor_of g x) (vref g v).
Proof.
  intros g coll pick fuel x Hsp Hd Hf.
  destruct (queries_terminate g coll pick fuel x Hf) as [_ [_ [_ [_ [res E]]]]].
  exists res. split; auto. eapply get_variables_correct; eauto.
Qed.

Lemma clos_trans_iff : forall (R S : nat -> nat -> Prop), (forall a b, R a b <-> S a b) ->
  forall a b, clos_trans nat R a b <-> clos_trans nat S a b.
Proof.
  intros R S H a b. split; intros Hc; induction Hc;
    first [apply t_step; now apply H | eapply t_trans; eauto].
Qed.

Lemma ancestors_closure_parents :
  forall g coll pick pick' fuel x res,
  single_producer g -> distinct_values g coll -> In x coll ->
  get_ancestors g coll pick fuel (NRV x) = Some res ->
  forall r, In r res <->
    r <> x /\
    clos_trans nat
      (fun a b => exists ps,
         get_parents g coll pick' (enough g) (NRV b) = Some ps /\ In a ps) r x.
Proof.
  intros g coll pick pick' fuel x res Hsp Hd Hx H r.
  rewrite (ancestors_closure g coll pick fuel x res Hsp Hd Hx H r).
  rewrite (clos_trans_iff (parent_rel g coll)); [reflexivity|].
  intros a b. rewrite <- (found_parents g coll pick' b a Hsp Hd).
  destruct (get_parents g coll pick' (enough g) (NRV b)) as [ps|]; simpl.
  - split; [eauto|]. intros [ps' [E Hi]]. injection E as <-. auto.
  - split; [tauto|]. intros [ps' [E Hi]]. discriminate.
Qed.

Lemma descendants_closure_children :
  forall g coll pick pick' fuel x res,
  single_producer g -> distinct_values g coll -> In x coll ->
  get_descendants g coll pick fuel (NRV x) = Some res ->
  forall r, In r res <->
    r <> x /\
    clos_trans nat
      (fun a b => exists cs,
         get_children g coll pick' (enough g) (NRV b) = Some cs /\ In a cs) r x.
Proof.
  intros g coll pick pick' fuel x res Hsp Hd Hx H r.
  rewrite (descendants_closure g coll pick fuel x res Hsp Hd Hx H r).
  rewrite (clos_trans_iff (child_rel g coll)); [reflexivity|].
  intros a b.
  destruct (get_children_exact g coll pick' (enough g) (NRV b) Hd (le_n _)) as [cs [E [_ Hc]]].
  unfold child_rel. split.
  - intros [H1 [H2 H3]]. exists cs. split; auto. apply Hc. repeat split; auto; congruence.
  - intros [cs' [E' Hi]]. rewrite E in E'. injection E' as <-. apply Hc in Hi.
    destruct Hi as [H1 [H2 H3]]. repeat split; auto; congruence.
Qed.

Lemma get_blanket_exact : forall g coll pick fuel x,
  single_producer g -> distinct_values g coll -> In x coll ->
  enough g <= fuel ->
  exists res, get_blanket g coll pick fuel (NRV x) = Some res /\ NoDup res /\
    forall r, In r res <->
      r <> x /\
      (parent_rel g coll r x \/ child_rel g coll r x \/
       exists c, child_rel g coll c x /\ parent_rel g coll r c).
Proof.
  intros g coll pick fuel x Hsp Hd Hx Hf.
  destruct (blanket_siblings_total g coll pick fuel (NRV x) Hf) as [[res E] _].
  exists res. split; auto. pose proof E as E'.
  apply get_blanket_correct in E'. destruct E' as [ps [cs [Hp [Hc [Hn Hb]]]]].
  split; auto. intros r. rewrite Hb.
  apply get_parents_correct in Hp; auto. apply get_children_correct in Hc; auto.
  destruct Hp as [_ Hp]. destruct Hc as [_ Hc].
  unfold parent_rel, child_rel. simpl in *. split.
  - intros [Hr [H|[H|[c [qs [H1 [H2 H3]]]]]]]; (split; [congruence|]).
    + left. apply Hp in H. destruct H as [? [? ?]]. repeat split; auto; congruence.
    + right; left. apply Hc in H. destruct H as [? [? ?]]. repeat split; auto; congruence.
    + right; right. exists c. apply Hc in H1. apply get_parents_correct in H2; auto.
      destruct H2 as [_ H2]. apply H2 in H3. simpl in H3.
      destruct H1 as [? [? ?]], H3 as [? [? ?]]. repeat split; auto; congruence.
  - intros [Hr H]. split; [congruence|].
    destruct H as [[H1 [H2 H3]]|[[H1 [H2 H3]]|[c [[H1 [H2 H3]] [H4 [H5 H6]]]]]].
    + left. apply Hp. repeat split; auto; congruence.
    + right; left. apply Hc. repeat split; auto; congruence.
    + right; right. destruct (get_parents_exact g coll pick fuel (NRV c) Hsp Hd Hf) as [qs [E1 [_ E2]]].
      exists c, qs. split; [|split; auto].
      * apply Hc. repeat split; auto; congruence.
      * apply E2. repeat split; auto; congruence.
Qed.

Lemma get_siblings_exact : forall g coll pick fuel x,
  single_producer g -> distinct_values g coll -> In x coll ->
  enough g <= fuel ->
  exists res, get_siblings g coll pick fuel (NRV x) = Some res /\ NoDup res /\
    forall r, In r res <->
      r <> x /\ exists p, parent_rel g coll p x /\ child_rel g coll r p.
Proof.
  intros g coll pick fuel x Hsp Hd Hx Hf.
  destruct (blanket_siblings_total g coll pick fuel (NRV x) Hf) as [_ [res E]].
  exists res. split; auto. pose proof E as E'.
  apply get_siblings_correct in E'. destruct E' as [ps [Hp [Hn Hb]]].
  split; auto. intros r. rewrite Hb.
  apply get_parents_correct in Hp; auto. destruct Hp as [_ Hp].
  unfold parent_rel, child_rel. simpl in *. split.
  - intros [Hr [p [cs [H1 [H2 H3]]]]]. split; [congruence|]. exists p.
    apply Hp in H1. apply get_children_correct in H2; auto. destruct H2 as [_ H2].
    apply H2 in H3. simpl in H3.
    destruct H1 as [? [? ?]], H3 as [? [? ?]]. repeat split; auto; congruence.
  - intros [Hr [p [[H1 [H2 H3]] [H4 [H5 H6]]]]]. split; [congruence|].
    destruct (get_children_exact g coll pick fuel (NRV p) Hd Hf) as [cs [E1 [_ E2]]].
    exists p, cs. split; [|split; auto].
    + apply Hp. repeat split; auto; congruence.
    + apply E2. repeat split; auto; congruence.
Qed.

Lemma is_independent_exact : forall g coll pm pick fuel A B C,
  NoDup coll -> single_producer g -> distinct_values g coll ->
  incl B coll -> bb_enough coll B <= fuel ->
  exists res, is_independent g coll pm pick fuel A B C = Some res /\
    (res = false <->
     d_connected (parent_in g coll) (fun n => In n C)
       (fun n => pm n = true) A B).
Proof.
  intros g coll pm pick fuel A B C Hnd Hsp Hd HB Hf.
  destruct (is_independent_total g coll pm pick fuel A B C Hnd Hsp Hd HB Hf) as [res E].
  exists res. split; auto. eapply is_independent_correct; eauto.
Qed.
