(** * Proofs for C76: orders of a session run. *)
From Coq Require Import List Arith Bool Lia FunctionalExtensionality.
From Verif Require Import Schedule ScheduleSpec.
Import ListNotations.

Section P.
Context {I V : Type}.
Variable I_eq : forall i j : I, {i = j} + {i <> j}.
Variable g : sgraph I V.
Notation fire := (fire I_eq g).
Notation run := (run I_eq g).

Lemma inputs_done : forall (s : sstate I V) l, (exists vs, inputs s l = Some vs) <-> (forall j, In j l -> s_out s j <> None).
Proof.
  intros s l. induction l as [|i l IH]; simpl.
  - split; [intros _ j []|eauto].
  - split.
    + intros (vs & E). destruct (s_out s i) as [o|] eqn:Eo; [|discriminate]. destruct (inputs s l) as [ws|] eqn:El; [|discriminate].
      intros j [<-|Hj]; [congruence|]. apply IH; eauto.
    + intros H. destruct (s_out s i) as [o|] eqn:Eo; [|exfalso; apply (H i); auto]. destruct IH as [_ IH].
      destruct IH as (vs & E); [intros j Hj; apply H; auto|]. rewrite E. eauto.
Qed.

Lemma inputs_same : forall (s s' : sstate I V) l,
  (forall j o, In j l -> s_out s j = Some o -> s_out s' j = Some o /\ forall x, o = Ref x -> s_mem s' x = s_mem s x) ->
  (forall j, In j l -> s_out s j <> None) -> inputs s' l = inputs s l.
Proof.
  intros s s' l. induction l as [|i l IH]; intros H D; simpl; auto.
  destruct (s_out s i) as [o|] eqn:Eo; [|exfalso; apply (D i); simpl; auto].
  destruct (H i o (or_introl eq_refl) Eo) as [E M]. rewrite E, IH.
  - destruct (inputs s l); auto. do 2 f_equal. destruct o; simpl; auto.
  - intros j o' Hj. apply H. simpl; auto.
  - intros j Hj. apply D. simpl; auto.
Qed.

(** What firing does. *)
Definition out_of (n : node I V) (vs : list V) : out V :=
  match n_kind n with Pure f => Val (f vs) | Var x => Ref x | Write x _ => Ref x end.
Definition mem_of (n : node I V) (vs : list V) (m : nat -> V) : nat -> V :=
  match n_kind n with Write x f => fun y => if Nat.eqb y x then f (m x) vs else m y | _ => m end.

Lemma fire_inv : forall s i s', fire s i = Some s' -> exists n vs, g i = Some n /\ s_out s i = None /\ inputs s (n_in n) = Some vs /\
  (forall j, In j (n_in n ++ n_after n) -> s_out s j <> None) /\
  s' = mks (fun j => if I_eq j i then Some (out_of n vs) else s_out s j) (mem_of n vs (s_mem s)).
Proof.
  intros s i s' H. unfold Schedule.fire in H. destruct (g i) as [n|] eqn:Eg; [|discriminate]. destruct (s_out s i) eqn:Eo; [discriminate|].
  destruct (inputs s (n_in n)) as [vs|] eqn:Ei; [|discriminate]. destruct (inputs s (n_after n)) as [ws|] eqn:Ea; [|discriminate].
  exists n, vs. split; auto. split; auto. split; auto. split.
  - intros j Hj. apply in_app_or in Hj. destruct Hj as [Hj|Hj]; revert j Hj; apply inputs_done; eauto.
  - injection H as <-. unfold out_of, mem_of. destruct (n_kind n); reflexivity.
Qed.
Lemma fire_intro : forall s i n vs, g i = Some n -> s_out s i = None -> inputs s (n_in n) = Some vs ->
  (forall j, In j (n_in n ++ n_after n) -> s_out s j <> None) ->
  fire s i = Some (mks (fun j => if I_eq j i then Some (out_of n vs) else s_out s j) (mem_of n vs (s_mem s))).
Proof.
  intros s i n vs Eg Eo Ei H. unfold Schedule.fire. rewrite Eg, Eo, Ei.
  destruct (inputs_done s (n_after n)) as [_ X]. destruct X as (ws & E); [intros j Hj; apply H, in_or_app; auto|]. rewrite E.
  unfold out_of, mem_of. destruct (n_kind n); reflexivity.
Qed.

(** What holds of every state of a run. *)
Definition sound (s : sstate I V) : Prop :=
  (forall j i, s_out s j <> None -> feeds g i j -> s_out s i <> None) /\ (forall i x, s_out s i = Some (Ref x) -> returns g i x) /\ (forall i, s_out s i <> None -> g i <> None).

Lemma start_sound : forall m, sound (start m).
Proof. intros m. split; [|split]; simpl; congruence. Qed.

Lemma fire_sound : forall s i s', sound s -> fire s i = Some s' -> sound s'.
Proof.
  intros s i s' (C & T & G) H. destruct (fire_inv s i s' H) as (n & vs & Eg & Eo & Ei & D & ->). split; [|split]; simpl.
  - intros j k Hj Hf. destruct (I_eq k i); [discriminate|]. destruct (I_eq j i) as [->|Hne].
    + destruct Hf as (n' & E' & Hk). rewrite Eg in E'. injection E' as <-. auto.
    + eauto.
  - intros j x. destruct (I_eq j i) as [->|Hne]; [|auto]. intros E. exists n. split; auto. unfold out_of in E. destruct (n_kind n); try discriminate.
    + injection E as ->. auto.
    + injection E as ->. right. eauto.
  - intros j. destruct (I_eq j i) as [->|Hne]; [congruence|auto].
Qed.

Lemma run_sound : forall l s s', sound s -> run s l = Some s' -> sound s'.
Proof.
  induction l as [|i l IH]; intros s s' H R; simpl in R; [injection R as <-; auto|].
  destruct (fire s i) as [t|] eqn:E; [|discriminate]. eapply IH; [|exact R]. eapply fire_sound; eauto.
Qed.

Lemma before_done : forall i j s, sound s -> before g i j -> s_out s j <> None -> s_out s i <> None.
Proof. intros i j s (C & T & G) B. induction B as [i j F|i j k B IH F]; eauto. Qed.
Lemma before_ready : forall i j s n, sound s -> before g i j -> g j = Some n -> (forall k, In k (n_in n ++ n_after n) -> s_out s k <> None) -> s_out s i <> None.
Proof.
  intros i j s n So B E H. inversion B as [a b (n' & E' & Hi)|a b c B' (n' & E' & Hi)]; subst; rewrite E in E'; injection E' as <-; auto.
  eapply before_done; eauto.
Qed.

(** ** Confluence *)
Section Confluence.
Hypothesis RF : race_free g.

(** [j] does not see that [i] ran. *)
Lemma unseen : forall s i j ni nj vs, sound s -> i <> j -> g i = Some ni -> g j = Some nj -> s_out s i = None -> s_out s j = None ->
  (forall k, In k (n_in ni ++ n_after ni) -> s_out s k <> None) -> (forall k, In k (n_in nj ++ n_after nj) -> s_out s k <> None) ->
  inputs (mks (fun k => if I_eq k i then Some (out_of ni vs) else s_out s k) (mem_of ni vs (s_mem s))) (n_in nj) = inputs s (n_in nj).
Proof.
  intros s i j ni nj vs So Hne Ei Ej Oi Oj Di Dj. apply inputs_same.
  - intros k o Hk Ok. simpl. destruct (I_eq k i) as [->|Hki]; [congruence|]. split; auto. intros x ->.
    unfold mem_of. destruct (n_kind ni) as [f|y|y f] eqn:Ek; auto. destruct (Nat.eqb_spec x y) as [->|]; auto. exfalso.
    destruct (RF i j y Hne) as [B|B].
    + exists ni, f. auto.
    + left. exists nj, k. split; auto. split; auto. destruct So as (_ & T & _). auto.
    + apply (before_ready i j s nj So B Ej Dj). exact Oi.
    + apply (before_ready j i s ni So B Ei Di). exact Oj.
  - intros k Hk. apply Dj, in_or_app. auto.
Qed.

Lemma diamond : forall s i j si sj, sound s -> i <> j -> fire s i = Some si -> fire s j = Some sj -> exists t, fire si j = Some t /\ fire sj i = Some t.
Proof.
  intros s i j si sj So Hne Fi Fj.
  destruct (fire_inv s i si Fi) as (ni & vi & Ei & Oi & Ii & Di & ->). destruct (fire_inv s j sj Fj) as (nj & vj & Ej & Oj & Ij & Dj & ->).
  assert (Uj := unseen s i j ni nj vi So Hne Ei Ej Oi Oj Di Dj).
  assert (Ui := unseen s j i nj ni vj So (fun e => Hne (eq_sym e)) Ej Ei Oj Oi Dj Di).
  eexists. split.
  - apply (fire_intro _ j nj vj Ej).
    + simpl. destruct (I_eq j i); [congruence|auto].
    + rewrite Uj. exact Ij.
    + intros k Hk. simpl. destruct (I_eq k i); [discriminate|auto].
  - rewrite (fire_intro _ i ni vi Ei).
    + f_equal. simpl. f_equal.
      * extensionality k. destruct (I_eq k i), (I_eq k j); congruence.
      * extensionality y. unfold mem_of. destruct (n_kind ni) as [fi|xi|xi fi] eqn:Ki, (n_kind nj) as [fj|xj|xj fj] eqn:Kj; auto.
        assert (Hx : xi <> xj).
        { intros ->. destruct (RF i j xj Hne) as [B|B].
          - exists ni, fi. auto.
          - right. exists nj, fj. auto.
          - apply (before_ready i j s nj So B Ej Dj). exact Oi.
          - apply (before_ready j i s ni So B Ei Di). exact Oj. }
        destruct (Nat.eqb_spec y xi), (Nat.eqb_spec y xj); subst; try congruence; auto.
        -- destruct (Nat.eqb_spec xi xj); congruence.
        -- destruct (Nat.eqb_spec xj xi); congruence.
    + simpl. destruct (I_eq i j); [congruence|auto].
    + rewrite Ui. exact Ii.
    + intros k Hk. simpl. destruct (I_eq k j); [discriminate|auto].
Qed.

(** An operation that is ready may as well run first. *)
Lemma first : forall l s s' j sj, sound s -> run s l = Some s' -> complete g s' -> fire s j = Some sj ->
  exists l', run sj l' = Some s' /\ length l = S (length l').
Proof.
  induction l as [|i l IH]; intros s s' j sj So R Co Fj; simpl in R.
  - injection R as <-. destruct (fire_inv s j sj Fj) as (n & vs & E & O & _). exfalso. apply (Co j); congruence.
  - destruct (fire s i) as [si|] eqn:Fi; [|discriminate]. destruct (I_eq i j) as [->|Hne].
    + rewrite Fi in Fj. injection Fj as <-. exists l. auto.
    + destruct (diamond s i j si sj So Hne Fi Fj) as (t & A & B).
      destruct (IH si s' j t (fire_sound _ _ _ So Fi) R Co A) as (l' & Rl & El). exists (i :: l'). simpl. rewrite B. auto.
Qed.

Lemma determined : forall l1 l2 s s1 s2, sound s -> run s l1 = Some s1 -> complete g s1 -> run s l2 = Some s2 -> complete g s2 -> s1 = s2.
Proof.
  intros l1. remember (length l1) as n eqn:En. revert l1 En. induction n as [|n IH]; intros l1 En l2 s s1 s2 So R1 C1 R2 C2.
  - destruct l1; [|discriminate]. injection R1 as <-. destruct l2 as [|j l2]; [injection R2 as <-; auto|].
    simpl in R2. destruct (fire s j) as [sj|] eqn:Fj; [|discriminate]. destruct (fire_inv s j sj Fj) as (nn & vs & E & O & _). exfalso. apply (C1 j); congruence.
  - destruct l2 as [|j l2].
    + injection R2 as <-. destruct l1 as [|i l1]; [discriminate|]. simpl in R1. destruct (fire s i) as [si|] eqn:Fi; [|discriminate].
      destruct (fire_inv s i si Fi) as (nn & vs & E & O & _). exfalso. apply (C2 i); congruence.
    + simpl in R2. destruct (fire s j) as [sj|] eqn:Fj; [|discriminate].
      destruct (first l1 s s1 j sj So R1 C1 Fj) as (l' & Rl & El). apply (IH l') with (l2 := l2) (s := sj); auto; [congruence|].
      eapply fire_sound; eauto.
Qed.
End Confluence.

(** ** Reads first *)
Scheme snapshot_mut := Induction for snapshot Sort Prop with snapshots_mut := Induction for snapshots Sort Prop.

Lemma snapshot_det : forall m i v, snapshot g m i v -> forall w, snapshot g m i w -> v = w.
Proof.
  intros m. apply (snapshot_mut I V g m (fun i v _ => forall w, snapshot g m i w -> v = w) (fun l vs _ => forall ws, snapshots g m l ws -> vs = ws)).
  - intros i x l a E w H. inversion H; congruence.
  - intros i f l a vs E H IH w H'. inversion H' as [i' x l' a' E' e1 e2|i' f' l' a' vs' E' S' e1 e2]; subst; [congruence|].
    rewrite E in E'. injection E' as <- <- <-. f_equal. auto.
  - intros ws H. inversion H; auto.
  - intros i v l vs H IH H' IH' ws Hw. inversion Hw; subst. f_equal; auto.
Qed.

Lemma snapshots_det : forall m l vs, snapshots g m l vs -> forall ws, snapshots g m l ws -> vs = ws.
Proof.
  intros m l vs H. induction H as [|i v l vs Hv H IH]; intros ws Hw; inversion Hw; subst; auto. f_equal; auto. eapply snapshot_det; eauto.
Qed.

Section Reads.
Variable D : I -> Prop.
Hypothesis RF : read_first g D.
Variable m : nat -> V.

Definition settled (s : sstate I V) : Prop :=
  (forall i n o, ~ D i -> g i = Some n -> s_out s i = Some o ->
     match n_kind n with Pure _ => exists v, o = Val v /\ snapshot g m i v | Var x => o = Ref x | Write x _ => o = Ref x end) /\
  (forall i n x f, ~ D i -> g i = Some n -> n_kind n = Write x f -> s_out s i <> None -> exists vs, snapshots g m (n_in n) vs /\ s_mem s x = f (m x) vs) /\
  (forall x, (forall i, writes g i x -> s_out s i = None) -> s_mem s x = m x).

Lemma settled_start : settled (start m).
Proof. split; [|split]; simpl; congruence. Qed.

(** The inputs of what runs next are as in the snapshot. *)
Lemma settled_inputs : forall s i n, sound s -> settled s -> ~ D i -> g i = Some n -> s_out s i = None ->
  forall l, incl l (n_in n) -> forall vs, inputs s l = Some vs -> snapshots g m l vs.
Proof.
  intros s i n So (A & B & C) Hd Eg Eo. destruct RF as (R1 & R2 & R3 & R4).
  induction l as [|k l IH]; intros Hl vs H; simpl in H; [injection H as <-; constructor|].
  destruct (s_out s k) as [o|] eqn:Ek; [|discriminate]. destruct (inputs s l) as [ws|] eqn:El; [|discriminate]. injection H as <-.
  constructor; [|apply IH; auto; intros y Hy; apply Hl; simpl; auto].
  assert (Hk : In k (n_in n)) by (apply Hl; simpl; auto).
  assert (Hf : feeds g k i) by (exists n; split; auto; apply in_or_app; auto).
  assert (Hdk : ~ D k) by (intros X; apply Hd; eapply R4; eauto).
  destruct (g k) as [[kk lk ak]|] eqn:Egk.
  2:{ exfalso. destruct So as (_ & _ & G). apply (G k); congruence. }
  pose proof (A k _ o Hdk Egk Ek) as Ak. simpl in Ak. destruct kk as [f|x|x f].
  - destruct Ak as (v & -> & Sv). exact Sv.
  - subst o. simpl. rewrite (C x); [econstructor; exact Egk|]. intros w Hw. destruct (I_eq w i) as [->|Hne]; auto.
    destruct (s_out s w) eqn:Ew; auto. exfalso.
    assert (Bf : before g i w). { apply (R2 w i x Hw); auto. exists n, k. split; auto. split; auto. exists (mknode (Var x) lk ak). split; auto. }
    apply (before_done i w s So Bf); [congruence|auto].
  - exfalso. apply (R3 k i x) with (n := n); auto. exists (mknode (Write x f) lk ak), f. auto.
Qed.

Lemma settled_fire : forall s i s', sound s -> settled s -> fire s i = Some s' -> settled s'.
Proof.
  intros s i s' So St F. destruct (fire_inv s i s' F) as (n & vs & Eg & Eo & Ei & Dn & ->).
  pose proof RF as (R1 & R2 & R3 & R4).
  assert (Sn : ~ D i -> snapshots g m (n_in n) vs) by (intros Hd; eapply settled_inputs; eauto; apply incl_refl).
  pose proof St as (A & B & C). split; [|split]; simpl.
  - intros j nj o Hd Ej. destruct (I_eq j i) as [->|Hne]; [|exact (A j nj o Hd Ej)]. rewrite Eg in Ej. injection Ej as <-. intros [= <-].
    unfold out_of. destruct n as [k l a]. simpl in *. destruct k as [f|x|x f]; auto. eexists. split; eauto. eapply snap_pure; eauto.
  - intros j nj x f Hdj Ej Kj Oj.
    assert (Wj : writes g j x) by (exists nj, f; auto). destruct (I_eq j i) as [->|Hne].
    + rewrite Eg in Ej. injection Ej as <-. exists vs. split; [apply Sn; exact Hdj|].
      unfold mem_of. rewrite Kj, Nat.eqb_refl. f_equal. apply C. intros w Hw. rewrite (R1 w i x Hw Wj). auto.
    + destruct (B j nj x f Hdj Ej Kj Oj) as (ws & Hw & E). exists ws. split; auto. rewrite <- E. unfold mem_of.
      destruct (n_kind n) as [f'|y|y f'] eqn:Kn; auto. destruct (Nat.eqb_spec x y) as [->|]; auto. exfalso. apply Hne.
      apply (R1 j i y Wj). exists n, f'. auto.
  - intros x Hx. transitivity (s_mem s x).
    + unfold mem_of. destruct (n_kind n) as [f'|y|y f'] eqn:Kn; auto. destruct (Nat.eqb_spec x y) as [->|]; auto. exfalso.
      assert (X : writes g i y) by (exists n, f'; auto). specialize (Hx i X). destruct (I_eq i i); congruence.
    + apply C. intros w Hw. specialize (Hx w Hw). destruct (I_eq w i); congruence.
Qed.

Lemma settled_run : forall l s s', sound s -> settled s -> run s l = Some s' -> settled s'.
Proof.
  induction l as [|i l IH]; intros s s' So St R; simpl in R; [injection R as <-; auto|].
  destruct (fire s i) as [t|] eqn:E; [|discriminate]. eapply IH; [| |exact R]; [eapply fire_sound|eapply settled_fire]; eauto.
Qed.

Theorem reads_first : forall l s, run (start m) l = Some s -> complete g s ->
  (forall i f l a, ~ D i -> g i = Some (mknode (Pure f) l a) -> exists v, s_out s i = Some (Val v) /\ snapshot g m i v) /\
  (forall i x f l a, ~ D i -> g i = Some (mknode (Write x f) l a) -> exists vs, snapshots g m l vs /\ s_mem s x = f (m x) vs) /\
  (forall x, (forall i, ~ writes g i x) -> s_mem s x = m x).
Proof.
  intros l s R Co. destruct (settled_run l (start m) s (start_sound m) settled_start R) as (A & B & C). split; [|split].
  - intros i f li a Hd E. destruct (s_out s i) as [o|] eqn:Eo; [|exfalso; apply (Co i); congruence].
    destruct (A i _ o Hd E Eo) as (v & -> & Sv). eauto.
  - intros i x f li a Hd E. apply (B i _ x f Hd E eq_refl). apply Co. congruence.
  - intros x H. apply C. intros i Hi. exfalso. apply (H i Hi).
Qed.
End Reads.
End P.
