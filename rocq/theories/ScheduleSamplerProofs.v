(** * Proofs for C76: the graphs of the samplers and of optimization. *)
From Coq Require Import List Arith Bool Lia.
From Verif Require Import Schedule ScheduleSpec ScheduleProofs.
Import ListNotations.

Definition sop_eq : forall a b : sop, {a = b} + {a <> b}.
Proof. decide equality; apply Nat.eq_dec. Defined.
Definition vop_eq : forall a b : vop, {a = b} + {a <> b}.
Proof. decide equality; apply Nat.eq_dec. Defined.

Lemma existsb_in : forall z zs, existsb (Nat.eqb z) zs = true <-> In z zs.
Proof.
  intros. rewrite existsb_exists. split.
  - intros (y & H & E). apply Nat.eqb_eq in E. subst. auto.
  - intros H. exists z. rewrite Nat.eqb_refl. auto.
Qed.

(** With nothing set aside, reads come first means no races. *)
Lemma read_first_race_free : forall I V (g : sgraph I V), read_first g (fun _ => False) -> race_free g.
Proof.
  intros I V g (R1 & R2 & R3 & R4) i j x Hne W [U|W'].
  - right. apply (R2 i j x); auto.
  - exfalso. apply Hne. apply (R1 i j x); auto.
Qed.

Section Sampler.
Context {V : Type}.
Variable p : sampler V.
Variable st : style.
Variable zs : list nat.
Variable rate : bool.
Hypothesis B : plain_body p zs.
Notation g := (sampler_graph p st rate false zs).

Ltac cases := repeat match goal with
  | H : (if existsb (Nat.eqb ?z) zs then _ else _) = _ |- _ => destruct (existsb (Nat.eqb z) zs) eqn:?; try discriminate
  | H : (if rate then _ else _) = _ |- _ => destruct rate eqn:?; try discriminate
  | H : Some _ = Some _ |- _ => injection H as <-; simpl in *
  end.

Lemma sampler_writes : forall i x, writes g i x ->
  (exists z, i = OpScatter z /\ x = v_params z /\ In z zs) \/ (i = OpAccept /\ x = v_accept) \/
  (exists z, i = OpAssignVelocity z /\ x = v_velocity z /\ In z zs /\ st = Velocities).
Proof.
  intros i x (n & f & E & K). destruct i; simpl in E; destruct st eqn:Est; simpl in E; cases; try discriminate;
  try (injection K as <- <-; first [left; eexists; split; [reflexivity|]; split; [reflexivity|]; apply existsb_in; auto | right; left; split; reflexivity
    | right; right; eexists; split; [reflexivity|]; split; [reflexivity|]; split; [apply existsb_in; auto|auto]]; fail).
  all: destruct B as [H _]; destruct (H _ _ E) as [(f' & K' & _)|(y & K' & _)]; congruence.
Qed.

Lemma v_params_inj : forall a b, v_params a = v_params b -> a = b. Proof. unfold v_params. lia. Qed.
Lemma v_velocity_inj : forall a b, v_velocity a = v_velocity b -> a = b. Proof. unfold v_velocity. lia. Qed.
Lemma v_apart : forall a b, v_params a <> v_velocity b /\ v_params a <> v_accept /\ v_velocity a <> v_accept /\ v_params a <> v_t /\ v_velocity a <> v_t /\ v_accept <> v_t.
Proof. unfold v_params, v_velocity, v_accept, v_t. intros. repeat split; lia. Qed.

(** What an operation may take. *)
Lemma sampler_in : (st = Velocities -> forall z, plain_in (sp_new_velocity_in p z)) ->
  forall n j k, g j = Some n -> In k (n_in n ++ n_after n) ->
  match k with
  | OpT | OpBody _ | OpRow => True
  | OpParams z => j = OpGather z
  | OpGather z => True
  | OpN => j = OpRate /\ rate = true
  | OpSample z => j = OpScatter z
  | OpScatter z => j = OpTrain /\ ~ In k (n_in n)
  | OpVelocity z => st = Velocities /\ (j = OpSample z \/ j = OpNewVelocity z)
  | OpNewVelocity z => st = Velocities /\ j = OpAssignVelocity z
  | OpAssignVelocity z => j = OpTrain /\ ~ In k (n_in n)
  | OpAccept => j = OpTrain /\ ~ In k (n_in n)
  | OpRate | OpTrain | OpIncrement => False
  end.
Proof.
  intros HV n j k E Hk. destruct B as (B1 & B2 & B3).
  assert (PL : forall l, plain_in l -> In k l -> match k with OpT | OpBody _ | OpGather _ => True | _ => False end).
  { intros l Hl Hi. destruct (Hl k Hi) as [(z & ->)|[(b & ->)| ->]]; auto. }
  assert (FIN : forall l, plain_in l -> In k l -> match k with OpT | OpBody _ | OpGather _ | OpRow => True | _ => False end).
  { intros l Hl Hi. specialize (PL l Hl Hi). destruct k; auto. }
  destruct j; simpl in E.
  Ltac done0 := match goal with H : _ \/ _ |- _ => destruct H | H : False |- _ => destruct H | H : ?a = ?k |- _ => is_var k; subst k; simpl; auto end.
  all: try (destruct st eqn:Est; simpl in E; cases; try discriminate; rewrite ?app_nil_r in Hk; simpl in Hk; repeat done0; auto; fail).
  - (* body *) destruct (B1 _ _ E) as [(f & K & P1 & P2)|(x & K & P1 & P2 & _)].
    + apply in_app_or in Hk. destruct Hk as [Hk|Hk]; [specialize (PL _ P1 Hk)|specialize (PL _ P2 Hk)]; destruct k; tauto.
    + rewrite P1, P2 in Hk. destruct Hk.
  - (* sample *) destruct st eqn:Est; cases; rewrite ?app_nil_r in Hk.
    + destruct Hk as [<-|Hk]; auto. specialize (PL _ (B2 _) Hk). destruct k; tauto.
    + specialize (PL _ (B2 _) Hk). destruct k; tauto.
    + simpl in Hk. destruct Hk as [<-|[<-|[]]]; auto.
  - (* new velocity *) destruct st eqn:Est; simpl in E; try discriminate; cases. rewrite ?app_nil_r in Hk.
    destruct Hk as [<-|Hk]; auto. specialize (PL _ (HV eq_refl _) Hk). destruct k; tauto.
  - (* accept *) cases. rewrite ?app_nil_r in Hk. specialize (PL _ B3 Hk). destruct k; tauto.
  - (* train *) injection E as <-. simpl in Hk. destruct Hk as [<-|Hk]; [auto|]. apply in_app_or in Hk.
    destruct Hk as [Hk|Hk]; [|destruct st; simpl in Hk; try destruct Hk]; apply in_map_iff in Hk; destruct Hk as (z & <- & _); auto.
Qed.

(** What may be left undetermined: the rate; with velocities, the samples. *)
Definition aside (o : sop) : Prop :=
  match o with
  | OpRate => True
  | OpSample _ | OpScatter _ | OpTrain => st = Velocities
  | _ => False
  end.

Lemma sampler_returns : forall i x, returns g i x ->
  match i with
  | OpT => x = v_t | OpN | OpAccept => x = v_accept
  | OpParams z | OpScatter z => x = v_params z /\ In z zs
  | OpVelocity z | OpAssignVelocity z => x = v_velocity z /\ In z zs
  | OpBody _ => x <> v_t /\ x <> v_accept /\ forall z, In z zs -> x <> v_params z /\ x <> v_velocity z
  | _ => False
  end.
Proof.
  intros i x (n & E & K). destruct i; simpl in E; try (destruct st eqn:Est; simpl in E; cases;
    destruct K as [K|(f & K)]; try discriminate; injection K as <-; auto; split; auto; apply existsb_in; auto; fail).
  destruct B as [H _]. destruct (H _ _ E) as [(f' & K' & _)|(y & K' & _ & _ & H1)].
  - destruct K as [K|(f & K)]; congruence.
  - destruct K as [K|(f & K)]; rewrite K' in K; [injection K as <-; auto|discriminate].
Qed.

Lemma feeds_scatter : forall z, In z zs -> st <> Feeds -> before g (OpGather z) (OpSample z) /\ before g (OpSample z) (OpScatter z).
Proof.
  intros z Hz Hs. apply existsb_in in Hz. split; apply before_one.
  - unfold feeds. simpl. rewrite Hz. eexists. split; [reflexivity|]. simpl. destruct st; simpl; auto; congruence.
  - unfold feeds. simpl. rewrite Hz. eexists. split; [reflexivity|]. simpl. auto.
Qed.

Lemma sampler_read_first : (st = Velocities -> forall z, plain_in (sp_new_velocity_in p z)) -> read_first g aside.
Proof.
  intros HV. split; [|split; [|split]].
  - intros i j x Wi Wj. pose proof v_apart as AP.
    destruct (sampler_writes i x Wi) as [(z & -> & -> & _)|[(-> & ->)|(z & -> & -> & _)]];
    destruct (sampler_writes j _ Wj) as [(y & -> & E & _)|[(-> & E)|(y & -> & E & _)]]; auto;
    try (apply v_params_inj in E; congruence); try (apply v_velocity_inj in E; congruence); exfalso;
    repeat match goal with a : nat |- _ => pose proof (AP a a); clear a end; destruct (AP 0 0); unfold v_params, v_velocity, v_accept, v_t in *; lia.
  - intros i j x W (n & k & Ej & Hk & Rk) Hne Hd.
    pose proof (sampler_in HV n j k Ej (in_or_app _ _ _ (or_introl Hk))) as IN. pose proof (sampler_returns k x Rk) as RK.
    destruct (sampler_writes i x W) as [(z & -> & -> & Hz)|[(-> & ->)|(z & -> & -> & Hz & HS)]]; destruct k; simpl in RK; try tauto.
    all: try (exfalso; unfold v_params, v_velocity, v_accept, v_t in RK; lia).
    all: try (exfalso; apply proj1 in RK; unfold v_params, v_velocity, v_accept, v_t in RK; lia).
    all: try (exfalso; destruct RK as (_ & RK & RK'); first [congruence | destruct (RK' _ Hz); congruence]).
    + (* gather *) destruct RK as [RK _]. apply v_params_inj in RK. subst z0 j.
      destruct (feeds_scatter z Hz) as [F1 F2]. { intros ->. simpl in Ej. discriminate. }
      eapply before_more; [exact F1|]. inversion F2 as [a b F|a b c F F']; subst; auto.
      unfold feeds. simpl. apply existsb_in in Hz. rewrite Hz. eexists. split; [reflexivity|]. simpl. auto.
    + (* rate *) destruct IN as [-> _]. exfalso. apply Hd. simpl. auto.
    + (* velocity *) destruct RK as [RK _]. apply v_velocity_inj in RK. subst z0. destruct IN as [_ [->| ->]].
      * exfalso. apply Hd. simpl. auto.
      * apply before_one. unfold feeds. simpl. rewrite HS. simpl. apply existsb_in in Hz. rewrite Hz. eexists. split; [reflexivity|]. simpl. auto.
  - intros i j x W n Ej Hd Hi. pose proof (sampler_in HV n j i Ej (in_or_app _ _ _ (or_introl Hi))) as IN.
    destruct (sampler_writes i x W) as [(z & -> & -> & Hz)|[(-> & ->)|(z & -> & -> & Hz & HS)]]; destruct IN; auto.
  - intros i j (n & Ej & Hi) Hd. pose proof (sampler_in HV n j i Ej Hi) as IN. destruct i; simpl in Hd; try tauto; simpl in IN.
    + subst j. exact Hd.
    + destruct IN as [-> _]. exact Hd.
Qed.
End Sampler.

Section Any.
Context {V : Type}.
Variable p : sampler V.

Theorem sampler_any_order : forall st rate zs m l s, st <> Velocities -> plain_body p zs ->
  let g := sampler_graph p st rate false zs in
  run sop_eq g (start m) l = Some s -> complete g s ->
  (forall z, In z zs -> exists v, snapshot g m (OpSample z) v /\ s_mem s (v_params z) = sp_scatter p (m (v_params z)) [m v_t; v]) /\
  (exists vs, snapshots g m (sp_accept_in p) vs /\ s_mem s v_accept = sp_add p (m v_accept) vs) /\
  (forall x, x <> v_accept -> (forall z, In z zs -> x <> v_params z) -> s_mem s x = m x).
Proof.
  intros st rate zs m l s Hst HB g R C.
  assert (RF : read_first g (aside st)) by (apply sampler_read_first; auto; congruence).
  destruct (reads_first sop_eq g (aside st) RF m l s R C) as (_ & W & U). split; [|split].
  - intros z Hz. apply existsb_in in Hz. edestruct (W (OpScatter z)) as (vs & Sv & E).
    + simpl. intros X. exact (Hst X).
    + unfold g. simpl. rewrite Hz. reflexivity.
    + inversion Sv as [|i v l' vs' S1 S2]; subst. inversion S2 as [|i v' l' vs'' S3 S4]; subst. inversion S4; subst.
      exists v'. split; auto. rewrite E. do 2 f_equal. inversion S1 as [i x li a Ei|i f li a vs Ei]; subst; unfold g in Ei; simpl in Ei; [injection Ei as <- _ _; auto|discriminate].
  - edestruct (W OpAccept) as (vs & Sv & E); [simpl; auto|reflexivity|]. eauto.
  - intros x H1 H2. apply U. intros i Wi. destruct (sampler_writes p st zs rate HB i x Wi) as [(z & _ & -> & Hz)|[(_ & ->)|(z & _ & _ & _ & X)]]; auto.
    exact (H2 z Hz eq_refl).
Qed.

Theorem sampler_same : forall st rate zs m l1 l2 s1 s2, st <> Velocities -> plain_body p zs ->
  let g := sampler_graph p st rate false zs in
  run sop_eq g (start m) l1 = Some s1 -> complete g s1 -> run sop_eq g (start m) l2 = Some s2 -> complete g s2 ->
  (forall x, s_mem s1 x = s_mem s2 x) /\ (rate = false -> forall o, s_out s1 o = s_out s2 o).
Proof.
  intros st rate zs m l1 l2 s1 s2 Hst HB g R1 C1 R2 C2. split.
  - destruct (sampler_any_order st rate zs m l1 s1 Hst HB R1 C1) as (A1 & B1 & D1).
    destruct (sampler_any_order st rate zs m l2 s2 Hst HB R2 C2) as (A2 & B2 & D2). intros x.
    destruct (Nat.eq_dec x v_accept) as [->|H1].
    + destruct B1 as (v1 & S1 & ->), B2 as (v2 & S2 & ->). f_equal. eapply snapshots_det; eauto.
    + destruct (existsb (fun z => Nat.eqb x (v_params z)) zs) eqn:E.
      * apply existsb_exists in E. destruct E as (z & Hz & E). apply Nat.eqb_eq in E. subst x.
        destruct (A1 z Hz) as (v1 & S1 & ->), (A2 z Hz) as (v2 & S2 & ->). do 2 f_equal. f_equal. eapply snapshot_det; eauto.
      * assert (H2 : forall z, In z zs -> x <> v_params z).
        { intros z Hz ->. assert (X : existsb (fun y => Nat.eqb (v_params z) (v_params y)) zs = true); [|congruence].
          apply existsb_exists. exists z. rewrite Nat.eqb_refl. auto. }
        rewrite D1, D2; auto.
  - intros ->.
    assert (RF : race_free g).
    { apply read_first_race_free.
      assert (X : read_first g (aside st)) by (apply sampler_read_first; auto; congruence).
      destruct X as (X1 & X2 & X3 & X4). split; [exact X1|split; [|split]].
      - intros i j x Wi Uj Hne _. apply (X2 i j x Wi Uj Hne). intros Hd.
        assert (Gj : g j <> None) by (destruct Uj as (n & k & E & _); congruence).
        destruct j; simpl in Hd; auto.
      - intros i j x Wi n Ej _. destruct j; try (apply (X3 i _ x Wi n Ej); simpl; auto; fail). discriminate Ej.
      - intros i j _ []. }
    intros o. rewrite (determined sop_eq g RF l1 l2 (start m) s1 s2 (start_sound g m) R1 C1 R2 C2). reflexivity.
Qed.

(** With velocities: they are determined. *)
Theorem velocities_any_order : forall rate zs m l s, plain_body p zs -> (forall z, plain_in (sp_new_velocity_in p z)) ->
  let g := sampler_graph p Velocities rate false zs in
  run sop_eq g (start m) l = Some s -> complete g s ->
  (forall z, In z zs -> exists v, snapshot g m (OpNewVelocity z) v /\ s_mem s (v_velocity z) = v) /\
  (exists vs, snapshots g m (sp_accept_in p) vs /\ s_mem s v_accept = sp_add p (m v_accept) vs).
Proof.
  intros rate zs m l s HB HN g R C.
  assert (RF : read_first g (aside Velocities)) by (apply sampler_read_first; auto).
  destruct (reads_first sop_eq g _ RF m l s R C) as (_ & W & U). split.
  - intros z Hz. apply existsb_in in Hz. edestruct (W (OpAssignVelocity z)) as (vs & Sv & E).
    + simpl. auto.
    + unfold g. simpl. rewrite Hz. reflexivity.
    + inversion Sv as [|i v l' vs' S1 S2]; subst. inversion S2; subst. exists v. auto.
  - edestruct (W OpAccept) as (vs & Sv & E); [simpl; auto|reflexivity|]. eauto.
Qed.
End Any.

(** ** Optimization *)
Section Opt.
Context {V : Type}.
Variable p : optimization V.
Variable ks : list nat.
Hypothesis B : plain_vi p ks.
Notation g := (vi_graph p ks).

Lemma v_theta_inj : forall a b, v_theta a = v_theta b -> a = b. Proof. unfold v_theta. lia. Qed.

Ltac kases := repeat match goal with
  | H : (if existsb (Nat.eqb ?z) ks then _ else _) = _ |- _ => destruct (existsb (Nat.eqb z) ks) eqn:?; try discriminate
  | H : Some _ = Some _ |- _ => injection H as <-; simpl in *
  end.

Lemma vi_writes : forall i x, writes g i x -> (exists k, i = VUpdate k /\ x = v_theta k /\ In k ks) \/ (i = VIncrement /\ x = v_t).
Proof.
  intros i x (n & f & E & K). destruct i; simpl in E; kases; try discriminate.
  - destruct B as [H _]; destruct (H _ _ E) as [(f' & K' & _)|(y & K' & _)]; congruence.
  - injection K as <- _. left. exists k. split; auto. split; auto. apply existsb_in; auto.
  - injection K as <- _. right. auto.
Qed.

Lemma vi_returns : forall i x, returns g i x ->
  match i with
  | VarT | VIncrement => x = v_t
  | VarTheta k | VUpdate k => x = v_theta k /\ In k ks
  | VBody _ => x <> v_t /\ forall k, In k ks -> x <> v_theta k
  | _ => False
  end.
Proof.
  intros i x (n & E & K). destruct i; simpl in E; kases; try (destruct K as [K|(f & K)]; try discriminate; injection K as <-; auto; split; auto; apply existsb_in; auto; fail).
  destruct B as [H _]; destruct (H _ _ E) as [(f' & K' & _)|(y & K' & _ & _ & H1)].
  - destruct K as [K|(f & K)]; congruence.
  - destruct K as [K|(f & K)]; rewrite K' in K; [injection K as <-; auto|discriminate].
Qed.

Lemma vi_in : forall n j k, g j = Some n -> In k (n_in n ++ n_after n) ->
  match k with
  | VarT => j = VIncrement
  | VarTheta _ => j = VLoss \/ exists b, j = VBody b
  | VBody _ => True
  | VUpdate _ => j = VTrain /\ ~ In k (n_in n)
  | _ => False
  end.
Proof.
  intros n j k E Hk. destruct B as (B1 & B2). destruct j; simpl in E; kases; rewrite ?app_nil_r in Hk; simpl in Hk; try tauto.
  - destruct (B1 _ _ E) as [(f & K & P)|(x & K & P1 & P2 & _)].
    + destruct (P k Hk) as [(b & ->)|(b & ->)]; eauto.
    + rewrite P1, P2 in Hk. destruct Hk.
  - destruct Hk as [<-|[]]. auto.
  - destruct Hk as [<-|[]]. auto.
  - destruct (B2 k Hk) as [(b & ->)|(b & ->)]; eauto.
  - apply in_map_iff in Hk. destruct Hk as (z & <- & _). auto.
Qed.

(** What may be set aside, and what is used of trained variables by the rest. *)
Variable D : vop -> Prop.
Hypothesis DC : forall i j, feeds g i j -> D i -> D j.
Hypothesis DL : forall j k, uses g j (v_theta k) -> In k ks -> ~ D j -> before g j (VUpdate k).

Lemma vi_read_first : read_first g D.
Proof.
  split; [|split; [|split]].
  - intros i j x Wi Wj. destruct (vi_writes i x Wi) as [(k & -> & -> & _)|(-> & ->)], (vi_writes j _ Wj) as [(k' & -> & E & _)|(-> & E)]; auto; first [discriminate E | apply v_theta_inj in E; congruence].
  - intros i j x Wi Uj Hne Hd. destruct (vi_writes i x Wi) as [(k & -> & -> & Hk)|(-> & ->)]; [apply DL; auto|].
    exfalso. destruct Uj as (n & b & Ej & Hb & Rb). pose proof (vi_in n j b Ej (in_or_app _ _ _ (or_introl Hb))) as IN. pose proof (vi_returns b v_t Rb) as RB.
    destruct b; try tauto; try congruence; try (destruct RB; discriminate).
  - intros i j x Wi n Ej Hd Hi. pose proof (vi_in n j i Ej (in_or_app _ _ _ (or_introl Hi))) as IN.
    destruct (vi_writes i x Wi) as [(k & -> & -> & Hk)|(-> & ->)]; [destruct IN; auto|exact IN].
  - exact DC.
Qed.

Theorem vi_any_order : forall m l s, ~ D VIncrement -> run vop_eq g (start m) l = Some s -> complete g s ->
  (forall k, In k ks -> ~ D (VUpdate k) -> exists v, snapshot g m (VBody (vi_gradient p k)) v /\ s_mem s (v_theta k) = vi_apply p (m (v_theta k)) [v]) /\
  s_mem s v_t = vi_increment p (m v_t) [m v_t] /\
  (~ D VLoss -> exists v, snapshot g m VLoss v /\ s_out s VLoss = Some (Val v)) /\
  (forall x, x <> v_t -> (forall k, In k ks -> x <> v_theta k) -> s_mem s x = m x).
Proof.
  intros m l s Hi R C. destruct (reads_first vop_eq g D vi_read_first m l s R C) as (O & W & U). split; [|split; [|split]].
  - intros k Hk Hd. apply existsb_in in Hk. edestruct (W (VUpdate k)) as (vs & Sv & E); [exact Hd|simpl; rewrite Hk; reflexivity|].
    inversion Sv as [|i v l' vs' S1 S2]; subst. inversion S2; subst. eauto.
  - edestruct (W VIncrement) as (vs & Sv & E); [exact Hi|reflexivity|]. rewrite E. f_equal.
    inversion Sv as [|i v l' vs' S1 S2]; subst. inversion S2; subst. f_equal.
    inversion S1 as [i x li a Ei|i f li a vs Ei]; subst; simpl in Ei; [injection Ei as <- _ _; auto|discriminate].
  - intros Hd. edestruct (O VLoss) as (v & E & Sv); [exact Hd|reflexivity|]. eauto.
  - intros x H1 H2. apply U. intros i Wi. destruct (vi_writes i x Wi) as [(k & _ & -> & Hk)|(_ & ->)]; auto. exact (H2 k Hk eq_refl).
Qed.
End Opt.
