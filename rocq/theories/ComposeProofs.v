(** * Proofs for C82. *)
From Coq Require Import List Arith Bool Lia.
From Verif Require Import Schedule.
From Verif Require Import Compose ComposeSpec.
Import ListNotations.
Set Bullet Behavior "Strict Subproofs".

(** ** One session run *)
Section Run.
Context {I V : Type}.
Variable I_eq : forall i j : I, {i = j} + {i <> j}.
Variable g : sgraph I V.

Definition writes_to (x : nat) : Prop := exists i n f, g i = Some n /\ n_kind n = Write x f.
Definition touches (x : nat) : Prop := exists i n, g i = Some n /\ (n_kind n = Var x \/ exists f, n_kind n = Write x f).

Lemma fire_frame : forall x s i s', ~ writes_to x -> fire I_eq g s i = Some s' -> s_mem s' x = s_mem s x.
Proof.
  intros x s i s' N. unfold fire. destruct (g i) as [n|] eqn:G; [|discriminate]. destruct (s_out s i); [discriminate|].
  destruct (inputs s (n_in n)) as [vs|]; [|discriminate]. destruct (inputs s (n_after n)); [|discriminate].
  destruct (n_kind n) as [f|y|y f] eqn:K; intros E; inversion E; subst; cbn; auto.
  destruct (Nat.eqb_spec x y) as [->|]; auto. destruct N. exists i, n, f. auto.
Qed.

Lemma run_frame : forall x l s s', ~ writes_to x -> run I_eq g s l = Some s' -> s_mem s' x = s_mem s x.
Proof.
  intros x l. induction l as [|i l IH]; intros s s' N E; cbn in E; [inversion E; auto|].
  destruct (fire I_eq g s i) as [s1|] eqn:Fi; [|discriminate]. rewrite (IH s1 s' N E). exact (fire_frame x s i s1 N Fi).
Qed.

(** Two states with the same results so far, and the same variables as far as the graph can see. *)
Variable F : nat -> Prop.
Hypothesis covers : forall x, touches x -> F x.

Definition like (s t : sstate I V) : Prop :=
  (forall i, s_out s i = s_out t i) /\ (forall i x, s_out s i = Some (Ref x) -> F x) /\ (forall x, F x -> s_mem s x = s_mem t x).

Lemma like_inputs : forall s t l, like s t -> inputs s l = inputs t l.
Proof.
  intros s t l (O & R & M). induction l as [|i l IH]; [reflexivity|]. cbn. rewrite <- (O i). destruct (s_out s i) as [o|] eqn:Ei; [|reflexivity].
  rewrite IH. destruct (inputs t l); [|reflexivity]. destruct o as [v|x]; [reflexivity|]. cbn. rewrite (M x (R i x Ei)). reflexivity.
Qed.

Lemma like_fire : forall s t i s', like s t -> fire I_eq g s i = Some s' -> exists t', fire I_eq g t i = Some t' /\ like s' t'.
Proof.
  intros s t i s' L. pose proof L as (O & R & M). unfold fire. rewrite <- (O i). destruct (g i) as [n|] eqn:G; [|discriminate].
  destruct (s_out s i) eqn:Oi; [discriminate|]. rewrite <- !(like_inputs s t _ L).
  destruct (inputs s (n_in n)) as [vs|]; [|discriminate]. destruct (inputs s (n_after n)); [|discriminate].
  intros E. inversion E; subst; clear E. eexists. split; [reflexivity|].
  destruct (n_kind n) as [f|y|y f] eqn:K; (split; [|split]); cbn.
  - intros j. destruct (I_eq j i); auto.
  - intros j x. destruct (I_eq j i); [discriminate|]. apply R.
  - exact M.
  - intros j. destruct (I_eq j i); auto.
  - intros j x. destruct (I_eq j i); [|apply R]. intros [= <-]. apply covers. exists i, n. auto.
  - exact M.
  - intros j. destruct (I_eq j i); auto.
  - intros j x. destruct (I_eq j i); [|apply R]. intros [= <-]. apply covers. exists i, n. split; [exact G|right; eauto].
  - intros x Fx. destruct (Nat.eqb x y); [|auto]. rewrite (M y); [reflexivity|]. apply covers. exists i, n. split; [exact G|right; eauto].
Qed.

Lemma like_run : forall l s t s', like s t -> run I_eq g s l = Some s' -> exists t', run I_eq g t l = Some t' /\ like s' t'.
Proof.
  induction l as [|i l IH]; intros s t s' L E; cbn in E.
  - inversion E; subst. exists t. split; auto.
  - destruct (fire I_eq g s i) as [s1|] eqn:Fi; [|discriminate]. destruct (like_fire s t i s1 L Fi) as (t1 & Ft & L1).
    destruct (IH s1 t1 s' L1 E) as (t' & Et & L'). exists t'. split; [cbn; rewrite Ft; exact Et|exact L'].
Qed.

Lemma like_start : forall m m0, (forall x, F x -> m x = m0 x) -> like (start m) (start m0).
Proof. intros m m0 A. split; [|split]; cbn; auto; discriminate. Qed.

Lemma like_fetched : forall s t i, like s t -> fetched s i = fetched t i.
Proof.
  intros s t i (O & R & M). unfold fetched. rewrite <- (O i). destruct (s_out s i) as [[v|x]|] eqn:Ei; [reflexivity| |reflexivity].
  cbn. rewrite (M x (R i x Ei)). reflexivity.
Qed.

Lemma like_session : forall m m0 l s, (forall x, F x -> m x = m0 x) -> session I_eq g m l s ->
  exists s0, session I_eq g m0 l s0 /\ (forall i, fetched s i = fetched s0 i) /\ forall x, F x -> s_mem s x = s_mem s0 x.
Proof.
  intros m m0 l s A [E Fin]. destruct (like_run l _ _ s (like_start m m0 A) E) as (s0 & E0 & L). exists s0. split; [split; [exact E0|]|split].
  - intros i Gi. destruct L as (O & _ & _). rewrite <- (O i). exact (Fin i Gi).
  - intros i. exact (like_fetched s s0 i L).
  - exact (proj2 (proj2 L)).
Qed.
End Run.

Section Counter.
Context {I V : Type}.
Variable I_eq : forall i j : I, {i = j} + {i <> j}.
Variable g : sgraph I V.

(** A variable that one operation changes. *)
Lemma counter_run : forall x i n f inc m, g i = Some n -> n_kind n = Write x f -> (forall v vs, f v vs = inc v) ->
  (forall j n' f', g j = Some n' -> n_kind n' = Write x f' -> j = i) ->
  forall l s s', run I_eq g s l = Some s' ->
  (s_out s i = None /\ s_mem s x = m x) \/ (s_out s i = Some (Ref x) /\ s_mem s x = inc (m x)) ->
  (s_out s' i = None /\ s_mem s' x = m x) \/ (s_out s' i = Some (Ref x) /\ s_mem s' x = inc (m x)).
Proof.
  intros x i n f inc m G K Fi Only. induction l as [|j l IH]; intros s s' E P; cbn in E; [inversion E; subst; exact P|].
  destruct (fire I_eq g s j) as [s1|] eqn:Fj; [|discriminate]. apply (IH s1 s' E). clear IH E s'.
  unfold fire in Fj. destruct (g j) as [nj|] eqn:Gj; [|discriminate]. destruct (s_out s j) eqn:Oj; [discriminate|].
  destruct (inputs s (n_in nj)) as [vs|]; [|discriminate]. destruct (inputs s (n_after nj)); [|discriminate].
  destruct (I_eq j i) as [->|Nj].
  - rewrite G in Gj. inversion Gj; subst nj. rewrite K in Fj. inversion Fj; subst; clear Fj. cbn. destruct (I_eq i i); [|congruence].
    right. rewrite Nat.eqb_refl. destruct P as [[_ ->]|[Q _]]; [|congruence]. rewrite Fi. auto.
  - destruct (n_kind nj) as [fj|y|y fj] eqn:Kj; inversion Fj; subst; clear Fj; cbn; (destruct (I_eq i j); [congruence|]); auto.
    destruct (Nat.eqb_spec x y) as [->|]; auto. destruct Nj. exact (Only j nj fj Gj Kj).
Qed.

Lemma counter_session : forall x i n f inc m l s, g i = Some n -> n_kind n = Write x f -> (forall v vs, f v vs = inc v) ->
  (forall j n' f', g j = Some n' -> n_kind n' = Write x f' -> j = i) ->
  session I_eq g m l s -> s_mem s x = inc (m x) /\ fetched s i = [inc (m x)].
Proof.
  intros x i n f inc m l s G K Fi Only [E Fin].
  destruct (counter_run x i n f inc m G K Fi Only l (start m) s E) as [[O _]|[O M]].
  - left. split; reflexivity.
  - destruct (Fin i); [congruence|exact O].
  - split; [exact M|]. unfold fetched. rewrite O. cbn. rewrite M. reflexivity.
Qed.
End Counter.

(** ** The graphs of updates *)
Section Graphs.
Context {V D : Type}.

Lemma rename_some : forall I at_ (g : sgraph I V) i n, rename at_ g i = Some n ->
  exists n0, g i = Some n0 /\ n_kind n = rename_kind at_ (n_kind n0) /\ n_in n = n_in n0 /\ n_after n = n_after n0.
Proof. intros I at_ g i n. unfold rename. destruct (g i) as [n0|]; [|discriminate]. intros [= <-]. exists n0. auto. Qed.

Lemma rename_write : forall at_ (k : kind V) x f, rename_kind at_ k = Write x f -> exists y, k = Write y f /\ x = at_ y.
Proof. intros at_ k x f. destruct k; cbn; intros [= <- <-]. eauto. Qed.
Lemma rename_var : forall at_ (k : kind V) x, rename_kind at_ k = Var x -> exists y, k = Var y /\ x = at_ y.
Proof. intros at_ k x. destruct k; cbn; intros [= <-]. eauto. Qed.

Lemma existsb_in : forall z zs, existsb (Nat.eqb z) zs = true -> In z zs.
Proof. intros z zs H. apply existsb_exists in H. destruct H as (y & Hy & E). apply Nat.eqb_eq in E. subst. exact Hy. Qed.

(** What the operations of an optimization write and which variables they are. *)
Lemma vi_writes : forall (p : optimization V) ks i n y f, reads_only (vi_body p) -> vi_graph p ks i = Some n -> n_kind n = Write y f ->
  i = VIncrement /\ y = v_t /\ f = vi_increment p \/ exists k, In k ks /\ i = VUpdate k /\ y = v_theta k.
Proof.
  intros p ks i n y f B. unfold vi_graph. destruct i as [|k|k|k| | |].
  - intros [= <-]. cbn. discriminate.
  - destruct (existsb (Nat.eqb k) ks); [|discriminate]. intros [= <-]. cbn. discriminate.
  - intros E K. destruct (B k n E) as [[f' Q]|[y' Q]]; rewrite Q in K; discriminate.
  - destruct (existsb (Nat.eqb k) ks) eqn:Ek; [|discriminate]. intros [= <-]. cbn. intros [= <- <-]. right. exists k. split; [apply existsb_in; exact Ek|auto].
  - intros [= <-]. cbn. intros [= <- <-]. left. auto.
  - intros [= <-]. cbn. discriminate.
  - intros [= <-]. cbn. discriminate.
Qed.

Lemma vi_vars : forall (p : optimization V) ks i n y, vi_graph p ks i = Some n -> n_kind n = Var y ->
  y = v_t \/ (exists k, In k ks /\ y = v_theta k) \/ exists k, vi_body p k = Some n.
Proof.
  intros p ks i n y. unfold vi_graph. destruct i as [|k|k|k| | |].
  - intros [= <-]. cbn. intros [= <-]. auto.
  - destruct (existsb (Nat.eqb k) ks) eqn:Ek; [|discriminate]. intros [= <-]. cbn. intros [= <-]. right. left. exists k. split; [apply existsb_in; exact Ek|auto].
  - intros E K. right. right. exists k. exact E.
  - destruct (existsb (Nat.eqb k) ks); [|discriminate]. intros [= <-]. cbn. discriminate.
  - intros [= <-]. cbn. discriminate.
  - intros [= <-]. cbn. discriminate.
  - intros [= <-]. cbn. discriminate.
Qed.

Ltac known := let E := fresh in let K := fresh in intros E K; inversion E; subst; cbn in K; inversion K; subst; clear E K.

Lemma mc_writes : forall (p : sampler V) st zs i n y f, reads_only (sp_body p) -> sampler_graph p st true false zs i = Some n -> n_kind n = Write y f ->
  y = v_accept \/ exists z, In z zs /\ (y = v_params z \/ st = Velocities /\ y = v_velocity z).
Proof.
  intros p st zs i n y f B. unfold sampler_graph. destruct i as [| | |z|z|k|z|z|z|z|z| | | |].
  - known.
  - known.
  - destruct st; known.
  - destruct st; destruct (existsb (Nat.eqb z) zs); known.
  - destruct st; destruct (existsb (Nat.eqb z) zs); known.
  - intros E K. destruct (B k n E) as [[f' Q]|[y' Q]]; rewrite Q in K; discriminate.
  - destruct (existsb (Nat.eqb z) zs); known.
  - destruct (existsb (Nat.eqb z) zs) eqn:Ez; known. right. exists z. split; [apply existsb_in; exact Ez|auto].
  - destruct st; destruct (existsb (Nat.eqb z) zs); known.
  - destruct st; destruct (existsb (Nat.eqb z) zs); known.
  - destruct st; destruct (existsb (Nat.eqb z) zs) eqn:Ez; known. right. exists z. split; [apply existsb_in; exact Ez|auto].
  - known. auto.
  - known.
  - known.
  - known.
Qed.

Lemma mc_vars : forall (p : sampler V) st zs i n y, sampler_graph p st true false zs i = Some n -> n_kind n = Var y ->
  y = v_t \/ y = v_accept \/ (exists z, In z zs /\ (y = v_params z \/ st = Velocities /\ y = v_velocity z)) \/ exists k, sp_body p k = Some n.
Proof.
  intros p st zs i n y. unfold sampler_graph. destruct i as [| | |z|z|k|z|z|z|z|z| | | |].
  - known. auto.
  - known. auto.
  - destruct st; known.
  - destruct st; destruct (existsb (Nat.eqb z) zs) eqn:Ez; known; right; right; left; exists z; (split; [apply existsb_in; exact Ez|auto]).
  - destruct st; destruct (existsb (Nat.eqb z) zs); known.
  - intros E K. right. right. right. exists k. exact E.
  - destruct (existsb (Nat.eqb z) zs); known.
  - destruct (existsb (Nat.eqb z) zs) eqn:Ez; known.
  - destruct st; destruct (existsb (Nat.eqb z) zs) eqn:Ez; known; right; right; left; exists z; (split; [apply existsb_in; exact Ez|auto]).
  - destruct st; destruct (existsb (Nat.eqb z) zs); known.
  - destruct st; destruct (existsb (Nat.eqb z) zs) eqn:Ez; known.
  - known.
  - known.
  - known.
  - known.
Qed.

(** All graphs of an object. *)
Lemma variational_writes : forall p ks at_ d x, plain (V := V) (D := D) (mkobject (Variational p ks) at_) ->
  writes_to (rename at_ (vi_graph (p d) ks)) x -> infers (mkobject (Variational p ks) at_) x.
Proof.
  intros p ks at_ d x B (i & n & f & E & K). destruct (rename_some _ _ _ _ _ E) as (n0 & E0 & K0 & _). rewrite K in K0.
  destruct (rename_write _ _ _ _ (eq_sym K0)) as (y & Ky & ->). exists y. split; [|reflexivity].
  destruct (vi_writes (p d) ks i n0 y f (B d) E0 Ky) as [(_ & -> & _)|(k & Hk & _ & ->)]; [left; reflexivity|right; exists k; auto].
Qed.

Lemma variational_touches : forall p ks at_ d x, plain (V := V) (D := D) (mkobject (Variational p ks) at_) ->
  touches (rename at_ (vi_graph (p d) ks)) x -> depends (mkobject (Variational p ks) at_) x.
Proof.
  intros p ks at_ d x B (i & n & E & [K|[f K]]).
  - destruct (rename_some _ _ _ _ _ E) as (n0 & E0 & K0 & _). rewrite K in K0.
    destruct (rename_var _ _ _ (eq_sym K0)) as (y & Ky & ->). destruct (vi_vars (p d) ks i n0 y E0 Ky) as [->|[(k & Hk & ->)|(k & Hk)]].
    + left. exists v_t. split; [left; reflexivity|reflexivity].
    + left. exists (v_theta k). split; [right; exists k; auto|reflexivity].
    + right. exists d, k, (n_kind n0), y. cbn. eauto.
  - left. apply (variational_writes p ks at_ d x B). exists i, n, f. auto.
Qed.

Lemma sampling_writes : forall p st zs at_ d x, plain (V := V) (D := D) (mkobject (Sampling p st zs) at_) ->
  writes_to (rename at_ (sampler_graph (p d) st true false zs)) x -> exists y, own (mkobject (Sampling p st zs) at_) y /\ y <> v_t /\ x = at_ y.
Proof.
  intros p st zs at_ d x B (i & n & f & E & K). destruct (rename_some _ _ _ _ _ E) as (n0 & E0 & K0 & _). rewrite K in K0.
  destruct (rename_write _ _ _ _ (eq_sym K0)) as (y & Ky & ->). exists y. pose proof (mc_writes (p d) st zs i n0 y f (B d) E0 Ky) as W.
  split; [right; exact W|]. split; [|reflexivity]. unfold v_t. destruct W as [->|(z & _ & [->|[_ ->]])]; unfold v_accept, v_params, v_velocity; lia.
Qed.

Lemma sampling_touches : forall p st zs at_ d x, plain (V := V) (D := D) (mkobject (Sampling p st zs) at_) ->
  touches (rename at_ (sampler_graph (p d) st true false zs)) x -> depends (mkobject (Sampling p st zs) at_) x.
Proof.
  intros p st zs at_ d x B (i & n & E & [K|[f K]]).
  - destruct (rename_some _ _ _ _ _ E) as (n0 & E0 & K0 & _). rewrite K in K0.
    destruct (rename_var _ _ _ (eq_sym K0)) as (y & Ky & ->). destruct (mc_vars (p d) st zs i n0 y E0 Ky) as [->|[->|[Z|(k & Hk)]]].
    + left. exists v_t. split; [left; reflexivity|reflexivity].
    + left. exists v_accept. split; [right; left; reflexivity|reflexivity].
    + left. exists y. split; [right; right; exact Z|reflexivity].
    + right. exists d, k, (n_kind n0), y. cbn. eauto.
  - left. destruct (sampling_writes p st zs at_ d x B) as (y & O & _ & ->); [exists i, n, f; auto|]. exists y. auto.
Qed.

Lemma increment_writes : forall (p : sampler V) at_ x, touches (rename at_ (increment_graph p)) x -> x = at_ v_t.
Proof.
  intros p at_ x (i & n & E & K). destruct (rename_some _ _ _ _ _ E) as (n0 & E0 & K0 & _). rewrite K0 in K.
  unfold increment_graph in E0. destruct i; try discriminate. inversion E0; subst. cbn in K. destruct K as [K|[f K]]; inversion K; reflexivity.
Qed.

Lemma writes_touches : forall I (g : sgraph I V) x, writes_to g x -> touches g x.
Proof. intros I g x (i & n & f & E & K). exists i, n. eauto. Qed.
End Graphs.

(** ** Histories *)
Section Histories.
Context {V D : Type}.
Variable initial : D -> nat -> V.

(** An update changes only what its object infers. *)
Lemma step_frame : forall objs m act m' out x, (forall a o, nth_error objs a = Some o -> plain o) ->
  step initial objs m act m' out ->
  (forall a d l o, act = Update a d l -> nth_error objs a = Some o -> ~ infers o x) -> ~ initialises act x -> m' x = m x.
Proof.
  intros objs m act m' out x B St N NI. inversion St; subst; clear St.
  - match goal with H : session _ _ _ _ _ |- _ => destruct H as [E _] end. apply (run_frame vop_dec (rename at_ (vi_graph (p d) ks)) x l (start m) s); [|exact E].
    intros W. apply (N a d _ _ eq_refl H). exact (variational_writes p ks at_ d x (B a _ H) W).
  - match goal with H : session _ _ m _ _ |- _ => destruct H as [E _] end. match goal with H : session _ _ (s_mem s) _ _ |- _ => destruct H as [E' _] end.
    pose proof (N a d _ _ eq_refl H) as Nx.
    rewrite (run_frame sop_dec (rename at_ (increment_graph (p d))) x l' (start (s_mem s)) s'); [|intros W; apply Nx; exists v_t; split; [left; reflexivity|exact (increment_writes (p d) at_ x (writes_touches _ _ _ W))]|exact E'].
    apply (run_frame sop_dec (rename at_ (sampler_graph (p d) st true false zs)) x l (start m) s); [|exact E]. intros W. apply Nx.
    destruct (sampling_writes p st zs at_ d x (B a _ H) W) as (y & O & _ & ->). exists y. auto.
  - cbn in NI. destruct vs as [vs|]; [|destruct NI; exact Logic.I]. destruct (existsb (Nat.eqb x) vs) eqn:Ex; [|reflexivity]. destruct NI. apply existsb_in. exact Ex.
Qed.

Theorem frame : forall objs m h m' out x, (forall a o, nth_error objs a = Some o -> plain o) ->
  exec initial objs m h m' out ->
  (forall a d l o, In (Update a d l) h -> nth_error objs a = Some o -> ~ infers o x) -> (forall act, In act h -> ~ initialises act x) -> m' x = m x.
Proof.
  intros objs m h m' out x B E. induction E as [m|m act m1 r h m2 out St E IH]; intros N NI; [reflexivity|].
  rewrite IH; [apply (step_frame objs m act m1 r x B St)| |].
  - intros a d l o -> Ho. apply (N a d l o); [left; reflexivity|exact Ho].
  - apply NI. left. reflexivity.
  - intros a d l o Ha Ho. apply (N a d l o); [right; exact Ha|exact Ho].
  - intros act' Ha. apply NI. right. exact Ha.
Qed.

(** An update of an object, seen from two memories that agree on [F]. *)
Lemma step_like : forall (F : nat -> Prop) objs m act m' out m0, (forall a o, nth_error objs a = Some o -> plain o) ->
  (forall a d l o x, act = Update a d l -> nth_error objs a = Some o -> depends o x -> F x) ->
  (forall x, F x -> m x = m0 x) -> step initial objs m act m' out ->
  exists m0', step initial objs m0 act m0' out /\ forall x, F x -> m' x = m0' x.
Proof.
  intros F objs m act m' out m0 B C A St. inversion St; subst; clear St.
  - match goal with H : session _ _ _ _ _ |- _ => rename H into Se end.
    destruct (like_session vop_dec (rename at_ (vi_graph (p d) ks)) F (fun x T => C a d _ _ x eq_refl H (variational_touches p ks at_ d x (B a _ H) T)) m m0 l s A Se) as (s0 & Se0 & Fe & M).
    exists (s_mem s0). split; [|exact M]. rewrite !Fe. eapply step_variational; eauto.
  - match goal with H : session _ _ m _ _ |- _ => rename H into Se end. match goal with H : session _ _ (s_mem s) _ _ |- _ => rename H into Se' end.
    destruct (like_session sop_dec (rename at_ (sampler_graph (p d) st true false zs)) F (fun x T => C a d _ _ x eq_refl H (sampling_touches p st zs at_ d x (B a _ H) T)) m m0 l s A Se) as (s0 & Se0 & Fe & M).
    assert (T : forall x, touches (rename at_ (increment_graph (p d))) x -> F x).
    { intros x T. apply (C a d _ _ x eq_refl H). left. exists v_t. split; [left; reflexivity|exact (increment_writes (p d) at_ x T)]. }
    destruct (like_session sop_dec (rename at_ (increment_graph (p d))) F T (s_mem s) (s_mem s0) l' s' M Se') as (s0' & Se0' & Fe' & M').
    exists (s_mem s0'). split; [|exact M']. rewrite Fe, Fe'. eapply step_sampling; eauto.
  - eexists. split; [apply step_init|]. intros x Fx. cbn. destruct (match vs with None => true | Some l => existsb (Nat.eqb x) l end); auto.
Qed.

Lemma step_owner : forall objs m act m' out, step initial objs m act m' out ->
  (exists d vs, act = Init d vs /\ out = []) \/ (exists a d l r o, act = Update a d l /\ out = [(a, r)] /\ nth_error objs a = Some o).
Proof. intros objs m act m' out St. inversion St; subst; [right|right|left]; eauto 10. Qed.

(** The objects in [mine] do what they do without the others. *)
Lemma isolated_on : forall (F : nat -> Prop) objs mine, (forall a o, nth_error objs a = Some o -> plain o) ->
  (forall a o x, nth_error objs a = Some o -> mine a = true -> depends o x -> F x) ->
  (forall b o x, nth_error objs b = Some o -> mine b = false -> infers o x -> ~ F x) ->
  forall m h m' out, exec initial objs m h m' out -> forall m0, (forall x, F x -> m x = m0 x) ->
  exists m0', exec initial objs m0 (filter (concerns mine) h) m0' (filter (fun r => mine (fst r)) out) /\ forall x, F x -> m' x = m0' x.
Proof.
  intros F objs mine B CF NF m h m' out E. induction E as [m|m act m1 r h m2 out St E IH]; intros m0 A.
  - exists m0. split; [apply exec_nil|exact A].
  - destruct (step_owner _ _ _ _ _ St) as [(d & vs & -> & ->)|(a & d & l & v & o & -> & -> & Ho)].
    + destruct (step_like F objs m (Init d vs) m1 [] m0 B) as (m01 & St0 & A1); [discriminate|exact A|exact St|].
      destruct (IH m01 A1) as (m0' & E0 & A'). exists m0'. split; [|exact A']. cbn. exact (exec_cons initial objs m0 _ m01 [] _ m0' _ St0 E0).
    + cbn [filter concerns app fst]. destruct (mine a) eqn:Ma.
      * destruct (step_like F objs m (Update a d l) m1 [(a, v)] m0 B) as (m01 & St0 & A1); [|exact A|exact St|].
        { intros a' d' l' o' x [= <- _ _] Ho' Dx. exact (CF a o' x Ho' Ma Dx). }
        destruct (IH m01 A1) as (m0' & E0 & A'). exists m0'. split; [|exact A']. exact (exec_cons initial objs m0 _ m01 [(a, v)] _ m0' _ St0 E0).
      * apply IH. intros x Fx. rewrite (step_frame objs m _ m1 _ x B St); [exact (A x Fx)| |exact (fun n => n)].
        intros a' d' l' o' [= <- _ _] Ho' Ix. exact (NF a o' x Ho' Ma Ix Fx).
Qed.

Theorem isolated : forall objs mine m h m' out, (forall a o, nth_error objs a = Some o -> plain o) ->
  (forall a b o o' x, nth_error objs a = Some o -> mine a = true -> nth_error objs b = Some o' -> mine b = false -> infers o' x -> ~ depends o x) ->
  exec initial objs m h m' out ->
  exists m0, exec initial objs m (filter (concerns mine) h) m0 (filter (fun r => mine (fst r)) out) /\
    forall a o x, nth_error objs a = Some o -> mine a = true -> depends o x -> m0 x = m' x.
Proof.
  intros objs mine m h m' out B N E.
  destruct (fun P Q => isolated_on (fun x => exists a o, nth_error objs a = Some o /\ mine a = true /\ depends o x) objs mine B P Q m h m' out E m (fun x _ => eq_refl)) as (m0 & E0 & A).
  - intros a o x Ho Ma Dx. exists a, o. auto.
  - intros b o' x Ho' Mb Ix (a & o & Ho & Ma & Dx). exact (N a b o o' x Ho Ma Ho' Mb Ix Dx).
  - exists m0. split; [exact E0|]. intros a o x Ho Ma Dx. symmetry. apply A. exists a, o. auto.
Qed.

(** Session runs with given orders are determined. *)
Lemma step_det : forall objs m act m1 r1 m2 r2, step initial objs m act m1 r1 -> step initial objs m act m2 r2 -> m1 = m2 /\ r1 = r2.
Proof.
  intros objs m act m1 r1 m2 r2 S1 S2. inversion S1; subst; inversion S2; subst; clear S1 S2.
  - match goal with H1 : nth_error objs a = _, H2 : nth_error objs a = _ |- _ => rewrite H1 in H2; inversion H2; subst; clear H2 end.
    match goal with H1 : session _ _ _ _ s, H2 : session _ _ _ _ s0 |- _ => destruct H1 as [E1 _]; destruct H2 as [E2 _]; rewrite E1 in E2; inversion E2; subst end. auto.
  - match goal with H1 : nth_error objs a = _, H2 : nth_error objs a = _ |- _ => rewrite H1 in H2; inversion H2; subst; clear H2 end.
    match goal with H1 : session _ _ m _ s, H2 : session _ _ m _ s0 |- _ => destruct H1 as [E1 _]; destruct H2 as [E2 _]; rewrite E1 in E2; inversion E2; subst; clear E2 end.
    match goal with H1 : session _ _ _ _ s', H2 : session _ _ _ _ s'0 |- _ => destruct H1 as [E3 _]; destruct H2 as [E4 _]; rewrite E3 in E4; inversion E4; subst end. auto.
  - auto.
Qed.

Lemma exec_det : forall objs h m m1 r1 m2 r2, exec initial objs m h m1 r1 -> exec initial objs m h m2 r2 -> m1 = m2 /\ r1 = r2.
Proof.
  intros objs h. induction h as [|act h IH]; intros m m1 r1 m2 r2 E1 E2; inversion E1; subst; inversion E2; subst; [auto|].
  match goal with H1 : step _ _ _ _ ?x _, H2 : step _ _ _ _ ?y _ |- _ => destruct (step_det _ _ _ _ _ _ _ H1 H2) as [<- <-] end.
  match goal with H1 : exec _ _ _ h m1 _, H2 : exec _ _ _ h m2 _ |- _ => destruct (IH _ _ _ _ _ H1 H2) as [<- <-] end. auto.
Qed.

Lemma infers_dec : forall (o : object V D) x, {infers o x} + {~ infers o x}.
Proof.
  intros [p at_] x. assert (L : forall ys : list nat, {exists y, In y ys /\ x = at_ y} + {~ exists y, In y ys /\ x = at_ y}).
  { intros ys. destruct (Exists_dec (fun y => x = at_ y) ys (fun y => Nat.eq_dec x (at_ y))) as [Y|N].
    - left. apply Exists_exists in Y. exact Y.
    - right. intros Y. apply N. apply Exists_exists. exact Y. }
  destruct p as [p ks|p st zs].
  - destruct (L (v_t :: map v_theta ks)) as [Y|N].
    + left. destruct Y as (y & [<-|Hy] & ->); [exists v_t; split; [left; reflexivity|reflexivity]|].
      apply in_map_iff in Hy. destruct Hy as (k & <- & Hk). exists (v_theta k). split; [right; exists k; auto|reflexivity].
    + right. intros (y & [->|(k & Hk & ->)] & ->); apply N; [exists v_t; split; [left; reflexivity|reflexivity]|].
      exists (v_theta k). split; [right; apply in_map; exact Hk|reflexivity].
  - destruct (L (v_t :: v_accept :: map v_params zs)) as [Y|N].
    + left. destruct Y as (y & [<-|[<-|Hy]] & ->); [exists v_t; split; [left; reflexivity|reflexivity]|exists v_accept; split; [right; left; reflexivity|reflexivity]|].
      apply in_map_iff in Hy. destruct Hy as (z & <- & Hz). exists (v_params z). split; [right; right; exists z; auto|reflexivity].
    + assert (NV : st <> Velocities -> ~ infers (mkobject (Sampling p st zs) at_) x).
      { intros Ns (y & [->|[->|(z & Hz & [->|[Q _]])]] & ->); [apply N|apply N|apply N|contradiction].
        - exists v_t. split; [left; reflexivity|reflexivity].
        - exists v_accept. split; [right; left; reflexivity|reflexivity].
        - exists (v_params z). split; [right; right; apply in_map; exact Hz|reflexivity]. }
      destruct st; [right; apply NV; discriminate|right; apply NV; discriminate|]. clear NV.
      destruct (L (map v_velocity zs)) as [Y|N'].
      * left. destruct Y as (y & Hy & ->). apply in_map_iff in Hy. destruct Hy as (z & <- & Hz). exists (v_velocity z). split; [right; right; exists z; auto|reflexivity].
      * right. intros (y & [->|[->|(z & Hz & [->|[_ ->]])]] & ->); [apply N|apply N|apply N|apply N'].
        -- exists v_t. split; [left; reflexivity|reflexivity].
        -- exists v_accept. split; [right; left; reflexivity|reflexivity].
        -- exists (v_params z). split; [right; right; apply in_map; exact Hz|reflexivity].
        -- exists (v_velocity z). split; [apply in_map; exact Hz|reflexivity].
Qed.

(** The order of updates of different objects does not matter. *)
Theorem any_order : forall objs m h1 h2 m1 m2 out1 out2, (forall a o, nth_error objs a = Some o -> plain o) ->
  (forall a b o o' x, nth_error objs a = Some o -> nth_error objs b = Some o' -> a <> b -> infers o' x -> ~ depends o x) ->
  (forall a, filter (concerns (Nat.eqb a)) h1 = filter (concerns (Nat.eqb a)) h2) ->
  exec initial objs m h1 m1 out1 -> exec initial objs m h2 m2 out2 ->
  (forall x, m1 x = m2 x) /\ forall a, filter (fun r => Nat.eqb a (fst r)) out1 = filter (fun r => Nat.eqb a (fst r)) out2.
Proof.
  intros objs m h1 h2 m1 m2 out1 out2 B N Same E1 E2.
  assert (One : forall a, exists m0, exec initial objs m (filter (concerns (Nat.eqb a)) h1) m0 (filter (fun r => Nat.eqb a (fst r)) out1) /\
      exec initial objs m (filter (concerns (Nat.eqb a)) h2) m0 (filter (fun r => Nat.eqb a (fst r)) out2) /\
      forall o x, nth_error objs a = Some o -> depends o x -> m1 x = m2 x).
  { intros a. assert (Na : forall a0 b o o' x, nth_error objs a0 = Some o -> Nat.eqb a a0 = true -> nth_error objs b = Some o' -> Nat.eqb a b = false -> infers o' x -> ~ depends o x).
    { intros a0 b o o' x Ho Ea Ho' Eb. apply Nat.eqb_eq in Ea. apply Nat.eqb_neq in Eb. subst a0. exact (N a b o o' x Ho Ho' Eb). }
    destruct (isolated objs (Nat.eqb a) m h1 m1 out1 B Na E1) as (n1 & F1 & A1). destruct (isolated objs (Nat.eqb a) m h2 m2 out2 B Na E2) as (n2 & F2 & A2).
    pose proof F2 as F2'. rewrite <- (Same a) in F2'. destruct (exec_det objs _ m n1 _ n2 _ F1 F2') as [-> _].
    exists n2. split; [exact F1|]. split; [exact F2|]. intros o x Ho Dx.
    exact (eq_trans (eq_sym (A1 a o x Ho (Nat.eqb_refl a) Dx)) (A2 a o x Ho (Nat.eqb_refl a) Dx)). }
  split.
  - intros x. destruct (Exists_dec (fun o => infers o x) objs (fun o => infers_dec o x)) as [Y|No].
    + apply Exists_exists in Y. destruct Y as (o & Ho & Ix). apply In_nth_error in Ho. destruct Ho as (a & Ho).
      destruct (One a) as (_ & _ & _ & Q). exact (Q o x Ho (or_introl Ix)).
    + assert (NF : forall b o x', nth_error objs b = Some o -> false = false -> infers o x' -> x' <> x).
      { intros b o x' Ho _ Ix ->. apply No. apply Exists_exists. exists o. split; [exact (nth_error_In _ _ Ho)|exact Ix]. }
      pose (mine := Nat.eqb (length objs)).
      assert (Mn : forall b o, nth_error objs b = Some o -> mine b = false).
      { intros b o Ho. apply Nat.eqb_neq. assert (b < length objs) by (apply nth_error_Some; congruence). lia. }
      destruct (fun P Q => isolated_on (fun y => y = x) objs mine B P Q m h1 m1 out1 E1 m (fun y _ => eq_refl)) as (n1 & F1 & A1).
      { intros a o y Ho Ma. rewrite (Mn a o Ho) in Ma. discriminate. }
      { intros b o y Ho _ Iy. exact (NF b o y Ho eq_refl Iy). }
      destruct (fun P Q => isolated_on (fun y => y = x) objs mine B P Q m h2 m2 out2 E2 m (fun y _ => eq_refl)) as (n2 & F2 & A2).
      { intros a o y Ho Ma. rewrite (Mn a o Ho) in Ma. discriminate. }
      { intros b o y Ho _ Iy. exact (NF b o y Ho eq_refl Iy). }
      unfold mine in F1, F2. rewrite <- Same in F2. destruct (exec_det objs _ m n1 _ n2 _ F1 F2) as [-> _].
      exact (eq_trans (A1 x eq_refl) (eq_sym (A2 x eq_refl))).
  - intros a. destruct (One a) as (n & F1 & F2 & _). rewrite <- (Same a) in F2. exact (proj2 (exec_det objs _ m n _ n _ F1 F2)).
Qed.

(** ** Counters *)
Lemma step_counter : forall objs inc a o m act m' out, (forall b o', nth_error objs b = Some o' -> plain o') ->
  nth_error objs a = Some o -> counts_by o inc ->
  (forall b o', nth_error objs b = Some o' -> b <> a -> ~ infers o' (o_at o v_t)) ->
  (forall y, own o y -> o_at o y = o_at o v_t -> y = v_t) -> ~ initialises act (o_at o v_t) -> step initial objs m act m' out ->
  if is_update a act then m' (o_at o v_t) = inc (m (o_at o v_t)) /\ exists r, out = [(a, inc (m (o_at o v_t)) :: r)]
  else m' (o_at o v_t) = m (o_at o v_t) /\ filter (fun r => Nat.eqb a (fst r)) out = [].
Proof.
  intros objs inc a o m act m' out B Ho Ci Nb Inj NI St. destruct (is_update a act) eqn:Ua.
  - inversion St; subst; cbn in Ua; try discriminate; apply Nat.eqb_eq in Ua; subst a0.
    + rewrite Ho in H. inversion H; subst o; clear H. cbn [o_at] in *.
      match goal with H : session _ _ _ _ _ |- _ => rename H into Se end.
      destruct (counter_session vop_dec (rename at_ (vi_graph (p d) ks)) (at_ v_t) VIncrement (mknode (Write (at_ v_t) (vi_increment (p d))) [VarT] []) (vi_increment (p d)) inc m l s eq_refl eq_refl (Ci d)) as [M R].
      * intros j n' f' E K. destruct (rename_some _ _ _ _ _ E) as (n0 & E0 & K0 & _). rewrite K in K0. destruct (rename_write _ _ _ _ (eq_sym K0)) as (y & Ky & Q).
        destruct (vi_writes (p d) ks j n0 y f' (B a _ Ho d) E0 Ky) as [(-> & _)|(k & Hk & -> & ->)]; [reflexivity|].
        exfalso. specialize (Inj (v_theta k) (or_intror (ex_intro _ k (conj Hk eq_refl))) (eq_sym Q)). unfold v_theta, v_t in Inj. lia.
      * exact Se.
      * split; [exact M|]. rewrite R. eexists. reflexivity.
    + rewrite Ho in H. inversion H; subst o; clear H. cbn [o_at] in *.
      match goal with H : session _ _ m _ _ |- _ => rename H into Se end. match goal with H : session _ _ (s_mem s) _ _ |- _ => rename H into Se' end.
      destruct (counter_session sop_dec (rename at_ (increment_graph (p d))) (at_ v_t) OpIncrement (mknode (Write (at_ v_t) (sp_increment (p d))) [] []) (sp_increment (p d)) inc (s_mem s) l' s' eq_refl eq_refl (Ci d)) as [M R].
      * intros j n' f' E K. destruct (rename_some _ _ _ _ _ E) as (n0 & E0 & K0 & _). unfold increment_graph in E0. destruct j; try discriminate. reflexivity.
      * exact Se'.
      * assert (Q : s_mem s (at_ v_t) = m (at_ v_t)).
        { destruct Se as [E _]. apply (run_frame sop_dec (rename at_ (sampler_graph (p d) st true false zs)) (at_ v_t) l (start m) s); [|exact E]. intros W.
          destruct (sampling_writes p st zs at_ d (at_ v_t) (B a _ Ho) W) as (y & O & Ny & Qy). apply Ny. exact (Inj y O (eq_sym Qy)). }
        rewrite Q in M, R. split; [exact M|]. rewrite R. eexists. reflexivity.
  - split.
    + apply (step_frame objs m act m' out (o_at o v_t) B St); [|exact NI]. intros b d l o' -> Ho'. cbn in Ua. apply Nat.eqb_neq in Ua. apply (Nb b o' Ho'). congruence.
    + destruct (step_owner _ _ _ _ _ St) as [(d & vs & -> & ->)|(b & d & l & v & o' & -> & -> & Ho')]; [reflexivity|]. cbn in *. rewrite Ua. reflexivity.
Qed.

Theorem counted : forall objs inc a o m h m' out, (forall b o', nth_error objs b = Some o' -> plain o') ->
  nth_error objs a = Some o -> counts_by o inc ->
  (forall b o', nth_error objs b = Some o' -> b <> a -> ~ infers o' (o_at o v_t)) ->
  (forall y, own o y -> o_at o y = o_at o v_t -> y = v_t) -> (forall act, In act h -> ~ initialises act (o_at o v_t)) ->
  exec initial objs m h m' out ->
  m' (o_at o v_t) = Nat.iter (updates a h) inc (m (o_at o v_t)) /\
  map (fun r => hd_error (snd r)) (filter (fun r => Nat.eqb a (fst r)) out) =
  map (fun k => Some (Nat.iter k inc (m (o_at o v_t)))) (seq 1 (updates a h)).
Proof.
  intros objs inc a o m h m' out B Ho Ci Nb Inj NI E. induction E as [m|m act m1 r h m2 out St E IH]; [split; reflexivity|].
  destruct IH as [IM IR]; [intros act' H; apply NI; right; exact H|].
  pose proof (step_counter objs inc a o m act m1 r B Ho Ci Nb Inj (NI act (or_introl eq_refl)) St) as Q.
  assert (Sw : forall k v, Nat.iter k inc (inc v) = inc (Nat.iter k inc v)) by (intros k v; induction k as [|k IHk]; [reflexivity|exact (f_equal inc IHk)]).
  unfold updates in *. cbn [filter]. rewrite filter_app, map_app. destruct (is_update a act).
  - destruct Q as [Q (v & ->)]. rewrite Q in IM, IR. cbn [length filter fst map]. rewrite Nat.eqb_refl. cbn [map snd hd_error app]. split.
    + rewrite IM, Sw. reflexivity.
    + rewrite IR. cbn [seq map]. f_equal. rewrite <- (seq_shift (length (filter (is_update a) h)) 1), map_map. apply map_ext. intros k. rewrite Sw. reflexivity.
  - destruct Q as [Q ->]. rewrite Q in IM, IR. split; [exact IM|exact IR].
Qed.
End Histories.
