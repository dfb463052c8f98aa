(** * Proofs for C66 on any space. *)
From Coquelicot Require Import Coquelicot.
From Coq Require Import Reals List Arith Bool Lia Lra Permutation Classical_Prop.
From Verif Require Import Graph GraphSpec GraphProofs BayesBallProofs Feed Transform TransformProofs VI VISpec VIProofs VIGradProofs RBSpec RBProofs
  VIIntegralSpec VIIntegralProofs RBIntegralSpec.
Import ListNotations.
Local Open Scope R_scope.

(** ** Iterated integrals are integrals *)
Section Iter.
Context {V : Type}.
Variable D : nat -> V -> Prop.
Variable I : nat -> (V -> R) -> R -> Prop.

Lemma iterated_unique : forall o, (forall q, In q o -> integral (D q) (I q)) -> forall f e a b,
  iterated D I o f e a -> iterated D I o f e b -> a = b.
Proof.
  induction o as [|q o IH]; intros H f e a b Ha Hb; simpl in *; [congruence|].
  destruct Ha as (h & A1 & A2), Hb as (k & B1 & B2). assert (HI : integral (D q) (I q)) by (apply H; auto).
  apply (int_unique _ _ HI h); [exact A2|]. apply (int_ext _ _ HI k); [|exact B2]. intros u Hu.
  apply (IH (fun j Hj => H j (or_intror Hj)) f (update e q u)); auto.
Qed.

Lemma iterated_ext : forall o, (forall q, In q o -> integral (D q) (I q)) -> forall f g e a,
  (forall x, on_space D o e x -> f x = g x) -> iterated D I o f e a -> iterated D I o g e a.
Proof.
  induction o as [|q o IH]; intros H f g e a E Ha; simpl in *.
  - rewrite <- E; [exact Ha|]. split; [intros ? []|auto].
  - destruct Ha as (h & A1 & A2). exists h. split; [|exact A2]. intros u Hu.
    apply (IH (fun j Hj => H j (or_intror Hj)) f); [|auto]. intros x [X1 X2]. apply E. split.
    + intros j [<-|Hj]; [|auto]. destruct (in_dec Nat.eq_dec q o) as [Hq|Hq]; [auto|].
      rewrite (X2 q Hq). unfold update. rewrite Nat.eqb_refl. exact Hu.
    + intros k Hk. simpl in Hk. rewrite X2 by tauto. unfold update. destruct (Nat.eqb_spec k q); [subst; tauto|reflexivity].
Qed.

Lemma iterated_add : forall o, (forall q, In q o -> integral (D q) (I q)) -> forall f g e a b,
  iterated D I o f e a -> iterated D I o g e b -> iterated D I o (fun x => f x + g x) e (a + b).
Proof.
  induction o as [|q o IH]; intros H f g e a b Ha Hb; simpl in *; [congruence|].
  destruct Ha as (h & A1 & A2), Hb as (k & B1 & B2). exists (fun u => h u + k u). split.
  - intros u Hu. apply (IH (fun j Hj => H j (or_intror Hj))); auto.
  - apply (int_add _ _ (H q (or_introl eq_refl))); auto.
Qed.

Lemma iterated_scal : forall o, (forall q, In q o -> integral (D q) (I q)) -> forall c f e a,
  iterated D I o f e a -> iterated D I o (fun x => c * f x) e (c * a).
Proof.
  induction o as [|q o IH]; intros H c f e a Ha; simpl in *; [congruence|].
  destruct Ha as (h & A1 & A2). exists (fun u => c * h u). split.
  - intros u Hu. apply (IH (fun j Hj => H j (or_intror Hj))); auto.
  - apply (int_scal _ _ (H q (or_introl eq_refl))); auto.
Qed.

Lemma iterated_integral : forall o e, (forall q, In q o -> integral (D q) (I q)) -> integral (on_space D o e) (fun f => iterated D I o f e).
Proof.
  intros o e H. constructor; intros.
  - eapply iterated_unique; eauto.
  - eapply iterated_ext; eauto.
  - apply iterated_add; auto.
  - apply iterated_scal; auto.
Qed.
End Iter.

(** ** Sums below the integral sign *)
Section Lin.
Context {A : Type}.
Variable D : A -> Prop.
Variable I : (A -> R) -> R -> Prop.
Hypothesis HI : integral D I.
Variables (th : params) (v : nat) (w : params -> A -> R).

Lemma partial_weight : forall (c : A -> R) x, D x -> partial (fun t => w t x * c x) th v = partial (fun t => w t x) th v * c x.
Proof.
  intros c x Hx. unfold partial. rewrite (Derive_ext _ (fun y => c x * w (set_param th v y) x)) by (intros; apply Rmult_comm).
  rewrite Derive_scal. apply Rmult_comm.
Qed.

Lemma interchange_add : forall c1 c2, interchange I (fun t x => w t x * c1 x) th v -> interchange I (fun t x => w t x * c2 x) th v ->
  interchange I (fun t x => w t x * (c1 x + c2 x)) th v.
Proof.
  intros c1 c2 (L1 & d1 & N1 & D1 & E1) (L2 & d2 & N2 & D2 & E2). exists (fun t => L1 t + L2 t), (d1 + d2). split; [|split].
  - unfold nearby in *. eapply filter_imp; [|apply (filter_and _ _ N1 N2)]. intros y [A1 A2]. cbv beta in *.
    eapply (int_ext _ _ HI); [|apply (int_add _ _ HI); [exact A1|exact A2]]. intros x _. cbv beta. ring.
  - apply (is_derive_plus (K := R_AbsRing) (V := R_NormedModule) (fun y => L1 (set_param th v y)) (fun y => L2 (set_param th v y))); auto.
  - eapply (int_ext _ _ HI); [|apply (int_add _ _ HI); [exact E1|exact E2]]. intros x Hx. cbv beta. rewrite (partial_weight c1), (partial_weight c2), (partial_weight (fun x => c1 x + c2 x)) by auto. ring.
Qed.

Lemma interchange_zero : interchange I w th v -> interchange I (fun t x => w t x * 0) th v.
Proof.
  intros (L & d & N & DL & E). exists (fun t => 0 * L t), (0 * d). split; [|split].
  - unfold nearby in *. eapply filter_imp; [|exact N]. intros y Hy. cbv beta in *.
    eapply (int_ext _ _ HI); [|apply (int_scal _ _ HI); exact Hy]. intros x _. cbv beta. ring.
  - apply (is_derive_scal (fun y => L (set_param th v y))). exact DL.
  - eapply (int_ext _ _ HI); [|apply (int_scal _ _ HI); exact E]. intros x Hx. cbv beta. rewrite (partial_weight (fun _ => 0)) by auto. ring.
Qed.

Lemma interchange_sums : interchange I w th v -> forall {B} (l : list B) (c : B -> A -> R),
  (forall b, In b l -> interchange I (fun t x => w t x * c b x) th v) -> interchange I (fun t x => w t x * sumR (map (fun b => c b x) l)) th v.
Proof.
  intros H0 B l c. induction l as [|b l IH]; intros H; simpl; [apply interchange_zero; exact H0|].
  apply (interchange_add (c b) (fun x => sumR (map (fun b => c b x) l))); [apply H; simpl; auto|apply IH; intros; apply H; simpl; auto].
Qed.
End Lin.

Lemma expected_by_last : forall {A} (D : A -> Prop) I w (G : A -> R) m (d0 : A), integral D I -> I w 1 -> I (fun x => w x * G x) m ->
  forall n, (0 < n)%nat -> expected_by D I w n (fun l => G (last l d0)) m.
Proof.
  intros A D I w G m d0 HI Hw Hm n Hn. destruct n as [|n]; [lia|]. clear Hn. revert d0.
  induction n as [|n IH]; intros d0.
  - exists G. split; [intros x _; reflexivity|exact Hm].
  - exists (fun _ => m). split.
    + intros x Hx. apply (expected_by_ext D I w (S n) (fun l => G (last l d0))); [|apply IH].
      intros l Hl _. destruct l as [|b l]; [discriminate|]. reflexivity.
    + cut (I (fun x => w x * m) (m * 1)); [rewrite Rmult_1_r; auto|]. apply (int_ext _ _ HI (fun x => m * w x)); [intros; ring|]. apply (int_scal _ _ HI). exact Hw.
Qed.

Section RB.
Context {V : Type}.
Notation dict := (list (nat * V)).
Variable log_prob : params -> nat -> dict -> V -> list R.
Variable q_log_prob : params -> nat -> (nat -> V) -> V -> list R.
Variable latent : list (nat * nat).
Variable scale : list (nat * R).
Variable reg : params -> list R.
Variable g : graph.
Variable tensor_of_var : nat -> nat.
Variable obs : dict.
Variable prior : nat -> V.
Variable D : nat -> V -> Prop.
Variable I : nat -> (V -> R) -> R -> Prop.
Variable order : list nat.
Variable e0 : nat -> V.
Variable th : params.
Variable v : nat.
Notation qs := (map snd latent).
Notation rvs := (map fst latent ++ map fst obs).
Hypothesis Nk : NoDup rvs.
Hypothesis Nq : NoDup qs.
Hypothesis Dp : distinct_values g rvs.
Hypothesis Po : Permutation order qs.
Hypothesis First : parents_first g qs order.
Hypothesis Fm : model_follows g rvs log_prob.
Hypothesis Fq : approximation_follows g qs q_log_prob.
Hypothesis Act : acts_along_graph g tensor_of_var qs q_log_prob th v.
Hypothesis HI : forall q, In q qs -> integral (D q) (I q).
Hypothesis One : nearby (fun t => forall q e, In q qs -> I q (fun u => exp (sumR (q_log_prob t q e u))) 1) th v.
Hypothesis Diff : forall q e u, In q qs -> D q u -> differentiable (fun t => sumR (q_log_prob t q e u)) th v.
Variables ds VP VQ : list nat.
Hypothesis Facts : rb_facts latent g tensor_of_var obs v ds VP VQ.

Notation Q := (fun (x : R) (q : nat) (e : nat -> V) => sumR (q_log_prob (set_param th v x) q e (e q))).
Notation W := (fun (o : list nat) (x : R) (e : nat -> V) => exp (sumR (map (fun q => sumR (q_log_prob (set_param th v x) q e (e q))) o))).
Notation J := (fun f => iterated D I order f e0).
Notation mk := (fun e => mksample e obs prior).
Notation dens := (fun t e => draw_density q_log_prob latent (fun _ => 1) t (mksample e obs prior)).
Notation away := (away ds).
Let f (e : nat -> V) (x : R) : R := log_q q_log_prob latent [] (set_param th v x) (mk e).

Lemma in_order : forall q, In q order <-> In q qs.
Proof. intros q. split; apply Permutation_in; [exact Po|apply Permutation_sym; exact Po]. Qed.
Lemma order_nodup : NoDup order.
Proof. eapply Permutation_NoDup; [apply Permutation_sym; exact Po|exact Nq]. Qed.

Lemma tail_integral : forall l1 o, order = l1 ++ o -> forall q, In q o -> integral (D q) (I q).
Proof. intros l1 o E q Hq. apply HI. apply in_order. rewrite E. apply in_or_app. auto. Qed.

(** The factor of [q] is settled before the approximations after it are integrated. *)
Lemma head_factor : forall l1 q o x e u e', order = l1 ++ q :: o -> D q u -> on_space D o (update e q u) e' ->
  Q x q e' = sumR (q_log_prob (set_param th v x) q e u).
Proof.
  intros l1 q o x e u e' E Hu [_ X]. pose proof order_nodup as N. rewrite E in N.
  assert (Hq : ~ In q o). { intros H. apply NoDup_remove_2 in N. apply N. apply in_or_app. auto. }
  assert (Ev : e' q = u) by (rewrite (X q Hq); unfold update; rewrite Nat.eqb_refl; reflexivity).
  cbv beta. rewrite Ev. f_equal. apply Fq; [apply in_order; rewrite E; apply in_or_app; simpl; auto|].
  intros j Hj. pose proof (First _ _ _ E j Hj) as Hl.
  assert (Hj' : ~ In j (q :: o)).
  { intros Hi. apply in_split in Hl. destruct Hl as (a & b & ->). rewrite <- app_assoc in N. simpl in N.
    apply NoDup_remove_2 in N. apply N. rewrite !in_app_iff. auto. }
  simpl in Hj'. rewrite X by tauto. unfold update. destruct (Nat.eqb_spec j q); [subst; tauto|reflexivity].
Qed.

Lemma step : forall l1 q o x e u (h : (nat -> V) -> R) a, order = l1 ++ q :: o -> D q u ->
  iterated D I o (fun e => W o x e * h e) (update e q u) a <->
  iterated D I o (fun e => W (q :: o) x e * h e) (update e q u) (exp (sumR (q_log_prob (set_param th v x) q e u)) * a).
Proof.
  intros l1 q o x e u h a E Hu. set (c := exp (sumR (q_log_prob (set_param th v x) q e u))).
  assert (Hc : c <> 0) by (unfold c; pose proof (exp_pos (sumR (q_log_prob (set_param th v x) q e u))); lra).
  assert (T : forall j, In j o -> integral (D j) (I j)).
  { apply (tail_integral (l1 ++ [q])). rewrite <- app_assoc. exact E. }
  assert (F : forall e', on_space D o (update e q u) e' -> W (q :: o) x e' = c * W o x e').
  { intros e' He. cbn [map sumR]. rewrite exp_plus. f_equal. unfold c. f_equal. exact (head_factor l1 q o x e u e' E Hu He). }
  split; intros H.
  - apply (iterated_ext D I o T (fun e => c * (W o x e * h e))); [|apply iterated_scal; auto].
    intros e' He. cbv beta. pose proof (F e' He) as F'. cbv beta in F'. rewrite F'. ring.
  - replace a with (/ c * (c * a)) by (field; exact Hc).
    apply (iterated_ext D I o T (fun e => / c * (W (q :: o) x e * h e))); [|apply iterated_scal; auto].
    intros e' He. cbv beta. pose proof (F e' He) as F'. cbv beta in F'. rewrite F'. field. exact Hc.
Qed.

Definition good (x : R) : Prop := forall q e, In q qs -> I q (fun u => exp (sumR (q_log_prob (set_param th v x) q e u))) 1.
Lemma good_near : locally (th v) good.
Proof. exact One. Qed.
Lemma good_now : good (th v).
Proof. exact (locally_singleton _ _ good_near). Qed.

Lemma inhabited : forall q, In q qs -> exists u, D q u.
Proof.
  intros q Hq. destruct (classic (exists u, D q u)) as [H|H]; [exact H|]. exfalso.
  pose proof (good_now q e0 Hq) as G. pose proof (int_scal _ _ (HI q Hq) 0 _ _ G) as Z.
  assert (X : 1 = 0 * 1).
  { eapply (int_unique _ _ (HI q Hq)); [exact G|]. eapply (int_ext _ _ (HI q Hq)); [|exact Z]. intros u Hu. exfalso. apply H. exists u. exact Hu. }
  lra.
Qed.

Lemma marginal_by : forall o l1, order = l1 ++ o -> forall h, away h -> forall x, good x -> forall e e' a,
  (forall k, ~ In k ds -> e k = e' k) ->
  iterated D I o (fun e => W o (th v) e * h e) e a -> iterated D I o (fun e => W o x e * h e) e' a.
Proof.
  induction o as [|q o IH]; intros l1 E h Hh x Gx e e' a A H.
  - simpl in *. rewrite <- (Hh e e' A). exact H.
  - assert (E' : order = (l1 ++ [q]) ++ o) by (rewrite <- app_assoc; exact E).
    assert (Hq : In q qs) by (apply in_order; rewrite E; apply in_or_app; simpl; auto).
    pose proof (HI q Hq) as Iq. pose proof (tail_integral _ _ E') as T. destruct H as (k & H1 & H2).
    set (c := fun y e u => exp (sumR (q_log_prob (set_param th v y) q e u))).
    assert (Hc : forall y e u, c y e u <> 0) by (intros y s u; unfold c; pose proof (exp_pos (sumR (q_log_prob (set_param th v y) q s u))); lra).
    assert (K : forall u, D q u -> iterated D I o (fun e => W o (th v) e * h e) (update e q u) (k u / c (th v) e u)).
    { intros u Hu. apply (step l1 q o (th v) e u h _ E Hu). fold (c (th v) e u).
      replace (c (th v) e u * (k u / c (th v) e u)) with (k u) by (field; apply Hc). apply H1. exact Hu. }
    destruct (in_dec Nat.eq_dec q ds) as [Hd|Hd].
    + destruct (inhabited q Hq) as (u0 & Hu0). set (b := k u0 / c (th v) e u0).
      assert (B : forall y s, good y -> (forall k, ~ In k ds -> e k = s k) -> forall u, D q u -> iterated D I o (fun e => W o y e * h e) (update s q u) b).
      { intros y s Gy As u Hu. apply (IH _ E' h Hh y Gy (update e q u0)); [|apply K; exact Hu0].
        intros j Hj. unfold update. destruct (Nat.eqb_spec j q); [subst; tauto|auto]. }
      assert (Eb : forall u, D q u -> k u = b * c (th v) e u).
      { intros u Hu. assert (X : k u / c (th v) e u = b).
        { eapply iterated_unique; [exact T|apply K; exact Hu|]. apply B; [exact good_now|auto|exact Hu]. }
        rewrite <- X. field. apply Hc. }
      assert (Ea : a = b).
      { eapply (int_unique _ _ Iq); [exact H2|]. replace b with (b * 1) by ring.
        apply (int_ext _ _ Iq (fun u => b * c (th v) e u)); [intros u Hu; symmetry; apply Eb; exact Hu|]. apply (int_scal _ _ Iq). apply good_now. exact Hq. }
      rewrite Ea. exists (fun u => c x e' u * b). split.
      * intros u Hu. apply (step l1 q o x e' u h b E Hu). apply B; auto.
      * cut (I q (fun u => c x e' u * b) (b * 1)); [rewrite Rmult_1_r; auto|]. apply (int_ext _ _ Iq (fun u => b * c x e' u)); [intros; ring|]. apply (int_scal _ _ Iq). apply Gx. exact Hq.
    + assert (NR : ~ down g anything (tensor_of_var v) (value g q)).
      { intros X. apply Hd. destruct Facts as (F & _). apply F. auto. }
      assert (Ec : forall u, c x e' u = c (th v) e u).
      { intros u. unfold c. f_equal. f_equal. rewrite (Act q Hq NR x), (Act q Hq NR (th v)). apply Fq; auto.
        intros j Hj. symmetry. apply A. intros Hjd. apply Hd. exact (closed latent g tensor_of_var obs v ds VP VQ Facts j q Hq Hj Hjd). }
      exists k. split; [|exact H2]. intros u Hu. replace (k u) with (c x e' u * (k u / c (th v) e u)) by (rewrite Ec; field; apply Hc).
      apply (step l1 q o x e' u h _ E Hu). apply (IH _ E' h Hh x Gx (update e q u)); [|apply K; exact Hu].
      intros j Hj. unfold update. destruct (Nat.eqb j q); auto.
Qed.

Lemma total_by : forall o l1, order = l1 ++ o -> forall x, good x -> forall e, iterated D I o (fun e => W o x e) e 1.
Proof.
  induction o as [|q o IH]; intros l1 E x Gx e; [simpl; apply exp_0|].
  assert (E' : order = (l1 ++ [q]) ++ o) by (rewrite <- app_assoc; exact E).
  assert (Hq : In q qs) by (apply in_order; rewrite E; apply in_or_app; simpl; auto).
  pose proof (tail_integral _ _ E') as T.
  exists (fun u => exp (sumR (q_log_prob (set_param th v x) q e u)) * 1). split.
  - intros u Hu. apply (iterated_ext D I o T (fun e => W (q :: o) x e * 1)); [intros; cbv beta; ring|].
    apply (step l1 q o x e u (fun _ => 1) 1 E Hu).
    apply (iterated_ext D I o T (fun e => W o x e)); [intros; cbv beta; ring|]. apply (IH _ E' x Gx).
  - apply (int_ext _ _ (HI q Hq) (fun u => exp (sumR (q_log_prob (set_param th v x) q e u)))); [intros; ring|]. apply Gx. exact Hq.
Qed.

(** ** The density of the draws *)
Lemma f_sum : forall e x, f e x = sumR (map (fun q => Q x q e) order).
Proof.
  intros e x. unfold f, log_q. cbn [s_q]. rewrite (sumR_perm _ _ (Permutation_map _ Po)), map_map. apply sumR_map_ext. intros zq _.
  unfold factor. simpl. lra.
Qed.
Lemma dens_W : forall e x, dens (set_param th v x) e = W order x e.
Proof. intros e x. cbv beta. unfold draw_density. pose proof (f_sum e x) as F. unfold f in F. rewrite F. lra. Qed.
Lemma J_integral : integral (on_space D order e0) J.
Proof. apply iterated_integral. intros q Hq. apply HI. apply in_order. exact Hq. Qed.

Lemma total_near_by : nearby (fun t => J (dens t) 1) th v.
Proof.
  unfold nearby. eapply filter_imp; [|exact good_near]. intros x Gx. cbv beta.
  apply (int_ext _ _ J_integral (fun e => W order x e)); [intros e _; symmetry; apply dens_W|]. apply (total_by order [] eq_refl x Gx).
Qed.

Lemma f_ex : forall e, on_space D order e0 e -> differentiable (fun t => log_q q_log_prob latent [] t (mk e)) th v.
Proof.
  intros e [He _]. unfold differentiable.
  apply (ex_derive_ext (fun x => sumR (map (fun q => Q x q e) order))); [intros x; symmetry; apply (f_sum e x)|].
  assert (X : forall o, incl o order -> ex_derive (fun x => sumR (map (fun q => Q x q e) o)) (th v)).
  { induction o as [|q o IH]; intros Hi; simpl; [apply (ex_derive_const (K := R_AbsRing) (V := R_NormedModule))|].
    apply (ex_derive_plus (K := R_AbsRing) (V := R_NormedModule) (fun x => Q x q e) (fun x => sumR (map (fun q => Q x q e) o))).
    - assert (Hq : In q order) by (apply Hi; simpl; auto). apply (Diff q e (e q)); [apply in_order; exact Hq|auto].
    - apply IH. intros k Hk. apply Hi. simpl; auto. }
  apply X. intros k. auto.
Qed.

Lemma dens_derive_by : forall e, on_space D order e0 e -> is_derive (fun y => dens (set_param th v y) e) (th v) (dens th e * Derive (f e) (th v)).
Proof.
  intros e He. exact (dens_derive (A := nat -> V) q_log_prob latent (on_space D order e0) (fun e => mk e) (fun _ => 1) th v f_ex e He).
Qed.

(** The expected value of the score times what the variable does not act on. *)
Lemma score_away_by : forall h, away h -> interchange J (fun t e => dens t e * h e) th v -> J (fun e => dens th e * Derive (f e) (th v) * h e) 0.
Proof.
  intros h Hh (L & d & N & DL & ID).
  assert (Now : J (fun e => W order (th v) e * h e) (L th)).
  { pose proof (locally_singleton _ _ N) as Z. cbv beta in Z. apply (int_ext _ _ J_integral (fun e => dens (set_param th v (th v)) e * h e)).
    - intros e _. pose proof (dens_W e (th v)) as E. cbv beta in E. rewrite E. reflexivity.
    - rewrite set_same in Z. rewrite set_same. exact Z. }
  assert (E : d = 0).
  { apply is_derive_unique in DL. rewrite <- DL. rewrite (Derive_ext_loc _ (fun _ => L th)); [apply Derive_const|].
    unfold nearby in N. eapply filter_imp; [|apply (filter_and _ _ N good_near)]. intros y [A1 A2]. cbv beta in A1.
    apply (int_unique _ _ J_integral _ _ _ A1).
    apply (int_ext _ _ J_integral (fun e => W order y e * h e)).
    - intros e _. pose proof (dens_W e y) as Ey. cbv beta in Ey. rewrite Ey. reflexivity.
    - apply (marginal_by order [] eq_refl h Hh y A2 e0 e0 (L th)); [auto|exact Now]. }
  rewrite E in ID. apply (int_ext _ _ J_integral (fun x => partial (fun t => dens t x * h x) th v)); [|exact ID].
  intros e He. cbv beta. unfold partial.
  rewrite (Derive_ext _ (fun y => h e * dens (set_param th v y) e)) by (intros; apply Rmult_comm).
  rewrite Derive_scal. pose proof (is_derive_unique _ _ _ (dens_derive_by e He)) as U. transitivity (h e * (dens th e * Derive (f e) (th v))); [|cbv beta; ring]. f_equal. exact U.
Qed.

(** ** The gradient *)
Hypothesis Hu : forall zq, In zq latent -> factor scale (fst zq) = 1.
Hypothesis Hr : differentiable (penalty reg) th v.
Hypothesis Swap : forall c, rb_term log_prob q_log_prob latent scale obs prior th c -> interchange J (fun t e => dens t e * c e) th v.

Notation P := (fun (d : sample V) (k : nat) => p_term log_prob scale th (dict_swap latent d) k).

Lemma swap_dens : interchange J dens th v.
Proof.
  destruct (Swap _ (term_one _ _ _ _ _ _ _)) as (L & d & N & DL & ID). exists L, d. split; [|split; [exact DL|]].
  - unfold nearby in *. eapply filter_imp; [|exact N]. intros y Hy. eapply (int_ext _ _ J_integral); [|exact Hy]. intros; cbv beta; ring.
  - eapply (int_ext _ _ J_integral); [|exact ID]. intros e He. cbv beta. unfold partial. apply Derive_ext. intros y. ring.
Qed.

Lemma interchange_ext : forall (F G : params -> (nat -> V) -> R), (forall t e, F t e = G t e) -> interchange J F th v -> interchange J G th v.
Proof.
  intros F G E (L & d & N & DL & ID). exists L, d. split; [|split; [exact DL|]].
  - unfold nearby in *. eapply filter_imp; [|exact N]. intros y Hy. eapply (int_ext _ _ J_integral); [|exact Hy]. intros; apply E.
  - eapply (int_ext _ _ J_integral); [|exact ID]. intros e He. cbv beta. unfold partial. apply Derive_ext. intros y. apply E.
Qed.

Lemma dens_diff : forall e, on_space D order e0 e -> differentiable (fun t => dens t e) th v.
Proof. intros e He. eexists. exact (dens_derive_by e He). Qed.

Lemma swap_P : forall l, incl l rvs -> interchange J (fun t e => dens t e * sumR (map (P (mk e)) l)) th v.
Proof.
  intros l Hl. apply (interchange_sums (on_space D order e0) J J_integral th v dens swap_dens l (fun k e => P (mk e) k)).
  intros k Hk. eapply interchange_ext; [|apply (Swap _ (term_model _ _ _ _ _ _ _ k (Hl k Hk)))].
  intros t e. cbv beta zeta. f_equal. unfold p_term. rewrite (swap_bindings latent (mk e)) by (apply mk_posed; exact Nk).
  destruct (Feed.dict_get (bindings latent (mk e)) k); auto. rewrite weighted_sum, get_or_1_factor. reflexivity.
Qed.
Lemma swap_Q : forall l, incl l qs -> interchange J (fun t e => dens t e * sumR (map (fun q => Q (th v) q e) l)) th v.
Proof.
  intros l Hl. apply (interchange_sums (on_space D order e0) J J_integral th v dens swap_dens l (fun q e => Q (th v) q e)).
  intros q Hq. eapply interchange_ext; [|apply (Swap _ (term_approx _ _ _ _ _ _ _ q (Hl q Hq)))].
  intros t e. cbv beta. rewrite set_same. reflexivity.
Qed.

Lemma joint_sum : forall e, log_joint log_prob latent scale th (mk e) = sumR (map (P (mk e)) rvs).
Proof.
  intros e. rewrite <- p_total_spec by (apply mk_posed; exact Nk). unfold p_total, p_data, p_latents. rewrite !fold_sum.
  cbn [s_data]. rewrite map_app, sumR_app, !map_map. lra.
Qed.

Lemma f_split : forall e x, f e x = sumR (map (fun q => Q x q e) VQ) + sumR (map (fun q => Q (th v) q e) (others VQ qs)).
Proof.
  intros e x. destruct Facts as (F0 & _ & _ & _ & N). unfold f, log_q. cbn [s_q].
  transitivity (sumR (map (fun q => Q x q e) qs)).
  { rewrite map_map. apply sumR_map_ext. intros zq _. unfold factor. simpl. lra. }
  rewrite (sum_split (fun q => Q x q e) VQ qs Nq N (VQ_incl latent g tensor_of_var obs v ds VP VQ Facts)). f_equal. apply sumR_map_ext. intros q Hq.
  apply others_In in Hq. destruct Hq as [Hq Hn]. cbv beta. rewrite set_same. f_equal. apply Act; auto.
  intros X. apply Hn. apply (ds_VQ latent g tensor_of_var obs v ds VP VQ Facts). apply F0. auto.
Qed.

Notation kept := (fun e => sumR (map (P (mk e)) VP) - sumR (map (fun q => Q (th v) q e) VQ)).

Lemma gradient_last : forall l' e, on_space D order e0 e ->
  gradient (rb_objective log_prob q_log_prob latent scale reg (map fst obs) (fixed_draws (map (fun e => mk e) l' ++ [mk e])) VP VQ th) th v =
  - (Derive (f e) (th v) * kept e) + partial (penalty reg) th v.
Proof.
  intros l' e He. unfold gradient. apply is_derive_unique.
  set (c := kept e). set (k := sumR (map (fun q => Q (th v) q e) (others VQ qs))).
  apply (is_derive_ext (fun x => - (c * (f e x - k)) + penalty reg (set_param th v x))).
  { intros x. rewrite (objective_last log_prob q_log_prob latent scale reg g tensor_of_var obs th v Nk Nq ds VP VQ Facts Hu (map (fun e => mk e) l') (mk e) x).
    rewrite (f_split e x). unfold c, k. cbn [s_q]. rewrite set_same. lra. }
  apply (is_derive_plus (K := R_AbsRing) (V := R_NormedModule) (fun x => - (c * (f e x - k))) (fun x => penalty reg (set_param th v x))); [|apply derive_of; exact Hr].
  apply (is_derive_opp (K := R_AbsRing) (V := R_NormedModule) (fun x => c * (f e x - k))). rewrite Rmult_comm.
  apply (is_derive_scal (fun x => f e x - k)). replace (Derive (f e) (th v)) with (minus (Derive (f e) (th v)) 0) by (unfold minus, plus, opp; simpl; lra).
  apply (is_derive_minus (K := R_AbsRing) (V := R_NormedModule) (f e) (fun _ => k)); [apply derive_of, f_ex; exact He|].
  apply (is_derive_const (K := R_AbsRing) (V := R_NormedModule)).
Qed.

Lemma rb_expected_by : forall n L, (0 < n)%nat ->
  (forall e, on_space D order e0 e -> independent (fun t => log_joint log_prob latent scale t (mk e)) th v) ->
  let F := fun t e => dens t e * (log_joint log_prob latent scale t (mk e) - log_q q_log_prob latent scale t (mk e)) in
  interchange J F th v -> nearby (fun t => J (F t) (L t)) th v ->
  differentiable L th v /\
  expected_by (on_space D order e0) J (dens th) n
    (fun l => gradient (rb_objective log_prob q_log_prob latent scale reg (map fst obs) (fixed_draws (map (fun e => mk e) l)) VP VQ th) th v)
    (partial (fun t => - L t + penalty reg t) th v).
Proof.
  intros n L Hn Hi F SF NL.
  destruct (integral_gradient (A := nat -> V) q_log_prob latent (on_space D order e0) J J_integral (fun e => mk e) (fun _ => 1) th v f_ex total_near_by swap_dens
    (fun e => log_joint log_prob latent scale th (mk e)) 1 F L) as (d & DL & ID).
  { intros y e He. unfold F. rewrite (Hi e He y), (log_q_unscaled q_log_prob latent scale Hu). ring. }
  { exact SF. } { exact NL. }
  split; [exists d; exact DL|].
  set (h1 := fun e => sumR (map (P (mk e)) (others VP rvs))). set (h2 := fun e => sumR (map (fun q => Q (th v) q e) (others VQ qs))).
  assert (Z1 : J (fun e => dens th e * Derive (f e) (th v) * h1 e) 0).
  { apply score_away_by; [exact (away_P log_prob latent scale g tensor_of_var obs prior th v Nk Dp Fm ds VP VQ Facts)|].
    apply swap_P. intros k Hk. apply others_In in Hk. tauto. }
  assert (Z2 : J (fun e => dens th e * Derive (f e) (th v) * h2 e) 0).
  { apply score_away_by; [exact (away_Q q_log_prob latent g tensor_of_var obs th v Fq ds VP VQ Facts)|].
    apply swap_Q. intros k Hk. apply others_In in Hk. tauto. }
  set (G := fun e => - (Derive (f e) (th v) * kept e) + partial (penalty reg) th v).
  pose proof (locally_singleton _ _ total_near_by) as Now. cbv beta in Now. rewrite set_same in Now.
  assert (IG : J (fun e => dens th e * G e) (-1 * (d + -1 * 0 + 0) + partial (penalty reg) th v * 1)).
  { apply (int_ext _ _ J_integral (fun e => -1 * (dens th e * (Derive (f e) (th v) * (log_joint log_prob latent scale th (mk e) - 1 * f e (th v)))
      + -1 * (dens th e * Derive (f e) (th v) * h1 e) + dens th e * Derive (f e) (th v) * h2 e) + partial (penalty reg) th v * dens th e)).
    - intros e He. unfold G. rewrite (joint_sum e). destruct Facts as (_ & _ & Np & _).
      rewrite (sum_split (P (mk e)) VP rvs Nk Np (VP_incl latent g tensor_of_var obs v ds VP VQ Facts)), (f_split e (th v)). unfold h1, h2. ring.
    - apply (int_add _ _ J_integral); [|apply (int_scal _ _ J_integral); exact Now]. apply (int_scal _ _ J_integral).
      apply (int_add _ _ J_integral); [|exact Z2]. apply (int_add _ _ J_integral); [exact ID|]. apply (int_scal _ _ J_integral). exact Z1. }
  replace (partial (fun t => - L t + penalty reg t) th v) with (-1 * (d + -1 * 0 + 0) + partial (penalty reg) th v * 1).
  - apply (expected_by_ext _ _ _ n (fun l => G (last l e0))); [|apply (expected_by_last _ _ _ G _ e0 J_integral Now IG n Hn)].
    intros l Hl Hs. destruct (exists_last (l := l)) as (l' & e & ->). { intros ->. simpl in Hl. lia. }
    rewrite last_last, map_app. cbn [map]. rewrite gradient_last; [reflexivity|]. apply Hs. apply in_or_app. simpl; auto.
  - symmetry. unfold partial at 1. apply is_derive_unique.
    replace (-1 * (d + -1 * 0 + 0) + partial (penalty reg) th v * 1) with (plus (opp d) (partial (penalty reg) th v)) by (unfold plus, opp; simpl; ring).
    apply (is_derive_plus (K := R_AbsRing) (V := R_NormedModule) (fun y => - L (set_param th v y)) (fun y => penalty reg (set_param th v y))); [|apply derive_of; exact Hr].
    apply (is_derive_opp (K := R_AbsRing) (V := R_NormedModule) (fun y => L (set_param th v y))). exact DL.
Qed.
End RB.

Lemma rb_unbiased_by : forall {V} (log_prob : params -> nat -> list (nat * V) -> V -> list R) q_log_prob latent scale reg g tensor_of_var pick fuel
  obs prior D I order e0 th v n L,
  (0 < n)%nat -> NoDup (map fst latent ++ map fst obs) -> NoDup (map snd latent) ->
  single_producer g -> distinct_values g (map fst latent ++ map fst obs) -> distinct_values g (map snd latent) -> (enough g <= fuel)%nat ->
  Permutation order (map snd latent) -> parents_first g (map snd latent) order ->
  model_follows g (map fst latent ++ map fst obs) log_prob -> approximation_follows g (map snd latent) q_log_prob ->
  acts_along_graph g tensor_of_var (map snd latent) q_log_prob th v ->
  (forall q, In q (map snd latent) -> integral (D q) (I q)) ->
  nearby (fun t => forall q e, In q (map snd latent) -> I q (fun u => exp (sumR (q_log_prob t q e u))) 1) th v ->
  (forall q e u, In q (map snd latent) -> D q u -> differentiable (fun t => sumR (q_log_prob t q e u)) th v) ->
  (forall zq, In zq latent -> factor scale (fst zq) = 1) -> differentiable (penalty reg) th v ->
  let draw := fun e => mksample e obs prior in
  let J := fun f => iterated D I order f e0 in
  let density := fun t e => draw_density q_log_prob latent (fun _ => 1) t (draw e) in
  let F := fun t e => density t e * (log_joint log_prob latent scale t (draw e) - log_q q_log_prob latent scale t (draw e)) in
  (forall c, rb_term log_prob q_log_prob latent scale obs prior th c -> interchange J (fun t e => density t e * c e) th v) ->
  (forall e, on_space D order e0 e -> independent (fun t => log_joint log_prob latent scale t (draw e)) th v) ->
  interchange J F th v -> nearby (fun t => J (F t) (L t)) th v ->
  differentiable L th v /\
  expected_by (on_space D order e0) J (density th) n (fun l =>
    rb_gradient log_prob q_log_prob latent scale reg g tensor_of_var pick fuel (map fst obs) (fixed_draws (map draw l)) th v)
    (partial (fun t => - L t + penalty reg t) th v).
Proof.
  intros V log_prob q_log_prob latent scale reg g tv pick fuel obs prior D I order e0 th v n L Hn Nk Nq Sg Dp Dq Hf Po First Fm Fq Act HI One Diff Hu Hr draw J density F Swap Hi SF NL.
  destruct (rb_sets_facts latent g tv pick fuel obs v Nq Sg Dp Dq Hf) as (ds & VP & VQ & _ & E & Facts).
  unfold rb_gradient. rewrite E.
  exact (rb_expected_by log_prob q_log_prob latent scale reg g tv obs prior D I order e0 th v Nk Nq Dp Po First Fm Fq Act HI One Diff ds VP VQ Facts Hu Hr Swap n L Hn Hi SF NL).
Qed.
