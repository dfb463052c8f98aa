(** * Proofs for C66: Rao-Blackwellized score gradients. *)
From Coquelicot Require Import Coquelicot.
From Coq Require Import Reals List Arith Bool Lia Lra Permutation.
From Verif Require Import Graph GraphSpec GraphProofs BayesBallProofs Feed Transform TransformProofs VI VISpec VIProofs VIGradProofs RBSpec.
Import ListNotations.
Local Open Scope R_scope.

(** ** Sums *)
Lemma sumR_perm : forall a b, Permutation a b -> sumR a = sumR b.
Proof. intros a b P. induction P; simpl; lra. Qed.

Lemma memb_In : forall x l, memb x l = true <-> In x l.
Proof.
  intros x l. unfold memb. rewrite existsb_exists. split.
  - intros (y & Hy & E). apply Nat.eqb_eq in E. subst. auto.
  - intros H. exists x. split; auto. apply Nat.eqb_refl.
Qed.

Definition others (part all : list nat) : list nat := filter (fun k => negb (memb k part)) all.
Lemma others_In : forall part all k, In k (others part all) <-> In k all /\ ~ In k part.
Proof.
  intros part all k. unfold others. rewrite filter_In, negb_true_iff, <- (memb_In k part). destruct (memb k part); intuition congruence.
Qed.

Lemma sum_split : forall (f : nat -> R) part all, NoDup all -> NoDup part -> incl part all ->
  sumR (map f all) = sumR (map f part) + sumR (map f (others part all)).
Proof.
  intros f part all Na Np Hi. rewrite <- sumR_app, <- map_app. apply sumR_perm, Permutation_map, NoDup_Permutation; auto.
  - assert (X : forall l, NoDup l -> (forall k, In k l -> In k (others part all)) -> NoDup (part ++ l)).
    { clear Hi. induction part as [|p part IH]; intros l Nl Hl; simpl; auto. inversion Np; subst. constructor.
      - rewrite in_app_iff. intros [A|A]; [auto|]. apply Hl, others_In in A. simpl in A. tauto.
      - apply IH; auto. intros k Hk. apply Hl, others_In in Hk. apply others_In. simpl in Hk. tauto. }
    apply X; auto. apply NoDup_filter. auto.
  - intros k. rewrite in_app_iff, others_In. split; [|intros [A|A]; [auto|tauto]].
    intros H. destruct (in_dec Nat.eq_dec k part); tauto.
Qed.

Lemma sumR_flat_map : forall {A B} (l : list A) (f : A -> list B) (h : B -> R),
  sumR (map h (flat_map f l)) = sumR (map (fun a => sumR (map h (f a))) l).
Proof. induction l as [|a l IH]; intros f h; simpl; auto. rewrite map_app, sumR_app, IH. auto. Qed.

Lemma get_absent : forall {V} (d : list (nat * V)) k, ~ In k (map fst d) -> Feed.dict_get d k = None.
Proof.
  intros V d k. induction d as [|[j w] d IH]; simpl; auto. intros H. destruct (Nat.eqb_spec j k); [subst; tauto|auto].
Qed.
Lemma get_app : forall {V} (a b : list (nat * V)) k,
  Feed.dict_get (a ++ b) k = match Feed.dict_get a k with Some v => Some v | None => Feed.dict_get b k end.
Proof. intros V a b k. induction a as [|[j w] a IH]; simpl; auto. destruct (Nat.eqb j k); auto. Qed.

(** ** Assignments *)
Section A.
Context {V : Type}.
Variable vals : nat -> list V.

Lemma all_values_app : forall o o' e, all_values vals (o ++ o') e = flat_map (all_values vals o') (all_values vals o e).
Proof.
  induction o as [|q o IH]; intros o' e; simpl; [rewrite app_nil_r; auto|].
  induction (vals q) as [|u us IHu]; simpl; auto. rewrite flat_map_app, IH, IHu. auto.
Qed.
Lemma all_values_snoc : forall o q e, all_values vals (o ++ [q]) e = flat_map (fun f => map (update f q) (vals q)) (all_values vals o e).
Proof.
  intros o q e. rewrite all_values_app. apply flat_map_ext. intros f. simpl. induction (vals q) as [|u us IH]; simpl; congruence.
Qed.
End A.

Lemma locally_list : forall {A} (l : list A) (P : A -> R -> Prop) t, (forall a, In a l -> locally t (P a)) -> locally t (fun x => forall a, In a l -> P a x).
Proof.
  induction l as [|a l IH]; intros P t H.
  - apply filter_forall. intros x a [].
  - assert (H1 : locally t (P a)) by (apply H; simpl; auto).
    assert (H2 : locally t (fun x => forall b, In b l -> P b x)) by (apply IH; intros; apply H; simpl; auto).
    eapply filter_imp; [|apply (filter_and _ _ H1 H2)]. intros x [A1 A2] b [<-|Hb]; auto.
Qed.

Lemma expected_last : forall {A} (space : list A) w (G : A -> R) (d0 : A), sumR (map w space) = 1 -> forall n, (0 < n)%nat ->
  expected space w n (fun l => G (last l d0)) = mean_of space w G.
Proof.
  intros A space w G d0 Hw. destruct n as [|n]; [lia|]. intros _. revert d0. induction n as [|n IH]; intros d0; [simpl; auto|].
  change (expected space w (S (S n)) (fun l => G (last l d0))) with (sumR (map (fun a => w a * expected space w (S n) (fun l => G (last (a :: l) d0))) space)).
  rewrite (sumR_map_ext space _ (fun a => mean_of space w G * w a)).
  - rewrite sumR_map_scal. change (map (fun a => w a) space) with (map w space). rewrite Hw. lra.
  - intros a _. rewrite (expected_ext space w (S n) _ (fun l => G (last l d0))).
    + rewrite IH. lra.
    + intros l Hl _. destruct l as [|b l]; [discriminate|]. auto.
Qed.

Section Sets.
Context {V : Type}.
Variable latent : list (nat * nat).
Variable g : graph.
Variable tensor_of_var : nat -> nat.
Variable pick : nat -> nat.
Variable fuel : nat.
Variable obs : list (nat * V).
Variable v : nat.
Notation qs := (map snd latent).
Notation rvs := (map fst latent ++ map fst obs).
Hypothesis Nq : NoDup qs.
Hypothesis Sg : single_producer g.
Hypothesis Dp : distinct_values g rvs.
Hypothesis Dq : distinct_values g qs.
Hypothesis Hf : (enough g <= fuel)%nat.

(** ** The sets *)
Lemma reverse_get : forall z q, In (z, q) latent -> Feed.dict_get (reverse_latent_vars latent) q = Some z.
Proof.
  assert (X : forall (l acc : list (nat * nat)) (z q : nat), NoDup (map snd l) -> In (z, q) l ->
    Feed.dict_get (fold_left (fun acc zq => dict_set acc (snd zq) (fst zq)) l acc) q = Some z).
  { induction l as [|[z' q'] l IH]; intros acc z q N H; [destruct H|]. simpl in N. inversion N; subst.
    destruct (in_dec Nat.eq_dec q (map snd l)) as [Hq|Hq].
    - simpl. apply IH; auto. destruct H as [E|H]; [|auto]. inversion E; subst. tauto.
    - destruct H as [E|H].
      + inversion E; subst. simpl. clear IH N H2 H3. revert Hq. assert (Y : Feed.dict_get (dict_set acc q z) q = Some z) by (rewrite get_set, Nat.eqb_refl; auto).
        revert Y. generalize (dict_set acc q z). induction l as [|[z'' q''] l IH]; intros d Y Hq; simpl; auto. apply IH.
        * rewrite get_set. destruct (Nat.eqb_spec q'' q); [subst; simpl in Hq; tauto|auto].
        * simpl in Hq. tauto.
      + exfalso. apply Hq. apply in_map_iff. exists (z, q). auto. }
  intros z q H. apply X; auto.
Qed.

Definition rb_facts (ds VP VQ : list nat) : Prop :=
  (forall q, In q ds <-> In q qs /\ down g anything (tensor_of_var v) (value g q)) /\
  (forall k, In k VP <-> exists z q, In (z, q) latent /\ In q ds /\ in_blanket g rvs z k) /\ NoDup VP /\
  (forall k, In k VQ <-> exists q, In q ds /\ in_blanket g qs q k) /\ NoDup VQ.

Lemma blanket_self : forall coll x, single_producer g -> distinct_values g coll -> In x coll ->
  exists l, get_blanket g coll pick fuel (NRV x) = Some l /\ forall r, In r (l ++ [x]) <-> in_blanket g coll x r.
Proof.
  intros coll x S D Hx. destruct (get_blanket_exact g coll pick fuel x S D Hx Hf) as (l & E & N & H).
  exists l. split; auto. intros r. rewrite in_app_iff. simpl. rewrite H. unfold in_blanket.
  destruct (Nat.eq_dec r x) as [->|Hn]; [tauto|]. split; [intros [(_ & A)|[A|[]]]; [auto|congruence]|]. intros [A|A]; [congruence|auto].
Qed.

Lemma rb_sets_facts : exists ds VP VQ, q_descendants latent g tensor_of_var pick fuel v = Some ds /\
  rb_sets latent g tensor_of_var pick fuel (map fst obs) v = Some (VP, VQ) /\ rb_facts ds VP VQ.
Proof.
  destruct (get_descendants_exact g qs pick fuel (NT (tensor_of_var v)) Dq Hf) as (ds & E & Nd & Hd).
  assert (Hd' : forall q, In q ds <-> In q qs /\ down g anything (tensor_of_var v) (value g q)).
  { intros q. rewrite Hd. simpl. split; [tauto|]. intros [A B]. repeat split; auto. discriminate. }
  exists ds. unfold rb_sets, q_descendants. rewrite E.
  set (fp := fun qz => match Feed.dict_get (reverse_latent_vars latent) qz with
              | None => None
              | Some z => match get_blanket g rvs pick fuel (NRV z) with Some l => Some (l ++ [z]) | None => None end end).
  set (fq := fun qz => match get_blanket g qs pick fuel (NRV qz) with Some l => Some (l ++ [qz]) | None => None end).
  assert (FP : forall z q, In (z, q) latent -> exists l, fp q = Some l /\ forall r, In r l <-> in_blanket g rvs z r).
  { intros z q Hz. unfold fp. rewrite (reverse_get z q Hz).
    destruct (blanket_self rvs z Sg Dp) as (l & El & Hl). { apply in_or_app. left. apply in_map_iff. exists (z, q). auto. }
    rewrite El. exists (l ++ [z]). auto. }
  assert (FQ : forall q, In q qs -> exists l, fq q = Some l /\ forall r, In r l <-> in_blanket g qs q r).
  { intros q Hq. unfold fq. destruct (blanket_self qs q Sg Dq Hq) as (l & El & Hl). rewrite El. exists (l ++ [q]). auto. }
  destruct (blankets_in fp ds []) as (VP & EP & HP).
  { intros q Hq. apply Hd' in Hq. destruct Hq as [Hq _]. apply in_map_iff in Hq. destruct Hq as ([z q'] & <- & Hz).
    destruct (FP z q' Hz) as (l & El & _). exists l. auto. }
  destruct (blankets_in fq ds []) as (VQ & EQ & HQ).
  { intros q Hq. apply Hd' in Hq. destruct (FQ q (proj1 Hq)) as (l & El & _). exists l. auto. }
  exists VP, VQ. split; auto. change (rvs) with rvs. rewrite EP, EQ. split; auto.
  split; [auto|]. split; [|split; [eapply blankets_nodup; [|exact EP]; constructor|split; [|eapply blankets_nodup; [|exact EQ]; constructor]]].
  - intros k. rewrite HP. split.
    + intros [[]|(q & l & Hq & El & Hk)]. pose proof (proj1 (Hd' q) Hq) as [Hq' _]. apply in_map_iff in Hq'. destruct Hq' as ([z q'] & Eq & Hz).
      simpl in Eq. subst. destruct (FP z q Hz) as (l' & El' & Hl'). rewrite El in El'. inversion El'; subst. exists z, q. repeat split; auto. apply Hl'. auto.
    + intros (z & q & Hz & Hq & Hb). right. destruct (FP z q Hz) as (l & El & Hl). exists q, l. repeat split; auto. apply Hl. auto.
  - intros k. rewrite HQ. split.
    + intros [[]|(q & l & Hq & El & Hk)]. exists q. split; auto. destruct (FQ q) as (l' & El' & Hl'); [apply Hd'; auto|].
      rewrite El in El'. inversion El'; subst. apply Hl'. auto.
    + intros (q & Hq & Hb). right. destruct (FQ q) as (l & El & Hl); [apply Hd'; auto|]. exists q, l. repeat split; auto. apply Hl. auto.
Qed.

End Sets.

Section RB.
Context {V : Type}.
Notation dict := (list (nat * V)).
Variable log_prob : params -> nat -> dict -> V -> list R.
Variable q_log_prob : params -> nat -> (nat -> V) -> V -> list R.
Variable latent : list (nat * nat).
Variable scale : list (nat * R).
Variable reg : params -> list R.
Variable g : graph.
Variable tensor_of_var : nat -> nat.
Variable pick : nat -> nat.
Variable fuel : nat.
Variable obs : dict.
Variable prior : nat -> V.
Variable vals : nat -> list V.
Variable order : list nat.
Variable e0 : nat -> V.
Variable th : params.
Variable v : nat.
Notation qs := (map snd latent).
Notation zs := (map fst latent).
Notation rvs := (map fst latent ++ map fst obs).
Hypothesis Nk : NoDup rvs.
Hypothesis Nq : NoDup qs.
Hypothesis Sg : single_producer g.
Hypothesis Dp : distinct_values g rvs.
Hypothesis Dq : distinct_values g qs.
Hypothesis Hf : (enough g <= fuel)%nat.

(** ** The expected value of the score times what the variable does not act on *)
Hypothesis Po : Permutation order qs.
Hypothesis First : parents_first g qs order.
Hypothesis Fm : model_follows g rvs log_prob.
Hypothesis Fq : approximation_follows g qs q_log_prob.
Hypothesis Act : acts_along_graph g tensor_of_var qs q_log_prob th v.
Hypothesis One : forall q e, In q qs -> nearby (fun t => sumR (map (fun u => exp (sumR (q_log_prob t q e u))) (vals q)) = 1) th v.
Hypothesis Diff : forall q e u, In q qs -> differentiable (fun t => sumR (q_log_prob t q e u)) th v.

Let Q (x : R) (q : nat) (e : nat -> V) : R := sumR (q_log_prob (set_param th v x) q e (e q)).
Let W (o : list nat) (x : R) (e : nat -> V) : R := exp (sumR (map (fun q => Q x q e) o)).

Variables ds VP VQ : list nat.
Hypothesis Facts : rb_facts latent g tensor_of_var obs v ds VP VQ.

Definition away (h : (nat -> V) -> R) : Prop := forall e e', (forall k, ~ In k ds -> e k = e' k) -> h e = h e'.

Lemma parent_in_qs : forall j q, parent_rel g qs j q -> In j qs.
Proof. intros j q (H & _). auto. Qed.

Lemma closed : forall j q, In q qs -> parent_rel g qs j q -> In j ds -> In q ds.
Proof.
  intros j q Hq (Hj & _ & Hu) Hd. destruct Facts as (F & _). apply F. apply F in Hd. split; auto. destruct Hd as [_ Hd].
  assert (Hu' : down g anything (value g j) (value g q)).
  { apply up_down_anything. clear -Hu. induction Hu; [constructor|econstructor; eauto; exact I]. }
  clear -Hd Hu'. induction Hd; auto. econstructor; eauto. 
Qed.

Lemma W_snoc : forall o q l2 x e u, order = o ++ q :: l2 -> W (o ++ [q]) x (update e q u) = W o x e * exp (sumR (q_log_prob (set_param th v x) q e u)).
Proof.
  intros o q l2 x e u E. assert (N : NoDup order) by (eapply Permutation_NoDup; [apply Permutation_sym; exact Po|auto]).
  assert (Hin : forall k, In k order -> In k qs) by (intros k; apply Permutation_in; auto).
  unfold W. rewrite map_app, sumR_app, exp_plus. f_equal.
  - f_equal. f_equal. apply map_ext_in. intros j Hj. unfold Q.
    assert (Hjq : j <> q). { intros ->. rewrite E in N. apply NoDup_remove_2 in N. apply N. apply in_or_app. auto. }
    unfold update at 2. destruct (Nat.eqb_spec j q); [congruence|]. f_equal. apply Fq; [apply Hin; rewrite E; apply in_or_app; auto|].
    intros k Hk. unfold update. destruct (Nat.eqb_spec k q); [|auto]. subst k. exfalso.
    apply in_split in Hj. destruct Hj as (a & b & ->). rewrite <- app_assoc in E. simpl in E.
    pose proof (First _ _ _ E q Hk) as X. rewrite E in N.
    replace (a ++ j :: b ++ q :: l2) with ((a ++ j :: b) ++ q :: l2) in N by (rewrite <- app_assoc; auto).
    apply NoDup_remove_2 in N. apply N. rewrite !in_app_iff. auto.
  - simpl. unfold Q. f_equal. rewrite Rplus_0_r. unfold update at 2. rewrite Nat.eqb_refl. f_equal.
    apply Fq; [apply Hin; rewrite E; apply in_or_app; simpl; auto|]. intros k (_ & Hk & _). unfold update. destruct (Nat.eqb_spec k q); [congruence|auto].
Qed.

Lemma marginal : forall o l2, order = o ++ l2 -> forall h, away h ->
  locally (th v) (fun x => sumR (map (fun e => W o x e * h e) (all_values vals o e0)) = sumR (map (fun e => W o (th v) e * h e) (all_values vals o e0))).
Proof.
  induction o as [|q o IH] using rev_ind; intros l2 E h Hh.
  - apply filter_forall. intros x. unfold W. simpl. auto.
  - rewrite <- app_assoc in E. simpl in E. assert (Hq : In q qs) by (apply (Permutation_in _ Po); rewrite E; apply in_or_app; simpl; auto).
    assert (Sum : forall x, sumR (map (fun e => W (o ++ [q]) x e * h e) (all_values vals (o ++ [q]) e0)) =
      sumR (map (fun e => W o x e * sumR (map (fun u => exp (sumR (q_log_prob (set_param th v x) q e u)) * h (update e q u)) (vals q))) (all_values vals o e0))).
    { intros x. rewrite all_values_snoc, sumR_flat_map. apply sumR_map_ext. intros e _. rewrite map_map, <- sumR_map_scal. apply sumR_map_ext.
      intros u _. rewrite (W_snoc o q l2 x e u E). lra. }
    destruct (in_dec Nat.eq_dec q ds) as [Hd|Hd].
    + assert (L : locally (th v) (fun x => forall e, In e (all_values vals o e0) -> sumR (map (fun u => exp (sumR (q_log_prob (set_param th v x) q e u))) (vals q)) = 1)).
      { apply (locally_list (all_values vals o e0) (fun e x => sumR (map (fun u => exp (sumR (q_log_prob (set_param th v x) q e u))) (vals q)) = 1)).
        intros e _. apply (One q e Hq). }
      assert (L0 : forall e, sumR (map (fun u => exp (sumR (q_log_prob (set_param th v (th v)) q e u))) (vals q)) = 1).
      { intros e. apply (locally_singleton _ _ (One q e Hq)). }
      assert (K : forall e u, h (update e q u) = h e).
      { intros e u. apply Hh. intros k Hk. unfold update. destruct (Nat.eqb_spec k q); [subst; tauto|auto]. }
      assert (R1 : forall x, (forall e, In e (all_values vals o e0) -> sumR (map (fun u => exp (sumR (q_log_prob (set_param th v x) q e u))) (vals q)) = 1) ->
        sumR (map (fun e => W (o ++ [q]) x e * h e) (all_values vals (o ++ [q]) e0)) = sumR (map (fun e => W o x e * h e) (all_values vals o e0))).
      { intros x Hx. rewrite Sum. apply sumR_map_ext. intros e He. f_equal.
        rewrite (sumR_map_ext _ _ (fun u => h e * exp (sumR (q_log_prob (set_param th v x) q e u)))) by (intros u _; rewrite K; lra).
        rewrite sumR_map_scal. replace (map (fun a => exp (sumR (q_log_prob (set_param th v x) q e a))) (vals q)) with
          (map (fun u => exp (sumR (q_log_prob (set_param th v x) q e u))) (vals q)) by auto. rewrite Hx by auto. lra. }
      eapply filter_imp; [|apply (filter_and _ _ L (IH (q :: l2) E h Hh))].
      intros x [Hx Hi]. cbv beta in Hi. rewrite R1 by auto. rewrite (R1 (th v)) by auto. auto.
    + set (h' := fun e => sumR (map (fun u => exp (sumR (q_log_prob th q e u)) * h (update e q u)) (vals q))).
      assert (Hh' : away h').
      { intros e e' A. unfold h'. apply sumR_map_ext. intros u _. f_equal.
        - f_equal. f_equal. apply Fq; auto. intros j Hj. apply A. intros Hjd. apply Hd. eapply closed; eauto.
        - apply Hh. intros k Hk. unfold update. destruct (Nat.eqb k q); auto. }
      assert (NR : ~ down g anything (tensor_of_var v) (value g q)).
      { intros D. apply Hd. destruct Facts as (F & _). apply F. auto. }
      assert (R1 : forall x, sumR (map (fun e => W (o ++ [q]) x e * h e) (all_values vals (o ++ [q]) e0)) = sumR (map (fun e => W o x e * h' e) (all_values vals o e0))).
      { intros x. rewrite Sum. apply sumR_map_ext. intros e He. f_equal. unfold h'. apply sumR_map_ext. intros u _.
        rewrite (Act q Hq NR). auto. }
      eapply filter_imp; [|apply (IH (q :: l2) E h' Hh')]. intros x Hi. cbv beta in Hi. rewrite !R1. auto.
Qed.

Notation space := (all_draws vals order e0 obs prior).
Notation one := (fun _ : sample V => 1).
Notation dens := (draw_density q_log_prob latent one).
Let f (d : sample V) (x : R) : R := log_q q_log_prob latent [] (set_param th v x) d.

Lemma f_order : forall e x, f (mksample e obs prior) x = sumR (map (fun q => Q x q e) order).
Proof.
  intros e x. unfold f, log_q. simpl. rewrite (sumR_perm _ _ (Permutation_map _ Po)), map_map. apply sumR_map_ext. intros zq _.
  unfold factor. simpl. unfold Q. lra.
Qed.

Lemma f_diff : forall d, In d space -> ex_derive (f d) (th v).
Proof.
  intros d Hd. unfold all_draws in Hd. apply in_map_iff in Hd. destruct Hd as (e & <- & _).
  apply (ex_derive_ext (fun x => sumR (map (fun q => Q x q e) order))); [intros; symmetry; apply f_order|].
  assert (X : forall o, incl o qs -> ex_derive (fun x => sumR (map (fun q => Q x q e) o)) (th v)).
  { induction o as [|q o IH]; intros Hi; simpl; [apply (ex_derive_const (K := R_AbsRing) (V := R_NormedModule))|].
    apply (ex_derive_plus (K := R_AbsRing) (V := R_NormedModule) (fun x => Q x q e) (fun x => sumR (map (fun q => Q x q e) o))).
    - unfold Q. apply (Diff q e (e q)). apply Hi. simpl; auto.
    - apply IH. intros k Hk. apply Hi. simpl; auto. }
  apply X. intros k. apply Permutation_in. auto.
Qed.

Lemma dens_W : forall e x, dens (set_param th v x) (mksample e obs prior) = W order x e.
Proof. intros e x. unfold draw_density. pose proof (f_order e x) as F. unfold f in F. rewrite F. unfold W. lra. Qed.

Lemma constant_marginal : forall h, away h -> locally (th v) (fun x => mean_of space (dens (set_param th v x)) (fun d => h (s_q d)) = mean_of space (dens th) (fun d => h (s_q d))).
Proof.
  intros h Hh. pose proof (marginal order [] (eq_sym (app_nil_r order)) h Hh) as M.
  eapply filter_imp; [|exact M]. intros x Hx. cbv beta in Hx.
  replace (mean_of space (dens th) (fun d => h (s_q d))) with (mean_of space (dens (set_param th v (th v))) (fun d => h (s_q d))) by (rewrite set_same; auto).
  unfold mean_of, all_draws. rewrite !map_map. cbn [s_q].
  rewrite (sumR_map_ext _ _ (fun e => W order x e * h e)) by (intros; rewrite dens_W; auto). rewrite Hx.
  apply sumR_map_ext. intros e _. rewrite dens_W. auto.
Qed.

Lemma score_away : forall h, away h -> mean_of space (dens th) (fun d => Derive (f d) (th v) * h (s_q d)) = 0.
Proof.
  intros h Hh.
  assert (D : is_derive (fun x => mean_of space (dens (set_param th v x)) (fun d => h (s_q d))) (th v) (mean_of space (dens th) (fun d => Derive (f d) (th v) * h (s_q d)))).
  { unfold mean_of. apply (is_derive_sumR space (fun d x => dens (set_param th v x) d * h (s_q d)) (fun d => dens th d * (Derive (f d) (th v) * h (s_q d)))). intros d Hd.
    pose proof (is_derive_weight space one f (th v) f_diff d Hd) as Z.
    replace (dens th d * (Derive (f d) (th v) * h (s_q d))) with (h (s_q d) * (1 * exp (f d (th v)) * Derive (f d) (th v))).
    - apply (is_derive_ext (fun x => h (s_q d) * (1 * exp (f d x)))); [intros x; rewrite Rmult_comm; auto|].
      apply (is_derive_scal (fun x => 1 * exp (f d x))). exact Z.
    - assert (E : dens th d = 1 * exp (f d (th v))) by (unfold f; rewrite set_same; auto). rewrite E. lra. }
  assert (D' : is_derive (fun x => mean_of space (dens (set_param th v x)) (fun d => h (s_q d))) (th v) 0).
  { apply (is_derive_ext_loc (fun _ => mean_of space (dens th) (fun d => h (s_q d)))).
    - eapply filter_imp; [|exact (constant_marginal h Hh)]. intros x Hx. symmetry. exact Hx.
    - apply (is_derive_const (K := R_AbsRing) (V := R_NormedModule)). }
  apply is_derive_unique in D. apply is_derive_unique in D'. congruence.
Qed.

Lemma total_near : nearby (fun t => sumR (map (dens t) space) = 1) th v.
Proof.
  assert (X : forall o l2, order = o ++ l2 -> locally (th v) (fun x => sumR (map (W o x) (all_values vals o e0)) = 1)).
  { induction o as [|q o IH] using rev_ind; intros l2 E.
    - apply filter_forall. intros x. unfold W. simpl. rewrite exp_0. lra.
    - rewrite <- app_assoc in E. simpl in E. assert (Hq : In q qs) by (apply (Permutation_in _ Po); rewrite E; apply in_or_app; simpl; auto).
      assert (L : locally (th v) (fun x => forall e, In e (all_values vals o e0) -> sumR (map (fun u => exp (sumR (q_log_prob (set_param th v x) q e u))) (vals q)) = 1)).
      { apply (locally_list (all_values vals o e0) (fun e x => sumR (map (fun u => exp (sumR (q_log_prob (set_param th v x) q e u))) (vals q)) = 1)).
        intros e _. apply (One q e Hq). }
      eapply filter_imp; [|apply (filter_and _ _ L (IH (q :: l2) E))]. intros x [Hx Hi]. cbv beta in Hi. eapply eq_trans; [|exact Hi].
      rewrite all_values_snoc, sumR_flat_map. apply sumR_map_ext. intros e He. rewrite map_map.
      rewrite (sumR_map_ext _ _ (fun u => W o x e * exp (sumR (q_log_prob (set_param th v x) q e u)))) by (intros u _; apply (W_snoc o q l2 x e u E)).
      rewrite sumR_map_scal, Hx by auto. lra. }
  unfold nearby. eapply filter_imp; [|exact (X order [] (eq_sym (app_nil_r order)))]. intros x Hx. cbv beta in Hx. eapply eq_trans; [|exact Hx].
  unfold all_draws. rewrite map_map. apply sumR_map_ext. intros e _. apply dens_W.
Qed.

(** ** The gradient *)
Hypothesis Hu : forall zq, In zq latent -> factor scale (fst zq) = 1.
Hypothesis Hr : differentiable (penalty reg) th v.

Let P (d : sample V) (k : nat) : R := p_term log_prob scale th (dict_swap latent d) k.

Lemma space_posed : forall d, In d space -> posed latent d.
Proof.
  intros d Hd. unfold all_draws in Hd. apply in_map_iff in Hd. destruct Hd as (e & <- & _). unfold posed. simpl.
  assert (X : forall a b : list nat, NoDup (a ++ b) -> NoDup a /\ NoDup b /\ forall k, In k a -> In k b -> False).
  { induction a as [|k a IH]; intros b N; simpl in *; [repeat split; auto; constructor|]. inversion N; subst. destruct (IH b H2) as (A & B & C).
    repeat split; auto. - constructor; auto. intros H. apply H1. apply in_or_app. auto.
    - intros j [<-|Hj] Hb; [apply H1, in_or_app; auto|eapply C; eauto]. }
  apply X. exact Nk.
Qed.

Lemma joint_P : forall d, In d space -> log_joint log_prob latent scale th d = sumR (map (P d) rvs).
Proof.
  intros d Hd. rewrite <- p_total_spec by (apply space_posed; auto). unfold p_total, p_data, p_latents. rewrite !fold_sum.
  assert (E : s_data d = obs) by (unfold all_draws in Hd; apply in_map_iff in Hd; destruct Hd as (e & <- & _); auto).
  rewrite E, map_app, sumR_app, !map_map. unfold P. lra.
Qed.

Lemma VP_incl : incl VP rvs.
Proof.
  intros k Hk. destruct Facts as (_ & F & _). apply F in Hk. destruct Hk as (z & q & Hz & _ & Hb).
  destruct Hb as [->|[(H & _)|[(H & _)|(c & _ & (H & _))]]]; auto. apply in_or_app. left. apply in_map_iff. exists (z, q). auto.
Qed.
Lemma VQ_incl : incl VQ qs.
Proof.
  intros k Hk. destruct Facts as (F0 & _ & _ & F & _). apply F in Hk. destruct Hk as (q & Hq & Hb).
  destruct Hb as [->|[(H & _)|[(H & _)|(c & _ & (H & _))]]]; auto. apply F0. auto.
Qed.
Lemma ds_VQ : incl ds VQ.
Proof. intros q Hq. destruct Facts as (_ & _ & _ & F & _). apply F. exists q. split; auto. left. auto. Qed.

(** What is left out of the two sets. *)
Lemma lookup_latent : forall (d : sample V) z, posed latent d -> forall q, In (z, q) latent -> Feed.dict_get (dict_swap latent d) z = Some (s_q d q).
Proof.
  intros d z Hp q Hz. rewrite swap_bindings by auto. apply get_present; [apply bindings_nodup; auto|].
  unfold bindings, latent_values. apply in_or_app. right. apply in_map_iff. exists (z, q). auto.
Qed.
Lemma lookup_data : forall (d : sample V) x, posed latent d -> s_data d = obs -> ~ In x zs -> Feed.dict_get (dict_swap latent d) x = Feed.dict_get obs x.
Proof.
  intros d x Hp E Hx. rewrite swap_bindings by auto. unfold bindings. rewrite E. unfold latent_values.
  rewrite get_app, (get_absent (map (fun zq => (fst zq, s_q d (snd zq))) latent)) by (rewrite map_map; exact Hx).
  destruct (Feed.dict_get obs x); auto.
Qed.

Definition mk (e : nat -> V) : sample V := mksample e obs prior.

Lemma mk_posed : forall e, posed latent (mk e).
Proof.
  intros e. unfold posed. simpl.
  assert (X : forall a b : list nat, NoDup (a ++ b) -> NoDup a /\ NoDup b /\ forall k, In k a -> In k b -> False).
  { induction a as [|k a IH]; intros b N; simpl in *; [repeat split; auto; constructor|]. inversion N; subst. destruct (IH b H2) as (A & B & C).
    repeat split; auto. - constructor; auto. intros H. apply H1. apply in_or_app. auto.
    - intros j [<-|Hj] Hb; [apply H1, in_or_app; auto|eapply C; eauto]. }
  apply X. exact Nk.
Qed.

Lemma agree : forall e e' k, (forall j, ~ In j ds -> e j = e' j) -> (forall z q, In (z, q) latent -> In q ds -> z <> k) ->
  Feed.dict_get (dict_swap latent (mk e)) k = Feed.dict_get (dict_swap latent (mk e')) k.
Proof.
  intros e e' k A Hk. destruct (in_dec Nat.eq_dec k zs) as [H|H].
  - apply in_map_iff in H. destruct H as ([z q] & <- & Hz). cbn [fst] in *. rewrite (lookup_latent _ z (mk_posed e) q Hz), (lookup_latent _ z (mk_posed e') q Hz).
    simpl. f_equal. apply A. intros Hq. exact (Hk z q Hz Hq eq_refl).
  - rewrite !lookup_data by (auto using mk_posed). auto.
Qed.

Lemma away_P : away (fun e => sumR (map (P (mk e)) (others VP rvs))).
Proof.
  intros e e' A. apply sumR_map_ext. intros k Hk. apply others_In in Hk. destruct Hk as [Hk Hn].
  assert (Z : forall z q, In (z, q) latent -> In q ds -> z <> k /\ ~ parent_rel g rvs z k).
  { intros z q Hz Hq. destruct Facts as (_ & F & _). split.
    - intros ->. apply Hn. apply F. exists k, q. repeat split; auto. left. auto.
    - intros Hp. apply Hn. apply F. exists z, q. repeat split; auto. right. right. left.
      destruct Hp as (Hz' & Hne & Hup). split; [auto|]. split; [congruence|]. apply up_down_clear; auto. }
  unfold P, p_term. rewrite (agree e e' k A) by (intros z q Hz Hq; apply (Z z q); auto).
  destruct (Feed.dict_get (dict_swap latent (mk e')) k) as [u|]; auto. f_equal. apply Fm; auto.
  intros j Hj. apply agree; auto. intros z q Hz Hq ->. apply (Z j q Hz Hq). auto.
Qed.

Lemma away_Q : away (fun e => sumR (map (fun q => Q (th v) q e) (others VQ qs))).
Proof.
  intros e e' A. apply sumR_map_ext. intros q Hq. apply others_In in Hq. destruct Hq as [Hq Hn]. unfold Q.
  assert (Hd : ~ In q ds) by (intros H; apply Hn, ds_VQ; auto). rewrite (A q Hd). f_equal. apply Fq; auto.
  intros j Hj. apply A. intros Hjd. apply Hn. apply ds_VQ. eapply closed; eauto.
Qed.

Lemma dict_map_get : forall {B} (h : nat -> B) (l : list nat) k, In k l -> Feed.dict_get (map (fun j => (j, h j)) l) k = Some (h k).
Proof.
  intros B h l k H. induction l as [|j l IH]; [destruct H|]. simpl. destruct (Nat.eqb_spec j k); [subst; auto|]. apply IH. destruct H; [congruence|auto].
Qed.

Lemma q_entry : forall (d : sample V) q t0 t, In q qs ->
  exists x, Feed.dict_get (q_entries q_log_prob latent scale (fun _ => d)) q = Some x /\ x t0 t = sumR (q_log_prob t q (s_q d) (s_q d q)).
Proof.
  intros d q t0 t Hq. apply in_map_iff in Hq. destruct Hq as ([z q'] & <- & Hz). cbn [snd].
  exists (fun th0 th1 => weighted (get_or_1 scale z) (q_log_prob th1 q' (s_q d) (s_q d q'))). split.
  - apply get_present. { unfold q_entries. rewrite map_map. auto. } unfold q_entries. apply in_map_iff. exists (z, q'). auto.
  - pose proof (Hu (z, q') Hz) as U. cbn [fst] in U. rewrite weighted_sum, get_or_1_factor, U. lra.
Qed.

Lemma part_q : forall (d : sample V) t0 t, rb_part (q_entries q_log_prob latent scale (fun _ => d)) VQ t0 t = sumR (map (fun q => sumR (q_log_prob t q (s_q d) (s_q d q))) VQ).
Proof.
  intros d t0 t. unfold rb_part. apply sumR_map_ext. intros q Hq. destruct (q_entry d q t0 t (VQ_incl q Hq)) as (x & E & Ex). rewrite E. auto.
Qed.
Lemma part_p : forall (d : sample V) t0, rb_part (p_entries log_prob latent scale (map fst obs) (fun _ => d)) VP t0 th = sumR (map (P d) VP).
Proof.
  intros d t0. unfold rb_part. apply sumR_map_ext. intros k Hk. unfold p_entries.
  rewrite (dict_map_get (fun k th0 th => p_term log_prob scale th (dict_swap latent d) k)) by (apply VP_incl; auto). auto.
Qed.

Lemma objective_last : forall l' d x, let t := set_param th v x in
  rb_objective log_prob q_log_prob latent scale reg (map fst obs) (fixed_draws (l' ++ [d])) VP VQ th t =
  - (sumR (map (fun q => sumR (q_log_prob t q (s_q d) (s_q d q))) VQ) *
     (sumR (map (P d) VP) - sumR (map (fun q => sumR (q_log_prob th q (s_q d) (s_q d q))) VQ))) + penalty reg t.
Proof.
  intros l' d x t. unfold rb_objective. unfold fixed_draws at 1 2. rewrite !map_app. cbn [map].
  assert (K : distinct_keys latent (map fst obs)) by (split; auto).
  rewrite (rb_fill_p log_prob latent scale (map fst obs)), (rb_fill_q q_log_prob latent scale (map fst obs)) by auto.
  assert (C : combine (repeat 0%nat (S (length (map (fun a (_ : params) => a) l')))) (repeat 0%nat (S (length (map (fun a (_ : params) => a) l')))) =
    map (fun r => (r, r)) (repeat 0%nat (S (length (map (fun a (_ : params) => a) l'))))).
  { generalize (S (length (map (fun a (_ : params) => a) l'))). induction n as [|n IH]; simpl; auto. rewrite IH. auto. }
  rewrite C, map_map. cbn [fst snd].
  rewrite (map_ext_in _ (fun _ => rb_part (q_entries q_log_prob latent scale (fun _ => d)) VQ th t *
    (rb_part (p_entries log_prob latent scale (map fst obs) (fun _ => d)) VP th th - rb_part (q_entries q_log_prob latent scale (fun _ => d)) VQ th th))).
  - rewrite mean_same, !part_q, part_p. auto.
  - intros r Hr'. apply repeat_spec in Hr'. subst r. auto.
Qed.

Lemma f_VQ : forall d x, In d space -> f d x = sumR (map (fun q => sumR (q_log_prob (set_param th v x) q (s_q d) (s_q d q))) VQ) +
  sumR (map (fun q => Q (th v) q (s_q d)) (others VQ qs)).
Proof.
  intros d x Hd. destruct Facts as (F0 & _ & _ & _ & N). unfold f, log_q.
  transitivity (sumR (map (fun q => sumR (q_log_prob (set_param th v x) q (s_q d) (s_q d q))) qs)).
  { rewrite map_map. apply sumR_map_ext. intros zq _. unfold factor. simpl. lra. }
  rewrite (sum_split _ VQ qs Nq N VQ_incl). f_equal. apply sumR_map_ext. intros q Hq. apply others_In in Hq. destruct Hq as [Hq Hn].
  unfold Q. rewrite set_same. f_equal. apply Act; auto. intros D. apply Hn, ds_VQ, F0. auto.
Qed.

Lemma rb_gradient_last : forall l' d, In d space ->
  gradient (rb_objective log_prob q_log_prob latent scale reg (map fst obs) (fixed_draws (l' ++ [d])) VP VQ th) th v =
  - (Derive (f d) (th v) * (sumR (map (P d) VP) - sumR (map (fun q => sumR (q_log_prob th q (s_q d) (s_q d q))) VQ))) + partial (penalty reg) th v.
Proof.
  intros l' d Hd. unfold gradient. apply is_derive_unique.
  set (c := sumR (map (P d) VP) - sumR (map (fun q => sumR (q_log_prob th q (s_q d) (s_q d q))) VQ)).
  set (k := sumR (map (fun q => Q (th v) q (s_q d)) (others VQ qs))).
  apply (is_derive_ext (fun x => - (c * (f d x - k)) + penalty reg (set_param th v x))).
  { intros x. rewrite objective_last, (f_VQ d x Hd). unfold c, k. lra. }
  apply (is_derive_plus (K := R_AbsRing) (V := R_NormedModule) (fun x => - (c * (f d x - k))) (fun x => penalty reg (set_param th v x))); [|apply derive_of; auto].
  apply (is_derive_opp (K := R_AbsRing) (V := R_NormedModule) (fun x => c * (f d x - k))). rewrite Rmult_comm.
  apply (is_derive_scal (fun x => f d x - k)). replace (Derive (f d) (th v)) with (minus (Derive (f d) (th v)) 0) by (unfold minus, plus, opp; simpl; lra).
  apply (is_derive_minus (K := R_AbsRing) (V := R_NormedModule) (f d) (fun _ => k)); [apply derive_of, f_diff; auto|].
  apply (is_derive_const (K := R_AbsRing) (V := R_NormedModule)).
Qed.

Lemma omitted_zero : mean_of space (dens th) (fun d => Derive (f d) (th v) * (sumR (map (P d) VP) - sumR (map (fun q => sumR (q_log_prob th q (s_q d) (s_q d q))) VQ))) =
  mean_of space (dens th) (fun d => Derive (f d) (th v) * (log_joint log_prob latent scale th d - 1 * f d (th v))).
Proof.
  set (h1 := fun e => sumR (map (P (mk e)) (others VP rvs))). set (h2 := fun e => sumR (map (fun q => Q (th v) q e) (others VQ qs))).
  pose proof (score_away h1 away_P) as Z1. pose proof (score_away h2 away_Q) as Z2.
  assert (E : mean_of space (dens th) (fun d => Derive (f d) (th v) * (log_joint log_prob latent scale th d - 1 * f d (th v))) =
    mean_of space (dens th) (fun d => Derive (f d) (th v) * (sumR (map (P d) VP) - sumR (map (fun q => sumR (q_log_prob th q (s_q d) (s_q d q))) VQ))) +
    (mean_of space (dens th) (fun d => Derive (f d) (th v) * h1 (s_q d)) - mean_of space (dens th) (fun d => Derive (f d) (th v) * h2 (s_q d)))).
  { unfold mean_of. rewrite <- sumR_map_sub, <- sumR_map_add. apply sumR_map_ext. intros d Hd.
    rewrite (joint_P d Hd). destruct Facts as (_ & _ & Np & _). rewrite (sum_split (P d) VP rvs Nk Np VP_incl).
    rewrite (f_VQ d (th v) Hd), set_same.
    assert (Ed : mk (s_q d) = d) by (unfold all_draws in Hd; apply in_map_iff in Hd; destruct Hd as (e & <- & _); auto).
    unfold h1, h2. rewrite Ed. lra. }
  rewrite E, Z1, Z2. lra.
Qed.

Lemma rb_expected : forall n, (0 < n)%nat -> (forall d, In d space -> independent (fun t => log_joint log_prob latent scale t d) th v) ->
  expected space (dens th) n (fun l => gradient (rb_objective log_prob q_log_prob latent scale reg (map fst obs) (fixed_draws l) VP VQ th) th v) =
  partial (fun t => - mean_of space (dens t) (fun d => log_joint log_prob latent scale t d - log_q q_log_prob latent scale t d) + penalty reg t) th v.
Proof.
  intros n Hn Hi.
  assert (Now : sumR (map (dens th) space) = 1) by (pose proof (locally_singleton _ _ total_near) as T; cbv beta in T; rewrite set_same in T; exact T).
  set (G := fun d => - (Derive (f d) (th v) * (sumR (map (P d) VP) - sumR (map (fun q => sumR (q_log_prob th q (s_q d) (s_q d q))) VQ))) + partial (penalty reg) th v).
  rewrite (expected_ext space (dens th) n _ (fun l => G (last l (mk e0)))).
  - rewrite (expected_last space (dens th) G (mk e0) Now n Hn). unfold G, mean_of.
    rewrite (sumR_map_ext space _ (fun d => partial (penalty reg) th v * dens th d - dens th d * (Derive (f d) (th v) *
      (sumR (map (P d) VP) - sumR (map (fun q => sumR (q_log_prob th q (s_q d) (s_q d q))) VQ))))) by (intros; lra).
    rewrite sumR_map_sub, sumR_map_scal. change (map (fun a => dens th a) space) with (map (dens th) space). rewrite Now, Rmult_1_r.
    pose proof omitted_zero as O. unfold mean_of in O at 1. rewrite O. clear O. symmetry. unfold partial.
    eapply eq_trans; [|exact (true_gradient q_log_prob latent space one th v f_diff total_near (fun d => log_joint log_prob latent scale th d) 1 (fun x => penalty reg (set_param th v x)) Hr)].
    apply Derive_ext. intros x. f_equal. f_equal. unfold mean_of. apply sumR_map_ext. intros d Hd. rewrite (Hi d Hd x).
    rewrite (log_q_unscaled q_log_prob latent scale Hu). lra.
  - intros l Hl Hs. destruct (exists_last (l := l)) as (l' & d & ->). { intros ->. simpl in Hl. lia. }
    rewrite last_last, rb_gradient_last; auto. apply Hs. apply in_or_app. simpl; auto.
Qed.
End RB.

(** ** The theorems *)
Lemma rb_unbiased : forall {V} (log_prob : params -> nat -> list (nat * V) -> V -> list R) q_log_prob latent scale reg g tensor_of_var pick fuel
  obs prior vals order e0 th v n,
  (0 < n)%nat -> NoDup (map fst latent ++ map fst obs) -> NoDup (map snd latent) ->
  single_producer g -> distinct_values g (map fst latent ++ map fst obs) -> distinct_values g (map snd latent) -> (enough g <= fuel)%nat ->
  Permutation order (map snd latent) -> parents_first g (map snd latent) order ->
  model_follows g (map fst latent ++ map fst obs) log_prob -> approximation_follows g (map snd latent) q_log_prob ->
  acts_along_graph g tensor_of_var (map snd latent) q_log_prob th v ->
  (forall q e, In q (map snd latent) -> nearby (fun t => sumR (map (fun u => exp (sumR (q_log_prob t q e u))) (vals q)) = 1) th v) ->
  (forall q e u, In q (map snd latent) -> differentiable (fun t => sumR (q_log_prob t q e u)) th v) ->
  (forall zq, In zq latent -> factor scale (fst zq) = 1) -> differentiable (penalty reg) th v ->
  let space := all_draws vals order e0 obs prior in
  let density := draw_density q_log_prob latent (fun _ => 1) in
  (forall d, In d space -> independent (fun t => log_joint log_prob latent scale t d) th v) ->
  expected space (density th) n (fun l =>
    rb_gradient log_prob q_log_prob latent scale reg g tensor_of_var pick fuel (map fst obs) (fixed_draws l) th v) =
  partial (fun t => - mean_of space (density t)
    (fun d => log_joint log_prob latent scale t d - log_q q_log_prob latent scale t d) + penalty reg t) th v.
Proof.
  intros V log_prob q_log_prob latent scale reg g tv pick fuel obs prior vals order e0 th v n Hn Nk Nq Sg Dp Dq Hf Po First Fm Fq Act One Diff Hu Hr space density Hi.
  destruct (rb_sets_facts latent g tv pick fuel obs v Nq Sg Dp Dq Hf) as (ds & VP & VQ & _ & E & Facts).
  unfold rb_gradient. rewrite E.
  eapply rb_expected; eauto.
Qed.

Lemma rb_sets_exact : forall {V} latent g tensor_of_var pick fuel (obs : list (nat * V)) v,
  NoDup (map snd latent) -> single_producer g ->
  distinct_values g (map fst latent ++ map fst obs) -> distinct_values g (map snd latent) -> (enough g <= fuel)%nat ->
  exists p_set q_set, rb_sets latent g tensor_of_var pick fuel (map fst obs) v = Some (p_set, q_set) /\ NoDup p_set /\ NoDup q_set /\
    (forall k, In k p_set <-> exists z q, In (z, q) latent /\ down g anything (tensor_of_var v) (value g q) /\
       in_blanket g (map fst latent ++ map fst obs) z k) /\
    (forall k, In k q_set <-> exists z q, In (z, q) latent /\ down g anything (tensor_of_var v) (value g q) /\ in_blanket g (map snd latent) q k).
Proof.
  intros V latent g tv pick fuel obs v Nq Sg Dp Dq Hf.
  destruct (rb_sets_facts latent g tv pick fuel obs v Nq Sg Dp Dq Hf) as (ds & VP & VQ & _ & E & F0 & FP & NP & FQ & NQ).
  exists VP, VQ. split; auto. split; auto. split; auto. split.
  - intros k. rewrite FP. split; intros (z & q & Hz & Hq & Hb); exists z, q; repeat split; auto; apply F0; auto.
    split; auto. apply in_map_iff. exists (z, q). auto.
  - intros k. rewrite FQ. split.
    + intros (q & Hq & Hb). apply F0 in Hq. destruct Hq as [Hq Hd]. apply in_map_iff in Hq. destruct Hq as ([z q'] & <- & Hz). exists z, q'. auto.
    + intros (z & q & Hz & Hd & Hb). exists q. split; auto. apply F0. split; auto. apply in_map_iff. exists (z, q). auto.
Qed.
