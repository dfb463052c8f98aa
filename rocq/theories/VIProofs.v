(** * Proofs for C36, C38-C41. *)
From Coquelicot Require Import Coquelicot.
From Coq Require Import Reals List Arith Bool Lia Lra Permutation.
From Verif Require Import Graph GraphSpec GraphProofs BayesBallProofs Feed Transform TransformProofs VI VISpec.
Import ListNotations.
Local Open Scope R_scope.

(** ** Sums *)
Lemma sumR_map_add : forall {A} (l : list A) (f g : A -> R), sumR (map (fun a => f a + g a) l) = sumR (map f l) + sumR (map g l).
Proof. induction l as [|a l IH]; intros f g; simpl; [lra|]. rewrite IH. lra. Qed.
Lemma sumR_map_sub : forall {A} (l : list A) (f g : A -> R), sumR (map (fun a => f a - g a) l) = sumR (map f l) - sumR (map g l).
Proof. induction l as [|a l IH]; intros f g; simpl; [lra|]. rewrite IH. lra. Qed.
Lemma sumR_map_scal : forall {A} (l : list A) c (f : A -> R), sumR (map (fun a => c * f a) l) = c * sumR (map f l).
Proof. induction l as [|a l IH]; intros c f; simpl; [lra|]. rewrite IH. lra. Qed.
Lemma sumR_map_ext : forall {A} (l : list A) (f g : A -> R), (forall a, In a l -> f a = g a) -> sumR (map f l) = sumR (map g l).
Proof. intros. f_equal. apply map_ext_in. auto. Qed.
Lemma sumR_const : forall {A} (l : list A) c, sumR (map (fun _ => c) l) = INR (length l) * c.
Proof. induction l as [|a l IH]; intros c; [simpl; lra|]. cbn [map sumR length]. rewrite IH, S_INR. lra. Qed.
Lemma fold_sum : forall {A} (f : A -> R) l a, fold_left (fun acc x => acc + f x) l a = a + sumR (map f l).
Proof. intros A f. induction l as [|x l IH]; intros a; simpl; [lra|]. rewrite IH. lra. Qed.
Lemma weighted_sum : forall c l, weighted c l = c * sumR l.
Proof. intros c l. unfold weighted. rewrite <- (map_id l) at 2. rewrite <- sumR_map_scal. auto. Qed.
Lemma get_or_1_factor : forall d k, get_or_1 d k = factor d k.
Proof.
  intros d k. unfold get_or_1, factor. induction d as [|[j c] d IH]; simpl; auto. destruct (Nat.eqb j k); auto.
Qed.

(** ** Dictionaries *)
Lemma set_fresh : forall {V} (d : list (nat * V)) k v, ~ In k (map fst d) -> dict_set d k v = d ++ [(k, v)].
Proof.
  intros V d k v. induction d as [|[j w] d IH]; intros H; simpl; auto. simpl in H.
  destruct (Nat.eqb_spec j k); [subst; tauto|]. rewrite IH by tauto. auto.
Qed.
Lemma get_present : forall {V} (d : list (nat * V)) k v, NoDup (map fst d) -> In (k, v) d -> Feed.dict_get d k = Some v.
Proof.
  intros V d k v. induction d as [|[j w] d IH]; intros H Hi; simpl in *; [tauto|]. inversion H; subst.
  destruct Hi as [E|Hi]; [inversion E; subst; rewrite Nat.eqb_refl; auto|].
  destruct (Nat.eqb_spec j k); [|auto]. subst. exfalso. apply H2. apply in_map_iff. exists (k, v). auto.
Qed.

Lemma lookup_perm : forall {V} (a b : list (nat * V)) k, Permutation a b -> NoDup (map fst a) -> Feed.dict_get a k = Feed.dict_get b k.
Proof.
  intros V a b k P N. assert (N' : NoDup (map fst b)) by (eapply Permutation_NoDup; [apply Permutation_map; exact P|auto]).
  assert (X : forall (d : list (nat * V)) v, Feed.dict_get d k = Some v -> In (k, v) d).
  { induction d as [|[j w] d IH]; intros v E; simpl in *; [discriminate|]. destruct (Nat.eqb_spec j k); [inversion E; subst; auto|auto]. }
  destruct (Feed.dict_get a k) as [v|] eqn:E.
  - apply X in E. symmetry. apply get_present; auto. eapply Permutation_in; eauto.
  - destruct (Feed.dict_get b k) as [v|] eqn:E'; auto. apply X in E'.
    assert (Y : Feed.dict_get a k = Some v) by (apply get_present; auto; eapply Permutation_in; [apply Permutation_sym|]; eauto). congruence.
Qed.

(** ** Pairs *)
Lemma partition_perm : forall (f : nat -> bool) l,
  Permutation (filter f l ++ filter (fun v => negb (memb v (filter f l))) l) l.
Proof.
  intros f l. assert (E : filter (fun v => negb (memb v (filter f l))) l = filter (fun v => negb (f v)) l).
  { apply filter_ext_in. intros v Hv. f_equal. unfold memb. destruct (f v) eqn:F.
    - apply existsb_exists. exists v. split; [apply filter_In; auto|apply Nat.eqb_refl].
    - destruct (existsb _ _) eqn:X; auto. apply existsb_exists in X. destruct X as (w & Hw & Ew). apply Nat.eqb_eq in Ew. subst.
      apply filter_In in Hw. destruct Hw. congruence. }
  rewrite E. clear E. induction l as [|v l IH]; simpl; auto. destruct (f v); simpl; [auto|].
  rewrite <- Permutation_middle. auto.
Qed.

Lemma snd_combine : forall {A B} (a : list A) (b : list B), length a = length b -> map snd (combine a b) = b.
Proof. induction a as [|x a IH]; intros [|y b] H; simpl in *; try discriminate; auto. f_equal. auto. Qed.
Lemma in_pairs : forall (f : nat -> R) l gr v, In (gr, v) (combine (map f l) l) -> gr = f v /\ In v l.
Proof.
  induction l as [|x l IH]; intros gr v H; simpl in *; [tauto|]. destruct H as [E|H]; [inversion E; auto|]. destruct (IH _ _ H). auto.
Qed.

Lemma split_paired : forall (is_q : nat -> bool) reach q_grad p_grad var_list, (forall v, In v var_list -> is_q v = true <-> reach v) ->
  paired reach q_grad p_grad var_list (split_pairs is_q q_grad p_grad var_list).
Proof.
  intros is_q reach qg pg vl Hq. unfold split_pairs. split.
  - rewrite map_app, !snd_combine by apply map_length. apply partition_perm.
  - intros gr v Hv. apply in_app_iff in Hv. destruct Hv as [Hv|Hv]; apply in_pairs in Hv; destruct Hv as [-> Hv].
    + apply filter_In in Hv. destruct Hv as [Hi Hv]. apply Hq in Hv; auto. split; auto. tauto.
    + apply filter_In in Hv. destruct Hv as [Hi Hv]. split; auto. intros Hr. apply Hq in Hr; auto. exfalso.
      apply negb_true_iff in Hv. unfold memb in Hv. assert (X : existsb (Nat.eqb v) (filter is_q vl) = true); [|congruence].
      apply existsb_exists. exists v. split; [apply filter_In; auto|apply Nat.eqb_refl].
Qed.

Lemma plain_paired : forall grad var_list, paired (fun _ => True) grad grad var_list (plain_pairs grad var_list).
Proof.
  intros grad vl. unfold plain_pairs. split; [rewrite snd_combine by apply map_length; auto|].
  intros gr v Hv. apply in_pairs in Hv. destruct Hv. auto.
Qed.

Lemma combine_app : forall {A B} (a a' : list A) (b b' : list B), length a = length b -> combine (a ++ a') (b ++ b') = combine a b ++ combine a' b'.
Proof. induction a as [|x a IH]; intros a' [|y b] b' H; simpl in *; try discriminate; auto. f_equal. auto. Qed.

Section P.
Context {V : Type}.
Notation dict := (list (nat * V)).
Variable log_prob : params -> nat -> dict -> V -> list R.
Variable q_log_prob : params -> nat -> (nat -> V) -> V -> list R.
Variable latent : list (nat * nat).
Variable scale : list (nat * R).
Variable reg : params -> list R.

Lemma swap_bindings : forall d : sample V, posed latent d -> dict_swap latent d = bindings latent d.
Proof.
  intros d (H1 & H2 & H3). unfold dict_swap, bindings, latent_values. 
  assert (G : forall l acc, NoDup (map fst l) -> (forall k, In k (map fst l) -> In k (map fst acc) -> False) ->
    fold_left (fun acc zq => dict_set acc (fst zq) (s_q d (snd zq))) l acc = acc ++ map (fun zq => (fst zq, s_q d (snd zq))) l).
  { induction l as [|[z q] l IH]; intros acc N D; cbn [fold_left map fst snd]; [rewrite app_nil_r; auto|].
    inversion N; subst. rewrite set_fresh by (intros E; apply (D z); simpl; auto).
    rewrite IH; auto. { rewrite <- app_assoc. auto. }
    intros k Hk. rewrite map_app, in_app_iff. simpl. intros [E|[<-|[]]]; [apply (D k); simpl; auto|auto]. }
  apply G; auto.
Qed.

Lemma bindings_nodup : forall d : sample V, posed latent d -> NoDup (map fst (bindings latent d)).
Proof.
  intros d (H1 & H2 & H3). unfold bindings, latent_values. rewrite map_app, map_map. cbn [fst].
  induction (s_data d) as [|[x v] l IH]; simpl; auto. simpl in H2. inversion H2; subst. constructor.
  - rewrite in_app_iff. intros [E|E]; auto. apply (H3 x); simpl; auto.
  - apply IH; auto. intros k A B. apply (H3 k); simpl; auto.
Qed.

Lemma latents_spec : forall th d acc, posed latent d ->
  p_latents log_prob latent scale th (bindings latent d) acc = acc + scaled_sum log_prob scale th (bindings latent d) (latent_values latent d).
Proof.
  intros th d acc H. unfold p_latents. rewrite fold_sum. f_equal. unfold scaled_sum, latent_values. rewrite map_map.
  apply sumR_map_ext. intros [z q] Hz. cbn [fst snd]. unfold p_term.
  rewrite (get_present _ z (s_q d q) (bindings_nodup d H)).
  - rewrite weighted_sum, get_or_1_factor. auto.
  - unfold bindings. apply in_or_app. right. unfold latent_values. apply in_map_iff. exists (z, q). auto.
Qed.

Lemma data_spec : forall th d acc, posed latent d ->
  p_data log_prob scale th (bindings latent d) (s_data d) acc = acc + scaled_sum log_prob scale th (bindings latent d) (s_data d).
Proof.
  intros th d acc H. unfold p_data. rewrite fold_sum. f_equal. unfold scaled_sum.
  apply sumR_map_ext. intros [x v] Hx. cbn [fst snd]. unfold p_term.
  rewrite (get_present _ x v (bindings_nodup d H)).
  - rewrite weighted_sum, get_or_1_factor. auto.
  - unfold bindings. apply in_or_app. auto.
Qed.

Lemma p_total_spec : forall th d, posed latent d -> p_total log_prob latent scale th d = log_joint log_prob latent scale th d.
Proof.
  intros th d H. unfold p_total, log_joint. rewrite swap_bindings by auto. rewrite data_spec, latents_spec by auto. lra.
Qed.
Lemma p_lik_spec : forall th d, posed latent d -> p_lik log_prob latent scale th d = log_lik log_prob latent scale th d.
Proof. intros th d H. unfold p_lik, log_lik. rewrite swap_bindings by auto. rewrite data_spec by auto. lra. Qed.
Lemma q_total_spec : forall th d, q_total q_log_prob latent scale th d d = log_q q_log_prob latent scale th d.
Proof.
  intros th d. unfold q_total, log_q. rewrite fold_sum, Rplus_0_l. apply sumR_map_ext. intros zq _. 
  rewrite weighted_sum, get_or_1_factor. auto.
Qed.

Lemma mean_average : forall {A} (l : list A) (f g : A -> R), (forall a, In a l -> f a = g a) -> reduce_mean (map f l) = average (map g l).
Proof. intros A l f g H. unfold reduce_mean, average. rewrite !map_length. f_equal. apply sumR_map_ext. auto. Qed.

Lemma average_sub : forall {A} (l : list A) (f g : A -> R), average (map (fun a => f a - g a) l) = average (map f l) - average (map g l).
Proof. intros A l f g. unfold average. rewrite !map_length, sumR_map_sub. lra. Qed.

(** ** C36 *)
Notation draws := (list (params -> sample V)).

Lemma reparam_spec : forall (ds : draws) th, (forall d, In d ds -> posed latent (d th)) ->
  reparam_loss log_prob q_log_prob latent scale reg ds th =
    - average (map (fun d => log_joint log_prob latent scale th (d th) - log_q q_log_prob latent scale th (d th)) ds) + penalty reg th.
Proof.
  intros ds th H. unfold reparam_loss.
  rewrite (mean_average ds (fun d => p_total log_prob latent scale th (d th)) (fun d => log_joint log_prob latent scale th (d th))) by (intros; apply p_total_spec; auto).
  rewrite (mean_average ds (fun d => q_total q_log_prob latent scale th (d th) (d th)) (fun d => log_q q_log_prob latent scale th (d th))) by (intros; apply q_total_spec).
  rewrite average_sub. unfold reg_penalty, penalty. lra.
Qed.

Lemma score_spec : forall (ds : draws) th, (forall d, In d ds -> posed latent (d th)) ->
  score_loss log_prob q_log_prob latent scale reg ds th =
    - average (map (fun d => log_joint log_prob latent scale th (d th) - log_q q_log_prob latent scale th (d th)) ds) + penalty reg th.
Proof.
  intros ds th H. unfold score_loss.
  rewrite (mean_average ds _ (fun d => log_joint log_prob latent scale th (d th) - log_q q_log_prob latent scale th (d th)))
    by (intros; rewrite q_total_spec, p_total_spec by auto; auto).
  unfold reg_penalty, penalty. lra.
Qed.

Variable kl : params -> nat -> nat -> (nat -> V) -> list R.
Variable kl_scaling : list (nat * R).
Variable entropy : params -> nat -> (nat -> V) -> list R.

(** The divergences, given the values of the prior's parents. *)
Lemma kl_spec : forall own th, kl_penalty latent kl kl_scaling own th =
  sumR (map (fun zq => factor kl_scaling (fst zq) * sumR (kl th (fst zq) (snd zq) own)) latent).
Proof. intros. unfold kl_penalty. apply sumR_map_ext. intros zq _. rewrite weighted_sum, get_or_1_factor. auto. Qed.

Lemma reparam_kl_spec : forall own (ds : draws) th, (forall d, In d ds -> posed latent (d th)) ->
  reparam_kl_loss log_prob latent scale reg kl kl_scaling own ds th =
    - average (map (fun d => log_lik log_prob latent scale th (d th)) ds) +
    sumR (map (fun zq => factor kl_scaling (fst zq) * sumR (kl th (fst zq) (snd zq) own)) latent) + penalty reg th.
Proof.
  intros own ds th H. unfold reparam_kl_loss. rewrite kl_spec.
  rewrite (mean_average ds (fun d => p_lik log_prob latent scale th (d th)) (fun d => log_lik log_prob latent scale th (d th))) by (intros; apply p_lik_spec; auto).
  unfold reg_penalty, penalty. lra.
Qed.

Lemma entropy_spec : forall own (ds : draws) th, (forall d, In d ds -> posed latent (d th)) ->
  reparam_entropy_loss log_prob latent scale reg entropy own ds th =
    - average (map (fun d => log_joint log_prob latent scale th (d th)) ds) -
    sumR (map (fun zq => sumR (entropy th (snd zq) own)) latent) + penalty reg th.
Proof.
  intros own ds th H. unfold reparam_entropy_loss.
  rewrite (mean_average ds (fun d => p_total log_prob latent scale th (d th)) (fun d => log_joint log_prob latent scale th (d th))) by (intros; apply p_total_spec; auto).
  unfold reg_penalty, penalty, q_entropy. lra.
Qed.

(** ** Rao-Blackwellization: the dictionaries are one *)
Lemma get_set : forall {W} (c : list (nat * W)) k x j, Feed.dict_get (dict_set c k x) j = if Nat.eqb k j then Some x else Feed.dict_get c j.
Proof.
  intros W c k x j. induction c as [|[i w] c IH]; simpl; auto. destruct (Nat.eqb_spec i k).
  - subst. simpl. destruct (Nat.eqb k j); auto.
  - simpl. destruct (Nat.eqb_spec i j); [|auto]. subst. destruct (Nat.eqb_spec k j); [congruence|auto].
Qed.

(** Filling one cell. *)
Definition fill (l : list (nat * (params -> params -> R))) (c : cell) : cell :=
  fold_left (fun c kx => dict_set c (fst kx) (snd kx)) l c.
Lemma fill_new : forall l acc, NoDup (map fst l) -> (forall k, In k (map fst l) -> In k (map fst acc) -> False) -> fill l acc = acc ++ l.
Proof.
  induction l as [|[k x] l IH]; intros acc N D; cbn [fill fold_left fst snd]; [rewrite app_nil_r; auto|].
  inversion N; subst. rewrite set_fresh by (intros E; apply (D k); simpl; auto). unfold fill in IH.
  rewrite IH; auto. { rewrite <- app_assoc. auto. }
  intros j Hj. rewrite map_app, in_app_iff. simpl. intros [E|[<-|[]]]; [apply (D j); simpl; auto|auto].
Qed.
Lemma fill_overwrite : forall l c, NoDup (map fst l) -> map fst c = map fst l -> fill l c = l.
Proof.
  assert (G : forall l pre c, NoDup (map fst (pre ++ l)) -> map fst c = map fst l -> fill l (pre ++ c) = pre ++ l).
  { induction l as [|[k x] l IH]; intros pre c N E; destruct c as [|[j y] c]; try discriminate; [auto|].
    simpl in E. inversion E; subst. cbn [fill fold_left fst snd].
    assert (S1 : dict_set (pre ++ (k, y) :: c) k x = (pre ++ [(k, x)]) ++ c).
    { rewrite <- app_assoc. simpl. clear -N. induction pre as [|[i w] pre IH]; simpl; [rewrite Nat.eqb_refl; auto|].
      simpl in N. inversion N; subst. destruct (Nat.eqb_spec i k); [|rewrite IH; auto]. exfalso. subst. apply H1.
      rewrite map_app. apply in_or_app. right. simpl. auto. }
    rewrite S1. unfold fill in IH. rewrite IH; auto; rewrite <- app_assoc; auto. }
  intros l c. apply (G l []).
Qed.

Lemma fill_keys : forall l l', NoDup (map fst l) -> map fst l = map fst l' -> fill l l' = l.
Proof. intros. apply fill_overwrite; auto. Qed.

Lemma rb_store : forall (ks : list nat) (f : nat -> params -> params -> R) c,
  fold_left (fun m k => store m 0 k (f k)) ks [c] = [fill (map (fun k => (k, f k)) ks) c].
Proof. induction ks as [|k ks IH]; intros f c; auto. cbn [fold_left store map fill fst snd]. rewrite IH. auto. Qed.
Lemma rb_store_q : forall (l : list (nat * nat)) (f : nat * nat -> params -> params -> R) c,
  fold_left (fun m zq => store m 0 (snd zq) (f zq)) l [c] = [fill (map (fun zq => (snd zq, f zq)) l) c].
Proof. induction l as [|k l IH]; intros f c; auto. cbn [fold_left store map fill fst snd]. rewrite IH. auto. Qed.

(** All references lead to the values of the last sample. *)
Lemma fill_last : forall (f : (params -> sample V) -> list (nat * (params -> params -> R))) (ds : draws) d,
  (forall e, NoDup (map fst (f e))) -> (forall e e', map fst (f e) = map fst (f e')) ->
  fold_left (fun m rd => match m with [c] => [fill (f (snd rd)) c] | _ => m end) (combine (repeat 0%nat (S (length ds))) (ds ++ [d])) [[]] = [f d].
Proof.
  intros f ds d N E.
  assert (G : forall ds c, (c = [] \/ exists e, c = f e) ->
    fold_left (fun m rd => match m with [c] => [fill (f (snd rd)) c] | _ => m end) (combine (repeat 0%nat (S (length ds))) (ds ++ [d])) [c] = [f d]).
  { induction ds0 as [|e ds0 IH]; intros c Hc.
    - simpl. f_equal. destruct Hc as [->|(e & ->)]; [|apply fill_keys; auto]. rewrite fill_new; auto.
    - cbn [app length repeat combine fold_left snd]. apply IH. right. exists e.
      destruct Hc as [->|(e' & ->)]; [|apply fill_keys; auto]. rewrite fill_new; auto. }
  apply G. auto.
Qed.

Definition p_entries (data : list nat) (d : params -> sample V) : list (nat * (params -> params -> R)) :=
  map (fun k => (k, fun th0 th => p_term log_prob scale th (dict_swap latent (d th)) k)) (map fst latent ++ data).
Definition q_entries (d : params -> sample V) : list (nat * (params -> params -> R)) :=
  map (fun zq => (snd zq, fun th0 th =>
    weighted (get_or_1 scale (fst zq)) (q_log_prob th (snd zq) (s_q (d th)) (s_q (d th0) (snd zq))))) latent.

Lemma rb_fill_gen : forall (f : (params -> sample V) -> nat -> memory -> memory) (e : (params -> sample V) -> list (nat * (params -> params -> R))),
  (forall d c, f d 0%nat [c] = [fill (e d) c]) -> (forall d, NoDup (map fst (e d))) -> (forall d d', map fst (e d) = map fst (e d')) ->
  forall ds d, rb_fill f (ds ++ [d]) = ([e d], repeat 0%nat (S (length ds))).
Proof.
  intros f e Hf N E ds d. unfold rb_fill, alloc. rewrite app_length, Nat.add_comm. f_equal. simpl (1 + _)%nat.
  rewrite <- (fill_last e ds d N E).
  assert (G : forall l c, (forall rd, In rd l -> fst rd = 0%nat) -> fold_left (fun m rd => f (snd rd) (fst rd) m) l [c] =
    fold_left (fun m rd => match m with [c] => [fill (e (snd rd)) c] | _ => m end) l [c]).
  { induction l as [|[r x] l IH]; intros c H; auto. cbn [fold_left fst snd]. assert (r = 0%nat) by (apply (H (r, x)); simpl; auto).
    subst. rewrite Hf. apply IH. intros. apply H. simpl; auto. }
  apply G. intros [r x] Hr. apply in_combine_l, repeat_spec in Hr. auto.
Qed.

Definition distinct_keys (data : list nat) : Prop := NoDup (map fst latent ++ data) /\ NoDup (map snd latent).

Lemma rb_fill_p : forall data ds d, distinct_keys data ->
  rb_fill (rb_p log_prob latent scale data) (ds ++ [d]) = ([p_entries data d], repeat 0%nat (S (length ds))).
Proof.
  intros data ds d (N & _). apply rb_fill_gen.
  - intros e c. unfold rb_p. rewrite (rb_store (map fst latent ++ data) (fun k th0 th => p_term log_prob scale th (dict_swap latent (e th)) k)). auto.
  - intros e. unfold p_entries. rewrite map_map. cbn [fst]. rewrite map_id. auto.
  - intros e e'. unfold p_entries. rewrite !map_map. auto.
Qed.
Lemma rb_fill_q : forall data ds d, distinct_keys data ->
  rb_fill (rb_q q_log_prob latent scale) (ds ++ [d]) = ([q_entries d], repeat 0%nat (S (length ds))).
Proof.
  intros data ds d (_ & N). apply rb_fill_gen.
  - intros e c. unfold rb_q. rewrite (rb_store_q latent (fun zq th0 th =>
      weighted (get_or_1 scale (fst zq)) (q_log_prob th (snd zq) (s_q (e th)) (s_q (e th0) (snd zq))))). auto.
  - intros e. unfold q_entries. rewrite map_map. auto.
  - intros e e'. unfold q_entries. rewrite !map_map. auto.
Qed.

Lemma mean_same : forall n x, reduce_mean (map (fun _ : nat => x) (repeat 0%nat (S n))) = x.
Proof.
  intros n x. unfold reduce_mean. rewrite sumR_const, map_length, repeat_length. field. apply not_0_INR. lia.
Qed.

Lemma rb_spec : forall data (ds : draws) d th, distinct_keys data -> posed latent (d th) -> map fst (s_data (d th)) = data ->
  rb_loss log_prob q_log_prob latent scale reg data (ds ++ [d]) th =
    - (log_joint log_prob latent scale th (d th) - log_q q_log_prob latent scale th (d th)) + penalty reg th.
Proof.
  intros data ds d th Hk Hp Hd. unfold rb_loss. rewrite rb_fill_p, (rb_fill_q data) by auto.
  assert (M : forall (F : cell -> R) c, map (fun r => F (nth r [c] [])) (repeat 0%nat (S (length ds))) = map (fun _ => F c) (repeat 0%nat (S (length ds)))).
  { intros F c. apply map_ext_in. intros r Hr. apply repeat_spec in Hr. subst. auto. }
  rewrite (M (fun c => rb_sum c th th)), (M (fun c => rb_sum c th th)), !mean_same.
  assert (P1 : rb_sum (p_entries data d) th th = log_joint log_prob latent scale th (d th)).
  { rewrite <- p_total_spec by auto. unfold p_total, p_data, p_latents. rewrite !fold_sum. unfold rb_sum, p_entries.
    rewrite map_map. cbn [snd]. rewrite map_app, sumR_app, <- Hd. rewrite !map_map. lra. }
  assert (Q1 : rb_sum (q_entries d) th th = log_q q_log_prob latent scale th (d th)).
  { rewrite <- q_total_spec. unfold q_total. rewrite fold_sum. unfold rb_sum, q_entries. rewrite map_map. cbn [snd]. lra. }
  rewrite P1, Q1. unfold reg_penalty, penalty. lra.
Qed.

(** ** C38 *)
Lemma exp_sum_positive : forall l, l <> [] -> 0 < sumR (map exp l).
Proof.
  intros [|a l] H; [congruence|]. simpl. apply Rplus_lt_le_0_compat; [apply exp_pos|].
  induction l as [|b l IH]; simpl; [lra|]. pose proof (exp_pos b). assert (0 <= sumR (map exp l)) by (apply IH; discriminate). lra.
Qed.

Lemma w_norm_ratio : forall l, l <> [] -> w_norm l = map (fun w => exp w / sumR (map exp l)) l.
Proof.
  intros l H. unfold w_norm, logsumexp. apply map_ext. intros w. unfold Rminus. rewrite exp_plus, exp_Ropp, exp_ln; auto using exp_sum_positive.
Qed.

Lemma w_norm_spec : forall l, l <> [] -> length (w_norm l) = length l /\ Forall (fun w => 0 < w) (w_norm l) /\ sumR (w_norm l) = 1 /\
  forall c, w_norm (map (fun w => w + c) l) = w_norm l.
Proof.
  intros l H. pose proof (exp_sum_positive l H) as P. repeat split.
  - unfold w_norm. apply map_length.
  - apply Forall_forall. intros w Hw. unfold w_norm in Hw. apply in_map_iff in Hw. destruct Hw as (x & <- & _). apply exp_pos.
  - rewrite w_norm_ratio by auto. rewrite (sumR_map_ext l _ (fun w => / sumR (map exp l) * exp w)) by (intros; unfold Rdiv; lra).
    rewrite sumR_map_scal. field. lra.
  - intros c. rewrite (w_norm_ratio l H), w_norm_ratio by (destruct l; [congruence|discriminate]). rewrite map_map. apply map_ext. intros w.
    rewrite map_map. rewrite (sumR_map_ext l (fun x => exp (x + c)) (fun x => exp c * exp x)) by (intros; rewrite exp_plus; lra).
    rewrite sumR_map_scal, exp_plus. change (map (fun a : R => exp a) l) with (map exp l). pose proof (exp_pos c). field. lra.
Qed.

Lemma pq_q_spec : forall th d, pq_q q_log_prob latent th d d = log_q q_log_prob latent [] th d.
Proof. intros th d. unfold pq_q, log_q. rewrite fold_sum, Rplus_0_l. apply sumR_map_ext. intros zq _. unfold factor. simpl. lra. Qed.

Lemma pq_p_spec : forall th d, posed latent d -> pq_p log_prob latent th d = log_joint log_prob latent [] th d.
Proof.
  intros th d H. unfold pq_p. rewrite swap_bindings, !fold_sum by auto. unfold log_joint, scaled_sum.
  rewrite Rplus_0_l. f_equal.
  - unfold latent_values. rewrite map_map. apply sumR_map_ext. intros [z q] Hz. cbn [fst snd]. unfold pq_term.
    rewrite (get_present _ z (s_q d q) (bindings_nodup d H)); [unfold factor; simpl; lra|].
    unfold bindings. apply in_or_app. right. unfold latent_values. apply in_map_iff. exists (z, q). auto.
  - apply sumR_map_ext. intros [x v] Hx. cbn [fst snd]. unfold pq_term.
    rewrite (get_present _ x v (bindings_nodup d H)); [unfold factor; simpl; lra|].
    unfold bindings. apply in_or_app. auto.
Qed.

Lemma dot_map : forall {A} (l : list A) f g, dot (map f l) (map g l) = sumR (map (fun a => f a * g a) l).
Proof. intros A l f g. unfold dot. induction l as [|a l IH]; simpl; auto. rewrite IH. auto. Qed.

Lemma pq_loss_spec : forall (ds : draws) th, ds <> [] -> (forall d, In d ds -> posed latent (d th)) ->
  let lw := fun d => log_joint log_prob latent [] th (d th) - log_q q_log_prob latent [] th (d th) in
  pq_loss log_prob q_log_prob latent reg ds th =
    sumR (map (fun d => exp (lw d) / sumR (map (fun e => exp (lw e)) ds) * lw d) ds) - penalty reg th.
Proof.
  intros ds th Hne H lw. unfold pq_loss.
  assert (E : pq_log_w log_prob q_log_prob latent ds th = map lw ds).
  { unfold pq_log_w. apply map_ext_in. intros d Hd. rewrite pq_q_spec, pq_p_spec by auto. auto. }
  rewrite E, w_norm_ratio by (destruct ds; [congruence|discriminate]). rewrite !map_map, dot_map. auto.
Qed.

(** ** C39 *)
Lemma map_spec : forall d th, posed latent (d th) ->
  by_lookup (log_prob th) ->
  map_loss log_prob latent scale reg d th = - log_joint log_prob latent scale th (d th) + penalty reg th.
Proof.
  intros d th H Hc. pose proof (bindings_nodup (d th) H) as N. unfold map_loss.
  set (e := d th) in *. fold (latent_values latent e).
  assert (E : dict_update (latent_values latent e) (s_data e) = latent_values latent e ++ s_data e).
  { destruct H as (H1 & H2 & H3). clear N. 
    assert (G : forall (l : dict) acc, NoDup (map fst l) -> (forall k, In k (map fst l) -> In k (map fst acc) -> False) -> dict_update acc l = acc ++ l).
    { induction l as [|[k x] l IH]; intros acc N D; [simpl; rewrite app_nil_r; auto|]. unfold dict_update. cbn [fold_left fst snd].
      inversion N; subst. rewrite set_fresh by (intros X; apply (D k); simpl; auto). unfold dict_update in IH. rewrite IH; auto.
      { rewrite <- app_assoc. auto. } intros j Hj. rewrite map_app, in_app_iff. simpl. intros [X|[<-|[]]]; [apply (D j); simpl; auto|auto]. }
    apply G; auto. intros k A B. unfold latent_values in B. rewrite map_map in B. apply (H3 k); auto. }
  rewrite E.
  assert (Hc' : forall k v, log_prob th k (latent_values latent e ++ s_data e) v = log_prob th k (bindings latent e) v).
  { intros k v. apply Hc. intros j. unfold bindings in *. apply lookup_perm; [apply Permutation_app_comm|].
    eapply Permutation_NoDup; [|exact N]. apply Permutation_map, Permutation_app_comm. }
  assert (N' : NoDup (map fst (latent_values latent e ++ s_data e))).
  { unfold bindings in N. eapply Permutation_NoDup; [|exact N]. apply Permutation_map, Permutation_app_comm. }
  unfold p_data, p_latents. rewrite !fold_sum. unfold log_joint, scaled_sum, penalty, reg_penalty.
  assert (A : sumR (map (fun zq => p_term log_prob scale th (latent_values latent e ++ s_data e) (fst zq)) latent) =
    sumR (map (fun kv => factor scale (fst kv) * sumR (log_prob th (fst kv) (bindings latent e) (snd kv))) (latent_values latent e))).
  { unfold latent_values at 2. rewrite map_map. apply sumR_map_ext. intros [z q] Hz. cbn [fst snd]. unfold p_term.
    rewrite (get_present _ z (s_q e q) N'). { rewrite weighted_sum, get_or_1_factor. rewrite Hc'. auto. }
    apply in_or_app. left. unfold latent_values. apply in_map_iff. exists (z, q). auto. }
  assert (B : sumR (map (fun xv => p_term log_prob scale th (latent_values latent e ++ s_data e) (fst xv)) (s_data e)) =
    sumR (map (fun kv => factor scale (fst kv) * sumR (log_prob th (fst kv) (bindings latent e) (snd kv))) (s_data e))).
  { apply sumR_map_ext. intros [x v] Hx. cbn [fst snd]. unfold p_term.
    rewrite (get_present _ x v N'). { rewrite weighted_sum, get_or_1_factor. rewrite Hc'. auto. }
    apply in_or_app. right. auto. }
  rewrite A, B. lra.
Qed.

(** ** C40 *)
Variable g : graph.
Variable tensor_of_var : nat -> nat.
Variable pick : nat -> nat.
Variable fuel : nat.
Hypothesis Hg : distinct_values g (map snd latent).
Hypothesis Hf : (enough g <= fuel)%nat.

Lemma is_q_reaches : forall v, is_q_var latent g tensor_of_var pick fuel v = true <-> reaches g tensor_of_var (map snd latent) v.
Proof.
  intros v. unfold is_q_var, q_descendants, reaches.
  destruct (get_descendants_exact g (map snd latent) pick fuel (NT (tensor_of_var v)) Hg Hf) as (res & E & _ & S). rewrite E.
  destruct res as [|r res].
  - split; [discriminate|]. intros (q & Hq & Hd). exfalso. assert (X : In q []) by (apply S; repeat split; auto; discriminate). destruct X.
  - split; auto. intros _. exists r. destruct (S r) as (S1 & _). destruct S1 as (A & _ & B); simpl; auto.
Qed.

Lemma rb_paired : forall data ds th var_list,
  paired (reaches g tensor_of_var (map snd latent)) (rb_gradient log_prob q_log_prob latent scale reg g tensor_of_var pick fuel data ds th)
    (gradient (rb_loss log_prob q_log_prob latent scale reg data ds) th) var_list
    (rb_pairs log_prob q_log_prob latent scale reg g tensor_of_var pick fuel data ds th var_list).
Proof.
  intros data ds th vl. pose proof (split_paired (is_q_var latent g tensor_of_var pick fuel) _ 
    (rb_gradient log_prob q_log_prob latent scale reg g tensor_of_var pick fuel data ds th)
    (gradient (rb_loss log_prob q_log_prob latent scale reg data ds) th) vl (fun v _ => is_q_reaches v)) as H.
  unfold rb_pairs. rewrite combine_app by (rewrite map_length; auto). exact H.
Qed.
End P.

Lemma split_reaches : forall latent g tensor_of_var pick fuel, distinct_values g (map snd latent) -> (enough g <= fuel)%nat ->
  forall q_grad p_grad var_list,
  paired (reaches g tensor_of_var (map snd latent)) q_grad p_grad var_list
    (split_pairs (is_q_var latent g tensor_of_var pick fuel) q_grad p_grad var_list).
Proof. intros. apply split_paired; intros; try apply is_q_reaches; auto. Qed.

(** ** C41 *)
Lemma blankets_in : forall f ds acc, (forall d, In d ds -> exists l, f d = Some l) ->
  exists res, blankets f ds acc = Some res /\ forall x, In x res <-> In x acc \/ exists d l, In d ds /\ f d = Some l /\ In x l.
Proof.
  induction ds as [|d ds IH]; intros acc H; simpl.
  - exists acc. split; auto. intros x. split; auto. intros [A|(d & l & [] & _)]; auto.
  - destruct (H d) as (l & El); [simpl; auto|]. rewrite El.
    destruct (IH (add_nats acc l)) as (res & E & S). { intros e He. apply H. simpl; auto. }
    exists res. split; auto. intros x. rewrite S, add_nats_In. split.
    + intros [[A|A]|(e & l' & He & El' & Hx)]; auto; right; [exists d, l|exists e, l']; simpl; auto.
    + intros [A|(e & l' & [<-|He] & El' & Hx)]; auto; [rewrite El in El'; inversion El'; subst; auto|]. right. exists e, l'. auto.
Qed.


Lemma blankets_nodup : forall f ds acc res, NoDup acc -> blankets f ds acc = Some res -> NoDup res.
Proof.
  induction ds as [|d ds IH]; intros acc res N E; simpl in E; [inversion E; subst; auto|].
  destruct (f d); [|discriminate]. eapply IH; [|exact E]. apply add_nats_NoDup. auto.
Qed.

Lemma default_var_list_spec : forall latent g pick fuel trainables data, single_producer g ->
  (forall v w, In v trainables -> In w trainables -> vref g v = vref g w -> v = w) -> (enough g <= fuel)%nat ->
  exists vars, default_var_list latent g pick fuel trainables data = Some vars /\ NoDup vars /\
    forall v, In v vars <-> In v trainables /\ exists x, up g anything (value g x) (vref g v) /\
      ((exists q, In (x, q) latent) \/ (exists z, In (z, x) latent) \/ In (x, (true, false)) data).
Proof.
  intros latent g pick fuel trainables data Hs Hv Hf. unfold default_var_list.
  set (vs := fun x => get_variables g trainables pick fuel (NRV x)).
  assert (Hx : forall x, exists l, vs x = Some l /\ forall v, In v l <-> In v trainables /\ up g anything (value g x) (vref g v)).
  { intros x. destruct (get_variables_exact g trainables pick fuel (NRV x) Hs Hv Hf) as (res & E & _ & S). exists res. auto. }
  assert (Hx' : forall x, exists l, vs x = Some l) by (intros x; destruct (Hx x) as (l & E & _); eauto).
  destruct (blankets_in vs (flat_map (fun zq => [fst zq; snd zq]) latent) []) as (r1 & E1 & S1); auto. rewrite E1.
  destruct (blankets_in vs (map fst (filter (fun xk => fst (snd xk) && negb (snd (snd xk))) data)) r1) as (r2 & E2 & S2); auto. 
  exists r2. split; auto. split. { eapply blankets_nodup; [|exact E2]. eapply blankets_nodup; [|exact E1]. constructor. }
  assert (K : forall v x l, vs x = Some l -> (In v l <-> In v trainables /\ up g anything (value g x) (vref g v))).
  { intros v x l E. destruct (Hx x) as (l' & E' & S). rewrite E in E'. inversion E'; subst. auto. }
  intros v. rewrite S2, S1. split.
  - intros [[[]|(x & l & Hi & E & Hl)]|(x & l & Hi & E & Hl)]; apply (K v x l E) in Hl; destruct Hl as [A B]; split; auto; exists x; split; auto.
    + apply in_flat_map in Hi. destruct Hi as ([z q] & Hz & Hi). simpl in Hi. destruct Hi as [<-|[<-|[]]]; eauto.
    + apply in_map_iff in Hi. destruct Hi as ([x' [a b]] & <- & Hi). apply filter_In in Hi. destruct Hi as [Hi Hb]. simpl in *.
      destruct a, b; try discriminate. auto.
  - intros [A (x & B & H)]. destruct (Hx' x) as (l & E). assert (Hl : In v l) by (apply (K v x l E); auto).
    destruct H as [(q & H)|[(z & H)|H]].
    + left. right. exists x, l. repeat split; auto. apply in_flat_map. exists (x, q). simpl. auto.
    + left. right. exists x, l. repeat split; auto. apply in_flat_map. exists (z, x). simpl. auto.
    + right. exists x, l. repeat split; auto. apply in_map_iff. exists (x, (true, false)). split; auto. apply filter_In. auto.
Qed.
