(** * Proofs for C84. *)
From Coq Require Import Reals List Arith Lra Lia.
From Verif Require Import Transform VI VISpec VIProofs TConj TConjProofs VIIntegralSpec.
From Verif Require Import KLShape KLShapeSpec.
Import ListNotations.
Local Open Scope R_scope.
Set Bullet Behavior "Strict Subproofs".

(** ** Shapes *)
Lemma sumR_app : forall a b, sumR (a ++ b) = sumR a + sumR b.
Proof. induction a as [|x a IH]; intros b; cbn; [lra|]. rewrite IH. lra. Qed.

Lemma sumR_flat : forall {A} (f : A -> list R) l, sumR (flat_map f l) = sumR (map (fun x => sumR (f x)) l).
Proof. induction l as [|x l IH]; cbn; [reflexivity|]. rewrite sumR_app, IH. reflexivity. Qed.

Lemma sumR_const : forall {A} c (l : list A), sumR (map (fun _ => c) l) = INR (length l) * c.
Proof. induction l as [|x l IH]; [cbn; lra|]. cbn [map sumR length]. rewrite IH, S_INR. lra. Qed.

Lemma length_indices : forall s, length (indices s) = entries s.
Proof.
  induction s as [|n s IH]; [reflexivity|]. cbn [indices entries].
  assert (G : forall l, length (flat_map (fun i => map (cons i) (indices s)) l) = (length l * entries s)%nat).
  { induction l as [|i l L]; [reflexivity|]. cbn. rewrite app_length, map_length, L, IH. reflexivity. }
  rewrite G, seq_length. reflexivity.
Qed.

Lemma sum_indices_cons : forall n s (f : list nat -> R), sumR (map f (indices (n :: s))) =
  sumR (map (fun i => sumR (map (fun idx => f (i :: idx)) (indices s))) (seq 0 n)).
Proof.
  intros. cbn [indices]. rewrite flat_map_concat_map, concat_map, map_map, <- flat_map_concat_map, sumR_flat.
  f_equal. apply map_ext. intros i. rewrite map_map. reflexivity.
Qed.

Lemma sum_prefix : forall a b (f : list nat -> R),
  sumR (map (fun idx => f (firstn (length a) idx)) (indices (a ++ b))) = INR (entries b) * sumR (map f (indices a)).
Proof.
  induction a as [|n a IH]; intros b f.
  - cbn [app length firstn]. rewrite sumR_const, length_indices. cbn. lra.
  - rewrite <- app_comm_cons, !sum_indices_cons.
    transitivity (sumR (map (fun i => INR (entries b) * sumR (map (fun idx => f (i :: idx)) (indices a))) (seq 0 n))).
    + f_equal. apply map_ext. intros i. exact (IH b (fun idx => f (i :: idx))).
    + generalize (seq 0 n). induction l as [|i l L]; cbn; [lra|]. cbn in L. rewrite L. lra.
Qed.

Lemma bshape_prefix : forall a b, bshape a (a ++ b) = Some (a ++ b).
Proof. induction a as [|n a IH]; intros b; [reflexivity|]. cbn. rewrite IH, Nat.eqb_refl. reflexivity. Qed.
Lemma bshape_comm : forall a b, bshape a b = bshape b a.
Proof.
  induction a as [|m a IH]; intros [|n b]; try reflexivity. cbn. rewrite IH. destruct (bshape b a); [|reflexivity].
  rewrite (Nat.eqb_sym n m). destruct (Nat.eqb_spec m n); [now subst|].
  destruct (Nat.eqb_spec m 1), (Nat.eqb_spec n 1); congruence.
Qed.

Lemma proj_prefix : forall a b idx, In idx (indices (a ++ b)) -> proj a idx = firstn (length a) idx.
Proof.
  induction a as [|n a IH]; intros b idx H; [reflexivity|]. cbn [app] in H.
  destruct idx as [|i idx]; [exfalso; eapply in_indices_nil; eauto|]. apply in_indices_cons in H. destruct H as [Hi H].
  cbn. rewrite (IH b idx H). destruct (Nat.eqb_spec n 1); [|reflexivity]. f_equal. lia.
Qed.

Lemma prefixes : forall {A} (a a' b b' : list A), a ++ a' = b ++ b' -> (length a <= length b)%nat ->
  exists c, b = a ++ c /\ a' = c ++ b'.
Proof.
  induction a as [|x a IH]; intros a' b b' E L; [exists b; auto|]. destruct b as [|y b]; [cbn in L; lia|].
  injection E as -> E. cbn in L. destruct (IH a' b b' E ltac:(lia)) as (c & -> & ->). exists c. auto.
Qed.

(** ** Entries *)
Section One.
Context {P V : Type}.

Lemma log_probs_own : forall (ld : P -> V -> R) r s v, s = r_shape r ->
  log_probs ld r s v = map (fun idx => ld (entry_param r idx) (v idx)) (indices s).
Proof.
  intros ld r s v ->. unfold log_probs, r_shape. rewrite bshape_prefix. apply map_ext_in. intros idx H.
  rewrite (proj_prefix (r_batch r) (r_sample r) idx H), (proj_same (r_batch r ++ r_sample r) idx H). reflexivity.
Qed.

Lemma kl_sum : forall (kl : P -> P -> R) q z, r_shape q = r_shape z ->
  sumR (map (fun idx => kl (entry_param q idx) (entry_param z idx)) (indices (r_shape q))) =
  INR (repeats2 q z) * sumR (kl_entries kl q z).
Proof.
  intros kl q z E. unfold repeats2.
  assert (G : exists b c, r_shape q = b ++ c /\ length b = max (length (r_batch q)) (length (r_batch z)) /\
    bshape (r_batch q) (r_batch z) = Some b /\ (exists x, b = r_batch q ++ x) /\ (exists y, b = r_batch z ++ y)).
  { unfold r_shape in *. destruct (le_ge_dec (length (r_batch q)) (length (r_batch z))) as [L|L].
    - destruct (prefixes _ _ _ _ E L) as (c & B & S'). exists (r_batch z), (r_sample z).
      split; [exact E|]. split; [lia|]. split; [rewrite B; apply bshape_prefix|]. split; [exists c; exact B|exists []; now rewrite app_nil_r].
    - destruct (prefixes _ _ _ _ (eq_sym E) L) as (c & B & S'). exists (r_batch q), (r_sample q).
      split; [reflexivity|]. split; [lia|]. split; [rewrite bshape_comm, B; apply bshape_prefix|]. split; [exists []; now rewrite app_nil_r|exists c; exact B]. }
  destruct G as (b & c & S' & L & B & (x & X) & (y & Y)). rewrite <- L, S'.
  replace (skipn (length b) (b ++ c)) with c by (rewrite skipn_app, skipn_all, Nat.sub_diag; reflexivity).
  unfold kl_entries. rewrite B. rewrite <- sum_prefix. apply f_equal. apply map_ext_in. intros idx H.
  assert (Hb : proj b idx = firstn (length b) idx) by (apply (proj_prefix b c idx H)).
  assert (Pq : forall a w, b = a ++ w -> proj a (firstn (length b) idx) = firstn (length a) idx).
  { intros a w E'. assert (I' : In (firstn (length b) idx) (indices (a ++ w))).
    { rewrite <- E'. rewrite <- Hb. clear - H. revert idx H. induction b as [|n b IH]; intros idx H; [left; reflexivity|].
      destruct idx as [|i idx]; [exfalso; eapply in_indices_nil; eauto|]. cbn [app] in H. apply in_indices_cons in H.
      cbn [proj]. apply in_indices_cons. destruct H as [Hi H]. split; [destruct (Nat.eqb_spec n 1); lia|auto]. }
    rewrite (proj_prefix a w _ I'), E', app_length, firstn_firstn. f_equal. lia. }
  unfold entry_param. rewrite (Pq (r_batch q) x X), (Pq (r_batch z) y Y). reflexivity.
Qed.

Lemma entropy_sum : forall (entropy : P -> R) q,
  sumR (map (fun idx => entropy (entry_param q idx)) (indices (r_shape q))) = INR (repeats q) * sumR (entropies entropy q).
Proof. intros. exact (sum_prefix (r_batch q) (r_sample q) (fun idx => entropy (r_param q idx))). Qed.

(** ** Expectations *)
Context {A : Type} (D : A -> Prop) (I : (A -> R) -> R -> Prop).
Hypothesis E : expectation D I.

Lemma int_zero : I (fun _ => 0) 0.
Proof.
  destruct E as [J One]. pose proof (int_scal D I J 0 _ _ One) as H. refine (int_ext D I J _ _ _ _ _); [|rewrite Rmult_0_l in H; exact H]. intros; cbv beta; lra.
Qed.

Lemma int_sum : forall {B} (f : B -> A -> R) (g : B -> R) l, (forall b, In b l -> I (f b) (g b)) ->
  I (fun a => sumR (map (fun b => f b a) l)) (sumR (map g l)).
Proof.
  destruct E as [J One]. induction l as [|b l IH]; intros H; [exact int_zero|]. cbn [map sumR].
  apply (int_add D I J (f b)); [apply H; left; auto|]. apply IH. intros; apply H; right; auto.
Qed.

Lemma kl_expected : forall lq lp kl (q z : rv P) (draw : A -> list nat -> V), r_shape q = r_shape z ->
  kl_of_entries I lq lp kl q z draw ->
  I (fun a => sumR (log_probs lq q (r_shape q) (draw a)) - sumR (log_probs lp z (r_shape q) (draw a)))
    (INR (repeats2 q z) * sumR (kl_entries kl q z)).
Proof.
  intros lq lp kl q z draw S' K. destruct E as [J One]. rewrite <- (kl_sum kl q z S').
  apply (int_ext D I J (fun a => sumR (map (fun idx => lq (entry_param q idx) (draw a idx) - lp (entry_param z idx) (draw a idx)) (indices (r_shape q))))).
  - intros a _. rewrite (log_probs_own lq q (r_shape q) (draw a) eq_refl), (log_probs_own lp z (r_shape q) (draw a) S').
    generalize (indices (r_shape q)). induction l as [|i l IH]; cbn; [lra|]. cbn in IH. rewrite IH. lra.
  - apply int_sum. exact K.
Qed.

Lemma entropy_expected : forall lq entropy (q : rv P) (draw : A -> list nat -> V),
  entropy_of_entries I lq entropy q draw ->
  I (fun a => - sumR (log_probs lq q (r_shape q) (draw a))) (INR (repeats q) * sumR (entropies entropy q)).
Proof.
  intros lq entropy q draw K. destruct E as [J One]. rewrite <- (entropy_sum entropy q).
  apply (int_ext D I J (fun a => sumR (map (fun idx => - lq (entry_param q idx) (draw a idx)) (indices (r_shape q))))).
  - intros a _. rewrite (log_probs_own lq q (r_shape q) (draw a) eq_refl).
    generalize (indices (r_shape q)). induction l as [|i l IH]; cbn; [lra|]. cbn in IH. rewrite IH. lra.
  - apply int_sum. exact K.
Qed.

Lemma kl_exact_iff : forall lq lp kl (q z : rv P) (draw : A -> list nat -> V), r_shape q = r_shape z ->
  kl_of_entries I lq lp kl q z draw -> (forall a b, 0 <= kl a b) ->
  (I (fun a => sumR (log_probs lq q (r_shape q) (draw a)) - sumR (log_probs lp z (r_shape q) (draw a))) (sumR (kl_entries kl q z)) <->
   repeats2 q z = 1%nat \/ forall d, In d (kl_entries kl q z) -> d = 0).
Proof.
  intros lq lp kl q z draw S' K N. pose proof (kl_expected lq lp kl q z draw S' K) as X. destruct E as [J One].
  assert (N' : forall d, In d (kl_entries kl q z) -> 0 <= d).
  { unfold kl_entries. destruct (bshape _ _); [|intros d []]. intros d H. apply in_map_iff in H. destruct H as (i & <- & _). apply N. }
  split.
  - intros H. pose proof (int_unique D I J _ _ _ H X) as Q.
    assert (C : INR (repeats2 q z) = 1 \/ sumR (kl_entries kl q z) = 0).
    { destruct (Req_dec (sumR (kl_entries kl q z)) 0) as [Z|Z]; [right; exact Z|left].
      apply (Rmult_eq_reg_r (sumR (kl_entries kl q z))); [lra|exact Z]. }
    destruct C as [C|C]; [left; apply INR_eq; rewrite C; reflexivity|right].
    revert N' C. generalize (kl_entries kl q z). induction l as [|x l IH]; intros N' C d Hd; [destruct Hd|].
    cbn in C. assert (0 <= sumR l). { clear - N'. induction l as [|y l IH]; cbn; [lra|]. pose proof (N' y (or_intror (or_introl eq_refl))).
      assert (0 <= sumR l) by (apply IH; intros d [->|Hd]; apply N'; [left; auto|right; right; auto]). lra. }
    pose proof (N' x (or_introl eq_refl)). destruct Hd as [<-|Hd]; [lra|].
    apply IH; [intros; apply N'; right; auto|lra|exact Hd].
  - intros [C|C].
    + rewrite C in X. replace (INR 1) with 1 in X by reflexivity. rewrite Rmult_1_l in X. exact X.
    + assert (Z : sumR (kl_entries kl q z) = 0).
      { revert C. generalize (kl_entries kl q z). induction l as [|x l IH]; intros C; [reflexivity|]. cbn.
        rewrite (C x (or_introl eq_refl)), IH; [lra|]. intros; apply C; right; auto. }
      rewrite Z in *. rewrite Rmult_0_r in X. exact X.
Qed.

Lemma entropy_exact_iff : forall lq entropy (q : rv P) (draw : A -> list nat -> V), entropy_of_entries I lq entropy q draw ->
  (I (fun a => - sumR (log_probs lq q (r_shape q) (draw a))) (sumR (entropies entropy q)) <->
   repeats q = 1%nat \/ sumR (entropies entropy q) = 0).
Proof.
  intros lq entropy q draw K. pose proof (entropy_expected lq entropy q draw K) as X. destruct E as [J One]. split.
  - intros H. pose proof (int_unique D I J _ _ _ H X) as Q.
    destruct (Req_dec (sumR (entropies entropy q)) 0) as [Z|Z]; [right; exact Z|left].
    apply INR_eq. cbn [INR]. apply (Rmult_eq_reg_r (sumR (entropies entropy q))); [lra|exact Z].
  - intros [C|C].
    + rewrite C in X. replace (INR 1) with 1 in X by reflexivity. rewrite Rmult_1_l in X. exact X.
    + rewrite C in *. rewrite Rmult_0_r in X. exact X.
Qed.

(** ** Several variables *)
Lemma penalty_expected : forall lq lp kl (latent : list (nat * nat)) (kl_scaling : list (nat * R)) (rvs : nat -> rv P) (draw : A -> nat -> list nat -> V) (own : nat -> unit) th,
  (forall z q, In (z, q) latent -> r_shape (rvs q) = r_shape (rvs z) /\
    kl_of_entries I lq lp kl (rvs q) (rvs z) (fun a => draw a q)) ->
  I (fun a => sumR (map (fun zq => factor kl_scaling (fst zq) *
      (sumR (log_probs lq (rvs (snd zq)) (r_shape (rvs (snd zq))) (draw a (snd zq))) -
       sumR (log_probs lp (rvs (fst zq)) (r_shape (rvs (snd zq))) (draw a (snd zq))))) latent))
    (kl_penalty latent (fun _ z q _ => kl_entries kl (rvs q) (rvs z)) kl_scaling own th +
     sumR (map (fun zq => factor kl_scaling (fst zq) * ((INR (repeats2 (rvs (snd zq)) (rvs (fst zq))) - 1) * sumR (kl_entries kl (rvs (snd zq)) (rvs (fst zq))))) latent)).
Proof.
  intros lq lp kl latent kl_scaling rvs draw own th H. destruct E as [J One]. rewrite kl_spec.
  replace (_ + _) with (sumR (map (fun zq => factor kl_scaling (fst zq) * (INR (repeats2 (rvs (snd zq)) (rvs (fst zq))) * sumR (kl_entries kl (rvs (snd zq)) (rvs (fst zq))))) latent)).
  - apply int_sum. intros [z q] Hz. destruct (H z q Hz) as [S' K]. apply (int_scal D I J). apply kl_expected; assumption.
  - clear. induction latent as [|zq l IH]; cbn; [lra|]. cbn in IH. rewrite IH. lra.
Qed.
End One.

(** ** A coin thrown twice *)
Definition pairs : list (bool * bool) := [(true, true); (true, false); (false, true); (false, false)].
Definition fair (f : bool * bool -> R) (a : R) : Prop := sumR (map (fun x => / 4 * f x) pairs) = a.
Definition of_pair (x : bool * bool) (idx : list nat) : bool := match idx with [O] => fst x | _ => snd x end.
Definition coin_log (p : R) (b : bool) : R := if b then ln p else ln (1 - p).
Definition coin_kl (p r : R) : R := p * (ln p - ln r) + (1 - p) * (ln (1 - p) - ln (1 - r)).
Definition coin_entropy (p : R) : R := - (p * ln p + (1 - p) * ln (1 - p)).
Definition twice (p : R) : rv R := mkrv [2%nat] [] (fun _ => p).
Definition listed (p : R) : rv R := mkrv [] [2%nat] (fun _ => p).

Lemma fair_expectation : expectation (fun _ => True) fair.
Proof.
  split; [split|].
  - intros f a b <- <-. reflexivity.
  - intros f g a H <-. unfold fair. cbn. rewrite !H by auto. reflexivity.
  - intros f g a b <- <-. unfold fair. cbn. lra.
  - intros c f a <-. unfold fair. cbn. lra.
  - unfold fair. cbn. lra.
Qed.

Lemma pair_indices : forall idx, In idx (indices [2%nat]) -> idx = [0%nat] \/ idx = [1%nat].
Proof. cbn. intuition. Qed.

Lemma coin_right : forall q z r, (q = twice (/ 2) \/ q = listed (/ 2)) -> (z = twice r \/ z = listed r) ->
  kl_of_entries fair coin_log coin_log coin_kl q z of_pair /\ entropy_of_entries fair coin_log coin_entropy q of_pair.
Proof.
  intros q z r Hq Hz. split; intros idx H.
  - assert (H' : idx = [0%nat] \/ idx = [1%nat]) by (destruct Hq as [-> | ->]; apply pair_indices; exact H).
    destruct Hq as [-> | ->], Hz as [-> | ->], H' as [-> | ->]; unfold fair, entry_param, coin_kl; cbn; lra.
  - assert (H' : idx = [0%nat] \/ idx = [1%nat]) by (destruct Hq as [-> | ->]; apply pair_indices; exact H).
    destruct Hq as [-> | ->], H' as [-> | ->]; unfold fair, entry_param, coin_entropy; cbn; lra.
Qed.

Lemma ln_half : ln (/ 2) < 0.
Proof. rewrite ln_Rinv by lra. pose proof (ln_lt_2). pose proof ln_1. pose proof (ln_increasing 1 2 ltac:(lra) ltac:(lra)). lra. Qed.

Lemma coin_kl_nonzero : coin_kl (/ 2) (/ 4) <> 0.
Proof.
  unfold coin_kl. replace (1 - / 2) with (/ 2) by lra. replace (1 - / 4) with (3 * / 4) by lra.
  replace (/ 4) with (/ 2 * / 2) by lra. rewrite (ln_mult 3) by lra. rewrite ln_mult by lra.
  assert (L : ln 3 < 2 * ln 2).
  { replace (2 * ln 2) with (ln 2 + ln 2) by lra. rewrite <- ln_mult by lra. apply ln_increasing; lra. }
  rewrite ln_Rinv by lra. lra.
Qed.

Lemma kl_wrong : exists (A P V : Type) (D : A -> Prop) I lq lp kl (q z : rv P) (draw : A -> list nat -> V),
  expectation D I /\ r_shape q = r_shape z /\ kl_of_entries I lq lp kl q z draw /\
  ~ I (fun a => sumR (log_probs lq q (r_shape q) (draw a)) - sumR (log_probs lp z (r_shape q) (draw a))) (sumR (kl_entries kl q z)).
Proof.
  exists (bool * bool)%type, R, bool, (fun _ => True), fair, coin_log, coin_log, coin_kl, (twice (/ 2)), (twice (/ 4)), of_pair.
  split; [exact fair_expectation|]. split; [reflexivity|].
  pose proof (proj1 (coin_right (twice (/ 2)) (twice (/ 4)) (/ 4) (or_introl eq_refl) (or_introl eq_refl))) as K. split; [exact K|].
  intros H. pose proof (kl_expected _ _ fair_expectation _ _ _ (twice (/ 2)) (twice (/ 4)) _ eq_refl K) as X.
  pose proof (int_unique _ _ (proj1 fair_expectation) _ _ _ H X) as Q.
  change (sumR (kl_entries coin_kl (twice (/ 2)) (twice (/ 4)))) with (coin_kl (/ 2) (/ 4) + 0) in Q.
  change (INR (repeats2 (twice (/ 2)) (twice (/ 4)))) with 2 in Q. pose proof coin_kl_nonzero. apply H0. lra.
Qed.

Lemma entropy_wrong : exists (A P V : Type) (D : A -> Prop) I lq entropy (q : rv P) (draw : A -> list nat -> V),
  expectation D I /\ entropy_of_entries I lq entropy q draw /\
  ~ I (fun a => - sumR (log_probs lq q (r_shape q) (draw a))) (sumR (entropies entropy q)).
Proof.
  exists (bool * bool)%type, R, bool, (fun _ => True), fair, coin_log, coin_entropy, (twice (/ 2)), of_pair.
  split; [exact fair_expectation|].
  pose proof (proj2 (coin_right (twice (/ 2)) (twice (/ 4)) (/ 4) (or_introl eq_refl) (or_introl eq_refl))) as K. split; [exact K|].
  intros H. pose proof (entropy_expected _ _ fair_expectation _ _ (twice (/ 2)) _ K) as X.
  pose proof (int_unique _ _ (proj1 fair_expectation) _ _ _ H X) as Q.
  change (sumR (entropies coin_entropy (twice (/ 2)))) with (- (/ 2 * ln (/ 2) + (1 - / 2) * ln (1 - / 2)) + 0) in Q.
  change (INR (repeats (twice (/ 2)))) with 2 in Q. replace (1 - / 2) with (/ 2) in Q by lra. pose proof ln_half. lra.
Qed.
