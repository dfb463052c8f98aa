(** * Proofs for C43 with several latent variables. *)
From Coq Require Import Reals List Arith Lia Lra.
From Verif Require Import Transform TransformProofs VIProofs Laplace LaplaceSpec LaplaceProofs.
From Verif Require Import LaplaceJoint LaplaceJointSpec.
Import ListNotations.
Local Open Scope R_scope.
Set Bullet Behavior "Strict Subproofs".

Lemma msum_app : forall n m f, msum (n + m) f = msum n f + msum m (fun k => f (n + k)%nat).
Proof.
  intros n m f. induction m as [|m IH].
  - rewrite Nat.add_0_r. unfold msum at 3. cbn. ring.
  - rewrite Nat.add_succ_r, !msum_S, IH. ring.
Qed.

(** ** Block matrices *)
Definition blk (n : nat) (a b : matrix) : matrix := fun i j =>
  if Nat.ltb i n then (if Nat.ltb j n then a i j else 0) else if Nat.ltb j n then 0 else b (i - n)%nat (j - n)%nat.

Lemma blocks_cons : forall n a l, blocks ((n, a) :: l) = blk n a (blocks l).
Proof. reflexivity. Qed.

Lemma blk_mul : forall n r a b a' b', same (n + r) (mmul (n + r) (blk n a b) (blk n a' b')) (blk n (mmul n a a') (mmul r b b')).
Proof.
  intros n r a b a' b' i j Hi Hj. rewrite mmul_msum, msum_app. unfold blk at 5.
  destruct (Nat.ltb_spec i n) as [Li|Li], (Nat.ltb_spec j n) as [Lj|Lj].
  - rewrite (msum_zero r). 2:{ intros k Hk. unfold blk. destruct (Nat.ltb_spec i n), (Nat.ltb_spec (n + k) n); try lia. ring. }
    rewrite mmul_msum, Rplus_0_r. apply msum_ext. intros k Hk. unfold blk.
    destruct (Nat.ltb_spec i n), (Nat.ltb_spec k n), (Nat.ltb_spec j n); try lia. reflexivity.
  - rewrite (msum_zero r). 2:{ intros k Hk. unfold blk. destruct (Nat.ltb_spec i n), (Nat.ltb_spec (n + k) n); try lia. ring. }
    rewrite (msum_zero n); [ring|]. intros k Hk. unfold blk.
    destruct (Nat.ltb_spec i n), (Nat.ltb_spec k n), (Nat.ltb_spec j n); try lia. ring.
  - rewrite (msum_zero n). 2:{ intros k Hk. unfold blk. destruct (Nat.ltb_spec i n), (Nat.ltb_spec k n); try lia. ring. }
    rewrite (msum_zero r); [ring|]. intros k Hk. unfold blk.
    destruct (Nat.ltb_spec i n), (Nat.ltb_spec (n + k) n), (Nat.ltb_spec j n); try lia. ring.
  - rewrite (msum_zero n). 2:{ intros k Hk. unfold blk. destruct (Nat.ltb_spec i n), (Nat.ltb_spec k n); try lia. ring. }
    rewrite mmul_msum, Rplus_0_l. apply msum_ext. intros k Hk. unfold blk.
    destruct (Nat.ltb_spec i n), (Nat.ltb_spec (n + k) n), (Nat.ltb_spec j n); try lia.
    replace (n + k - n)%nat with k by lia. reflexivity.
Qed.

Lemma blk_same : forall n r a b a' b', same n a a' -> same r b b' -> same (n + r) (blk n a b) (blk n a' b').
Proof.
  intros n r a b a' b' H H' i j Hi Hj. unfold blk.
  destruct (Nat.ltb_spec i n), (Nat.ltb_spec j n); auto. apply H'; lia.
Qed.

Lemma blk_identity : forall n r, same (n + r) (blk n identity identity) identity.
Proof.
  intros n r i j Hi Hj. unfold blk, identity.
  destruct (Nat.ltb_spec i n), (Nat.ltb_spec j n), (Nat.eqb_spec i j), (Nat.eqb_spec (i - n) (j - n)); try lia; reflexivity.
Qed.

Lemma same_trans : forall n a b c, same n a b -> same n b c -> same n a c.
Proof. intros n a b c H H' i j Hi Hj. now rewrite (H i j Hi Hj), (H' i j Hi Hj). Qed.
Lemma same_sym : forall n a b, same n a b -> same n b a.
Proof. intros n a b H i j Hi Hj. symmetry. now apply H. Qed.
Lemma same_refl : forall n a, same n a a.
Proof. intros n a i j _ _. reflexivity. Qed.

Lemma blk_inverse : forall n r a b a' b', inverse_of n a a' -> inverse_of r b b' -> inverse_of (n + r) (blk n a b) (blk n a' b').
Proof.
  intros n r a b a' b' [H1 H2] [H3 H4]. split.
  - eapply same_trans; [apply blk_mul|]. eapply same_trans; [apply blk_same; eassumption|]. apply blk_identity.
  - eapply same_trans; [apply blk_mul|]. eapply same_trans; [apply blk_same; eassumption|]. apply blk_identity.
Qed.

Lemma hessians_length : forall sizes o h, length (hessians o sizes h) = length sizes.
Proof. induction sizes as [|n sizes IH]; intros o h; cbn; [reflexivity|]. now rewrite IH. Qed.

(** Each block the inverse of its Hessian. *)
Lemma blocks_inverse : forall (sizes : list nat) (hs covs : list matrix), length covs = length sizes -> length hs = length sizes ->
  (forall k n a c, nth_error sizes k = Some n -> nth_error hs k = Some a -> nth_error covs k = Some c -> inverse_of n a c) ->
  inverse_of (total sizes) (blocks (combine sizes hs)) (blocks (combine sizes covs)).
Proof.
  induction sizes as [|n sizes IH]; intros hs covs L L' H.
  - split; intros i j Hi; cbn in Hi; lia.
  - destruct covs as [|c covs]; [discriminate|]. destruct hs as [|a hs]; [discriminate|]. cbn [combine total]. rewrite !blocks_cons. apply blk_inverse.
    + exact (H 0%nat n a c eq_refl eq_refl eq_refl).
    + apply IH; [now inversion L|now inversion L'|]. intros k n' a' c' E1 E2 E3. exact (H (S k) n' a' c' E1 E2 E3).
Qed.

Lemma blocks_uncoupled : forall sizes o h, same (total sizes) (part h o) (blocks (combine sizes (hessians o sizes h))) <-> uncoupled sizes (part h o).
Proof.
  intros sizes. induction sizes as [|n sizes IH]; intros o h.
  - split; intros H i j Hi; cbn in Hi; lia.
  - cbn [hessians combine total]. rewrite blocks_cons. fold (part h o). specialize (IH (o + n)%nat h).
    assert (P : forall i j, part h (o + n) i j = part h o (n + i)%nat (n + j)%nat) by (intros i j; unfold part; f_equal; lia). split.
    + intros H. apply proj1 in IH.
      assert (H' : same (total sizes) (part h (o + n)) (blocks (combine sizes (hessians (o + n) sizes h)))).
      { intros i j Hi Hj. rewrite P, (H (n + i)%nat (n + j)%nat) by lia. unfold blk.
        destruct (Nat.ltb_spec (n + i) n), (Nat.ltb_spec (n + j) n); try lia.
        replace (n + i - n)%nat with i by lia. replace (n + j - n)%nat with j by lia. reflexivity. }
      specialize (IH H'). intros i j Hi Hj Ho. cbn [total] in Hi, Hj. rewrite (H i j Hi Hj). cbn [owner] in Ho. unfold blk.
      destruct (Nat.ltb_spec i n), (Nat.ltb_spec j n); try reflexivity; [congruence|].
      rewrite <- (H' (i - n)%nat (j - n)%nat) by lia. apply IH; first [lia|congruence].
    + intros U. apply proj2 in IH.
      assert (U' : uncoupled sizes (part h (o + n))).
      { intros i j Hi Hj Ho. rewrite P. apply U; cbn [total owner]; try lia.
        destruct (Nat.ltb_spec (n + i) n), (Nat.ltb_spec (n + j) n); try lia.
        replace (n + i - n)%nat with i by lia. replace (n + j - n)%nat with j by lia. congruence. }
      specialize (IH U'). intros i j Hi Hj. unfold blk. pose proof (U i j Hi Hj) as Uij. cbn [owner] in Uij.
      destruct (Nat.ltb_spec i n), (Nat.ltb_spec j n).
      * reflexivity.
      * apply Uij. discriminate.
      * apply Uij. discriminate.
      * rewrite <- (IH (i - n)%nat (j - n)%nat) by lia. rewrite P. f_equal; lia.
Qed.

Lemma same_inverse : forall n a b c, inverse_of n a c -> same n a b -> inverse_of n b c.
Proof.
  intros n a b c [H1 H2] S. split.
  - eapply same_trans; [|exact H1]. apply mmul_same; [now apply same_sym|apply same_refl].
  - eapply same_trans; [|exact H2]. apply mmul_same; [apply same_refl|now apply same_sym].
Qed.

Lemma inverse_unique : forall n a b c, inverse_of n a c -> inverse_of n b c -> same n a b.
Proof.
  intros n a b c [H1 H2] [H3 H4].
  apply (same_trans n a (mmul n a identity)); [apply same_sym, mmul_id_r|].
  apply (same_trans n _ (mmul n a (mmul n c b))); [apply mmul_same; [apply same_refl|now apply same_sym]|].
  apply (same_trans n _ (mmul n (mmul n a c) b)); [intros i j _ _; symmetry; apply mmul_assoc|].
  apply (same_trans n _ (mmul n identity b)); [apply mmul_same; [exact H1|apply same_refl]|]. apply mmul_id_l.
Qed.

Lemma hessians_part : forall sizes o h k a, nth_error (hessians o sizes h) k = Some a -> a = part h (o + total (firstn k sizes)).
Proof.
  induction sizes as [|n sizes IH]; intros o h k a E; [destruct k; discriminate|]. destruct k as [|k].
  - cbn in E. inversion E; subst. cbn. now rewrite Nat.add_0_r.
  - cbn [hessians nth_error] in E. rewrite (IH _ _ k a E). cbn [firstn total]. now rewrite Nat.add_assoc.
Qed.

Lemma joint_form : forall ic latent h, exists covs, length covs = length (map snd latent) /\
  joint_covariance ic latent h = blocks (combine (map snd latent) covs) /\
  forall k f n a, nth_error latent k = Some (f, n) -> nth_error (hessians 0 (map snd latent) h) k = Some a ->
    nth_error covs k = Some (covariance n (laplace_scale f a (ic n a))).
Proof.
  intros ic latent h.
  assert (G : forall latent hs, length hs = length latent -> exists covs, length covs = length (map snd latent) /\
    blocks (map (fun p => (snd (fst p), covariance (snd (fst p)) (snd p)))
      (combine latent (map (fun p => laplace_scale (fst (fst p)) (snd p) (ic (snd (fst p)) (snd p))) (combine latent hs)))) = blocks (combine (map snd latent) covs) /\
    forall k f n a, nth_error latent k = Some (f, n) -> nth_error hs k = Some a -> nth_error covs k = Some (covariance n (laplace_scale f a (ic n a)))).
  { clear. induction latent as [|[f n] latent IH]; intros hs L.
    - exists []. split; [reflexivity|]. split; [reflexivity|]. intros [|k] f n a E; discriminate.
    - destruct hs as [|a hs]; [discriminate|]. destruct (IH hs) as (covs & C1 & C2 & C3); [now inversion L|].
      exists (covariance n (laplace_scale f a (ic n a)) :: covs). split; [cbn; now rewrite C1|]. split.
      + cbn [map snd fst combine]. rewrite !blocks_cons. now rewrite C2.
      + intros [|k] f' n' a' E1 E2; cbn in E1, E2; [inversion E1; inversion E2; subst; reflexivity|]. exact (C3 k f' n' a' E1 E2). }
  apply G. now rewrite hessians_length, map_length.
Qed.

Lemma joint_iff : forall ic latent h,
  (forall k f n a, nth_error latent k = Some (f, n) -> a = part h (total (firstn k (map snd latent))) ->
    inverse_of n a (covariance n (laplace_scale f a (ic n a)))) ->
  (inverse_of (total (map snd latent)) h (joint_covariance ic latent h) <-> uncoupled (map snd latent) h).
Proof.
  intros ic latent h H. destruct (joint_form ic latent h) as (covs & C1 & -> & C3).
  assert (B : inverse_of (total (map snd latent)) (blocks (combine (map snd latent) (hessians 0 (map snd latent) h))) (blocks (combine (map snd latent) covs))).
  { apply blocks_inverse; [exact C1|apply hessians_length|]. intros k n a c E1 E2 E3.
    rewrite nth_error_map in E1. destruct (nth_error latent k) as [[f n']|] eqn:El; [|discriminate]. cbn in E1. inversion E1; subst n'.
    rewrite (C3 k f n a El E2) in E3. inversion E3; subst c.
    exact (H k f n a El (hessians_part _ _ _ _ _ E2)). }
  change (uncoupled (map snd latent) h) with (uncoupled (map snd latent) (part h 0)). rewrite <- blocks_uncoupled. split.
  - intros I. exact (inverse_unique _ _ _ _ I B).
  - intros S. exact (same_inverse _ _ _ _ B (same_sym _ _ _ S)).
Qed.

(** ** Marginal variances *)
Lemma cauchy_schwarz : forall n f g, msum n (fun k => f k * g k) * msum n (fun k => f k * g k) <= msum n (fun k => f k * f k) * msum n (fun k => g k * g k).
Proof.
  intros n f g. set (a := msum n (fun k => f k * f k)). set (b := msum n (fun k => g k * g k)). set (c := msum n (fun k => f k * g k)).
  assert (Ha : 0 <= a /\ (a = 0 -> forall k, (k < n)%nat -> f k * f k = 0)) by (apply msum_nonneg; intros; apply Rle_0_sqr).
  assert (Q : 0 <= a * (a * b - c * c)).
  { assert (E : msum n (fun k => (a * g k - c * f k) * (a * g k - c * f k)) = a * (a * b - c * c)).
    { rewrite (msum_ext n _ (fun k => a * a * (g k * g k) + (-2 * a * c * (f k * g k) + c * c * (f k * f k)))) by (intros; ring).
      rewrite !msum_plus, !msum_scal. fold a b c. ring. }
    rewrite <- E. apply msum_nonneg. intros. apply Rle_0_sqr. }
  destruct (Req_dec a 0) as [Z|N].
  - assert (C : c = 0). { apply msum_zero. intros k Hk. pose proof (proj2 Ha Z k Hk) as F. apply Rmult_integral in F. destruct F as [-> | ->]; ring. }
    rewrite C, Z. lra.
  - assert (0 < a) by lra. assert (0 <= a * b - c * c); [|lra]. apply (Rmult_le_reg_l a); [lra|]. rewrite Rmult_0_r. exact Q.
Qed.

Lemma marginal : forall n h l c i, cholesky_of n h l -> inverse_of n h c -> (i < n)%nat ->
  0 < h i i /\ / h i i <= c i i.
Proof.
  intros n h l c i (T & D & H) [I1 _] Hi.
  assert (E1 : h i i = msum n (fun k => l i k * l i k)) by (rewrite <- (H i i Hi Hi); reflexivity).
  set (u k := msum n (fun j => l j k * c j i)).
  assert (R : forall j, (j < n)%nat -> msum n (fun k => l j k * u k) = identity j i).
  { intros j Hj. rewrite <- (I1 j i Hj Hi), mmul_msum. unfold u.
    rewrite (msum_ext n _ (fun k => msum n (fun p => l j k * (l p k * c p i)))) by (intros; symmetry; apply msum_scal).
    rewrite msum_swap. apply msum_ext. intros p Hp. rewrite <- (H j p Hj Hp). unfold mmul, transpose. fold (msum n (fun k => l j k * l p k)).
    rewrite <- msum_scal_r. apply msum_ext. intros; ring. }
  assert (E2 : msum n (fun k => l i k * u k) = 1) by (rewrite (R i Hi); unfold identity; now rewrite Nat.eqb_refl).
  assert (E3 : msum n (fun k => u k * u k) = c i i).
  { transitivity (msum n (fun j => c j i * identity j i)).
    - rewrite (msum_ext n (fun k => u k * u k) (fun k => msum n (fun j => l j k * c j i * u k))) by (intros; unfold u at 1; symmetry; apply msum_scal_r).
      rewrite msum_swap. apply msum_ext. intros j Hj. rewrite <- (R j Hj), <- msum_scal. apply msum_ext. intros; ring.
    - rewrite (msum_single n i); [unfold identity; rewrite Nat.eqb_refl; ring|exact Hi|].
      intros k _ N. unfold identity. apply Nat.eqb_neq in N. rewrite N. ring. }
  assert (P : 0 < h i i).
  { rewrite E1, (msum_split n i) by exact Hi. pose proof (D i Hi).
    assert (0 <= msum n (fun k => if Nat.eqb k i then 0 else l i k * l i k)).
    { apply msum_nonneg. intros k _. destruct (Nat.eqb k i); [lra|apply Rle_0_sqr]. }
    assert (0 < l i i * l i i) by (apply Rmult_lt_0_compat; lra). lra. }
  split; [exact P|]. pose proof (cauchy_schwarz n (fun k => l i k) u) as C. cbv beta in C. rewrite E2, E3, <- E1 in C.
  apply (Rmult_le_reg_l (h i i)); [exact P|]. rewrite Rinv_r by lra. lra.
Qed.

(** ** A coupled pair *)
Definition h_pair : matrix := fun i j => match i, j with O, O => 1 | O, _ => 1 | _, O => 1 | _, _ => 2 end.
Definition l_pair : matrix := fun i j => match i, j with O, O => 1 | O, _ => 0 | _, O => 1 | _, _ => 1 end.
Definition m_pair : matrix := fun i j => match i, j with O, O => 1 | O, _ => 0 | _, O => -1 | _, _ => 1 end.
(** The inverse of the Cholesky factor of a 1 by 1 matrix. *)
Definition ic_one (n : nat) (h : matrix) : matrix := fun i j => / sqrt (h 0%nat 0%nat).

Lemma ic_one_right : forall h l, cholesky_of 1 h l -> inverse_of 1 l (ic_one 1 h).
Proof.
  intros h l (T & D & H). pose proof (H 0%nat 0%nat ltac:(lia) ltac:(lia)) as E. pose proof (D 0%nat ltac:(lia)) as P.
  unfold mmul, transpose in E. cbn in E.
  assert (S : sqrt (h 0%nat 0%nat) = l 0%nat 0%nat) by (rewrite <- E, Rplus_0_r; apply sqrt_square; lra).
  split; intros i j Hi Hj; assert (i = 0%nat) as -> by lia; assert (j = 0%nat) as -> by lia; unfold mmul, identity, ic_one; cbn; rewrite S; field; lra.
Qed.

Lemma h_pair_cholesky : cholesky_of 2 h_pair l_pair.
Proof.
  split; [|split].
  - intros i j H1 H2. assert (i = 0%nat) as -> by lia. assert (j = 1%nat) as -> by lia. reflexivity.
  - intros [|[|i]] H; cbn; try lra; lia.
  - intros [|[|i]] [|[|j]] Hi Hj; try lia; unfold mmul, transpose; cbn; lra.
Qed.

Lemma l_pair_inverse : inverse_of 2 l_pair m_pair.
Proof. split; intros [|[|i]] [|[|j]] Hi Hj; try lia; unfold mmul, identity; cbn; lra. Qed.

Lemma pair_each : forall k f n a, nth_error [(TriLFamily, 1%nat); (TriLFamily, 1%nat)] k = Some (f, n) -> a = part h_pair (total (firstn k [1%nat; 1%nat])) ->
  inverse_of n a (covariance n (laplace_scale f a (ic_one n a))).
Proof.
  assert (G : forall a, 0 < a 0%nat 0%nat -> inverse_of 1 a (covariance 1 (laplace_scale TriLFamily a (ic_one 1 a)))).
  { intros a Ha. split; intros i j Hi Hj; assert (i = 0%nat) as -> by lia; assert (j = 0%nat) as -> by lia;
      unfold covariance, laplace_scale, mmul, identity, transpose, ic_one; cbn;
      pose proof (sqrt_lt_R0 _ Ha); pose proof (sqrt_sqrt (a 0%nat 0%nat) ltac:(lra)) as Q; set (s := sqrt (a 0%nat 0%nat)) in *;
      clearbody s; rewrite <- Q; field; lra. }
  intros [|[|[|k]]] f n a E ->; cbn in E; try discriminate; inversion E; subst; apply G; unfold part; cbn; lra.
Qed.

Lemma joint_wrong : exists ic latent h l m,
  cholesky_of (total (map snd latent)) h l /\ inverse_of (total (map snd latent)) l m /\
  (forall k f n a, nth_error latent k = Some (f, n) -> a = part h (total (firstn k (map snd latent))) ->
    inverse_of n a (covariance n (laplace_scale f a (ic n a)))) /\
  ~ inverse_of (total (map snd latent)) h (joint_covariance ic latent h).
Proof.
  exists ic_one, [(TriLFamily, 1%nat); (TriLFamily, 1%nat)], h_pair, l_pair, m_pair.
  split; [exact h_pair_cholesky|]. split; [exact l_pair_inverse|]. split; [exact pair_each|].
  rewrite joint_iff by exact pair_each. intros U. specialize (U 0%nat 1%nat). cbn in U. specialize (U ltac:(lia) ltac:(lia) ltac:(lia)). lra.
Qed.
