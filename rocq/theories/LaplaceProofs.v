(** * Proofs for C43. *)
From Coq Require Import Reals List Arith Lia Lra.
From Verif Require Import Transform TransformProofs VIProofs Laplace LaplaceSpec.
Import ListNotations.
Local Open Scope R_scope.

Definition msum (n : nat) (f : nat -> R) : R := sumR (map f (seq 0 n)).

Lemma msum_ext : forall n f g, (forall k, (k < n)%nat -> f k = g k) -> msum n f = msum n g.
Proof. intros n f g H. unfold msum. f_equal. apply map_ext_in. intros k Hk. apply in_seq in Hk. apply H. lia. Qed.

Lemma msum_S : forall n f, msum (S n) f = msum n f + f n.
Proof. intros n f. unfold msum. rewrite seq_S, map_app, sumR_app. simpl. unfold msum. lra. Qed.

Lemma msum_zero : forall n f, (forall k, (k < n)%nat -> f k = 0) -> msum n f = 0.
Proof. induction n as [|n IH]; intros f H; [reflexivity|]. rewrite msum_S, IH, H by (try lia; intros; apply H; lia). lra. Qed.

Lemma msum_plus : forall n f g, msum n (fun k => f k + g k) = msum n f + msum n g.
Proof. induction n as [|n IH]; intros f g; [unfold msum; simpl; lra|]. rewrite !msum_S, IH. lra. Qed.

Lemma msum_scal : forall n c f, msum n (fun k => c * f k) = c * msum n f.
Proof. induction n as [|n IH]; intros c f; [unfold msum; simpl; lra|]. rewrite !msum_S, IH. lra. Qed.

Lemma msum_scal_r : forall n c f, msum n (fun k => f k * c) = msum n f * c.
Proof. intros n c f. rewrite (msum_ext n _ (fun k => c * f k)) by (intros; lra). rewrite msum_scal. lra. Qed.

Lemma msum_swap : forall n m (f : nat -> nat -> R), msum n (fun i => msum m (fun j => f i j)) = msum m (fun j => msum n (fun i => f i j)).
Proof.
  induction n as [|n IH]; intros m f.
  - symmetry. apply msum_zero. intros. reflexivity.
  - rewrite msum_S, IH, <- msum_plus. apply msum_ext. intros k _. rewrite msum_S. auto.
Qed.

Lemma msum_single : forall n j f, (j < n)%nat -> (forall k, (k < n)%nat -> k <> j -> f k = 0) -> msum n f = f j.
Proof.
  induction n as [|n IH]; intros j f Hj H; [lia|]. rewrite msum_S. destruct (Nat.eq_dec j n) as [->|N].
  - rewrite msum_zero; [lra|]. intros k Hk. apply H; lia.
  - rewrite (IH j), (H n) by (try lia; intros; apply H; lia). lra.
Qed.

Lemma msum_nonneg : forall n f, (forall k, (k < n)%nat -> 0 <= f k) -> 0 <= msum n f /\ (msum n f = 0 -> forall k, (k < n)%nat -> f k = 0).
Proof.
  induction n as [|n IH]; intros f H; [split; [unfold msum; simpl; lra|intros _ k Hk; lia]|].
  rewrite msum_S. destruct (IH f) as [I1 I2]; [intros; apply H; lia|]. pose proof (H n (Nat.lt_succ_diag_r n)) as Hn. split; [lra|].
  intros E k Hk. destruct (Nat.eq_dec k n) as [->|N]; [lra|]. apply I2; [lra|lia].
Qed.

Lemma msum_split : forall n j f, (j < n)%nat -> msum n f = f j + msum n (fun k => if Nat.eqb k j then 0 else f k).
Proof.
  intros n j f Hj.
  rewrite (msum_ext n f (fun k => (if Nat.eqb k j then f k else 0) + (if Nat.eqb k j then 0 else f k))).
  - rewrite msum_plus. f_equal. rewrite (msum_single n j) by (auto; intros k _ Hk; apply Nat.eqb_neq in Hk; rewrite Hk; auto).
    rewrite Nat.eqb_refl. auto.
  - intros k _. destruct (Nat.eqb k j); lra.
Qed.

Lemma mmul_msum : forall n a b i j, mmul n a b i j = msum n (fun k => a i k * b k j).
Proof. reflexivity. Qed.

Lemma mmul_assoc : forall n a b c i j, mmul n (mmul n a b) c i j = mmul n a (mmul n b c) i j.
Proof.
  intros n a b c i j. rewrite !mmul_msum.
  rewrite (msum_ext n _ (fun k => msum n (fun l => a i l * b l k * c k j))) by (intros; rewrite mmul_msum, <- msum_scal_r; reflexivity).
  rewrite msum_swap. apply msum_ext. intros l _. rewrite mmul_msum, <- msum_scal. apply msum_ext. intros k _. lra.
Qed.

Lemma mmul_same : forall n a a' b b', same n a a' -> same n b b' -> same n (mmul n a b) (mmul n a' b').
Proof. intros n a a' b b' Ha Hb i j Hi Hj. rewrite !mmul_msum. apply msum_ext. intros k Hk. rewrite (Ha i k), (Hb k j); auto. Qed.

Lemma mmul_id_l : forall n a, same n (mmul n identity a) a.
Proof.
  intros n a i j Hi Hj. rewrite mmul_msum, (msum_single n i); auto.
  - unfold identity. rewrite Nat.eqb_refl. lra.
  - intros k Hk N. unfold identity. apply Nat.eqb_neq in N. rewrite Nat.eqb_sym, N. lra.
Qed.

Lemma mmul_id_r : forall n a, same n (mmul n a identity) a.
Proof.
  intros n a i j Hi Hj. rewrite mmul_msum, (msum_single n j); auto.
  - unfold identity. rewrite Nat.eqb_refl. lra.
  - intros k Hk N. unfold identity. apply Nat.eqb_neq in N. rewrite N. lra.
Qed.

Lemma same_sym : forall n a b, same n a b -> same n b a.
Proof. intros n a b H i j Hi Hj. symmetry. auto. Qed.

Lemma same_trans : forall n a b c, same n a b -> same n b c -> same n a c.
Proof. intros n a b c H1 H2 i j Hi Hj. rewrite H1, H2; auto. Qed.

Lemma same_refl : forall n a, same n a a. Proof. intros n a i j _ _. auto. Qed.

Lemma assoc_same : forall n a b c, same n (mmul n (mmul n a b) c) (mmul n a (mmul n b c)).
Proof. intros n a b c i j _ _. apply mmul_assoc. Qed.

(** Inverses are unique. *)
Lemma inverse_unique : forall n a b c, inverse_of n a b -> inverse_of n a c -> same n b c.
Proof.
  intros n a b c [_ B] [C _].
  apply (same_trans n _ (mmul n b identity)); [apply same_sym, mmul_id_r|].
  apply (same_trans n _ (mmul n b (mmul n a c))); [apply mmul_same; [apply same_refl|apply same_sym; auto]|].
  apply (same_trans n _ (mmul n (mmul n b a) c)); [apply same_sym, assoc_same|].
  apply (same_trans n _ (mmul n identity c)); [apply mmul_same; [auto|apply same_refl]|]. apply mmul_id_l.
Qed.

Lemma transpose_mmul : forall n a b i j, transpose (mmul n a b) i j = mmul n (transpose b) (transpose a) i j.
Proof. intros n a b i j. unfold transpose. rewrite !mmul_msum. apply msum_ext. intros k _. lra. Qed.

Lemma transpose_inverse : forall n a b, inverse_of n a b -> inverse_of n (transpose a) (transpose b).
Proof.
  assert (K : forall n a b, same n (mmul n a b) identity -> same n (mmul n (transpose b) (transpose a)) identity).
  { intros n a b H i j Hi Hj. rewrite <- transpose_mmul. unfold transpose. rewrite H by auto. unfold identity. rewrite Nat.eqb_sym. auto. }
  intros n a b [H1 H2]. split; apply K; auto.
Qed.

Lemma product_inverse : forall n a a' b b', inverse_of n a a' -> inverse_of n b b' -> inverse_of n (mmul n a b) (mmul n b' a').
Proof.
  assert (K : forall n a a' b b', same n (mmul n a a') identity -> same n (mmul n b b') identity -> same n (mmul n (mmul n a b) (mmul n b' a')) identity).
  { intros n a a' b b' Ha Hb.
    apply (same_trans n _ (mmul n a (mmul n b (mmul n b' a')))); [apply assoc_same|].
    apply (same_trans n _ (mmul n a a')); auto. apply mmul_same; [apply same_refl|].
    apply (same_trans n _ (mmul n (mmul n b b') a')); [apply same_sym, assoc_same|].
    apply (same_trans n _ (mmul n identity a')); [apply mmul_same; auto; apply same_refl|apply mmul_id_l]. }
  intros n a a' b b' [A1 A2] [B1 B2]. split; apply K; auto.
Qed.

Lemma inverse_same : forall n a a' b b', same n a a' -> same n b b' -> inverse_of n a b -> inverse_of n a' b'.
Proof.
  intros n a a' b b' Ha Hb [H1 H2]. split.
  - apply (same_trans n _ (mmul n a b)); auto. apply mmul_same; apply same_sym; auto.
  - apply (same_trans n _ (mmul n b a)); auto. apply mmul_same; apply same_sym; auto.
Qed.

Definition lower (n : nat) (a : matrix) : Prop := forall i j, (i < j)%nat -> (j < n)%nat -> a i j = 0.

(** The inverse of a lower triangular matrix is lower triangular. *)
Lemma inverse_lower : forall n l m, lower n l -> (forall i, (i < n)%nat -> 0 < l i i) -> inverse_of n l m -> lower n m.
Proof.
  intros n l m Hl Hp [H _] i j. revert j. induction i as [i IH] using (well_founded_induction lt_wf). intros j Hij Hj.
  pose proof (H i j ltac:(lia) Hj) as E. rewrite mmul_msum in E. rewrite (msum_single n i) in E; [|lia|].
  - unfold identity in E. assert (N : i <> j) by lia. apply Nat.eqb_neq in N. rewrite N in E.
    apply Rmult_integral in E. destruct E as [E|E]; auto. pose proof (Hp i ltac:(lia)). lra.
  - intros k Hk N. destruct (Nat.lt_ge_cases k i).
    + rewrite (IH k) by lia. lra.
    + rewrite Hl by lia. lra.
Qed.

(** A lower triangular matrix that commutes with its transpose is diagonal. *)
Lemma normal_diagonal : forall n m, lower n m -> same n (mmul n m (transpose m)) (mmul n (transpose m) m) -> diagonal n m.
Proof.
  intros n m Hl HN.
  assert (C : forall k, (k < n)%nat -> forall i, (k < i)%nat -> (i < n)%nat -> m i k = 0).
  { induction k as [k IH] using (well_founded_induction lt_wf). intros Hk i Hi Hin.
    pose proof (HN k k Hk Hk) as E. rewrite !mmul_msum in E. unfold transpose in E.
    rewrite (msum_single n k) in E; auto.
    - rewrite (msum_split n k (fun j => m j k * m j k)) in E by auto.
      destruct (msum_nonneg n (fun j => if Nat.eqb j k then 0 else m j k * m j k)) as [_ Z].
      { intros j _. destruct (Nat.eqb j k); [lra|]. nra. }
      assert (Z0 : msum n (fun j => if Nat.eqb j k then 0 else m j k * m j k) = 0) by lra.
      specialize (Z Z0 i Hin). cbn beta in Z. assert (N : i <> k) by lia. apply Nat.eqb_neq in N. rewrite N in Z.
      apply Rmult_integral in Z. tauto.
    - intros j Hj N. destruct (Nat.lt_ge_cases j k); [rewrite (IH j) by lia; lra|]. rewrite Hl by lia. lra. }
  intros i j Hi Hj N. destruct (Nat.lt_ge_cases i j); [apply Hl; auto|]. apply C; auto. lia.
Qed.

Lemma diagonal_mmul : forall n a b, diagonal n a -> diagonal n b -> diagonal n (mmul n a b).
Proof.
  intros n a b Ha Hb i j Hi Hj N. rewrite mmul_msum. apply msum_zero. intros k Hk.
  destruct (Nat.eq_dec i k) as [->|N1]; [rewrite (Hb k j) by auto; lra|]. rewrite Ha by auto. lra.
Qed.

Lemma diagonal_inverse : forall n a b, diagonal n a -> inverse_of n a b -> diagonal n b.
Proof.
  intros n a b Ha [H1 H2] i j Hi Hj N.
  pose proof (H1 i i Hi Hi) as Eii. rewrite mmul_msum, (msum_single n i) in Eii; auto; [|intros k Hk Nk; rewrite Ha by auto; lra].
  pose proof (H1 i j Hi Hj) as Eij. rewrite mmul_msum, (msum_single n i) in Eij; auto; [|intros k Hk Nk; rewrite Ha by auto; lra].
  unfold identity in Eii, Eij. rewrite Nat.eqb_refl in Eii. apply Nat.eqb_neq in N. rewrite N in Eij.
  apply Rmult_integral in Eij. destruct Eij as [E|E]; auto. rewrite E in Eii. lra.
Qed.

(** The Cholesky factor of a diagonal matrix is diagonal. *)
Lemma cholesky_diagonal : forall n h l, cholesky_of n h l -> diagonal n h -> diagonal n l.
Proof.
  intros n h l (Hl & Hp & He) Hd.
  assert (C : forall j, (j < n)%nat -> forall i, (j < i)%nat -> (i < n)%nat -> l i j = 0).
  { induction j as [j IH] using (well_founded_induction lt_wf). intros Hj i Hi Hin.
    pose proof (He i j Hin Hj) as E. rewrite Hd in E by (auto; lia). rewrite mmul_msum in E. unfold transpose in E.
    rewrite (msum_single n j) in E; auto.
    - apply Rmult_integral in E. destruct E as [E|E]; auto. pose proof (Hp j Hj). lra.
    - intros k Hk N. destruct (Nat.lt_ge_cases k j); [rewrite (IH k ltac:(lia) Hk j) by lia; lra|]. rewrite (Hl j k) by lia. lra. }
  intros i j Hi Hj N. destruct (Nat.lt_ge_cases i j); [apply Hl; auto|]. apply C; auto. lia.
Qed.

(** What finalize stores for MultivariateNormalTriL. *)
Lemma tril_covariance : forall n h l m, cholesky_of n h l -> inverse_of n l m ->
  same n (covariance n (laplace_scale TriLFamily h m)) (mmul n m (transpose m)) /\ inverse_of n h (mmul n (transpose m) m).
Proof.
  intros n h l m (Hl & Hp & He) Hi. pose proof (inverse_lower n l m Hl Hp Hi) as Hm. split.
  - intros i j Hi' Hj. cbn [laplace_scale covariance]. rewrite !mmul_msum. apply msum_ext. intros k Hk. unfold transpose.
    destruct (Nat.leb_spec k i), (Nat.leb_spec k j); try rewrite (Hm i k) by lia; try rewrite (Hm j k) by lia; lra.
  - apply (inverse_same n (mmul n l (transpose l)) _ (mmul n (transpose m) m) _ He (same_refl n _)).
    apply product_inverse; auto. apply transpose_inverse; auto.
Qed.

(** It is the inverse Hessian exactly when the Hessian is diagonal. *)
Lemma tril_iff : forall n h l m, cholesky_of n h l -> inverse_of n l m ->
  (inverse_of n h (covariance n (laplace_scale TriLFamily h m)) <-> diagonal n h).
Proof.
  intros n h l m Hc Hi. destruct (tril_covariance n h l m Hc Hi) as [C I]. destruct Hc as (Hl & Hp & He). split.
  - intros H.
    assert (Hm : lower n m) by (eapply inverse_lower; eauto).
    assert (N : same n (mmul n m (transpose m)) (mmul n (transpose m) m)).
    { apply (same_trans n _ (covariance n (laplace_scale TriLFamily h m))); [apply same_sym; auto|]. apply (inverse_unique n h); auto. }
    pose proof (normal_diagonal n m Hm N) as D.
    assert (L : diagonal n l) by (apply (diagonal_inverse n m); auto; destruct Hi; split; auto).
    intros i j Hi' Hj Nij. rewrite <- He by auto. apply diagonal_mmul; auto. intros a b Ha Hb Nab. unfold transpose. apply L; auto.
  - intros D.
    assert (L : diagonal n l) by (apply (cholesky_diagonal n h); auto; split; auto).
    assert (M : diagonal n m) by (apply (diagonal_inverse n l); auto).
    apply (inverse_same n h h (mmul n (transpose m) m)); auto; [apply same_refl|]. apply same_sym.
    apply (same_trans n _ _ _ C). apply mmul_same; intros i j Hi' Hj; unfold transpose; destruct (Nat.eq_dec i j) as [->|Nij]; auto; rewrite !M by auto; auto.
Qed.

(** Normal and MultivariateNormalDiag: only if every second derivative is one. *)
Lemma diag_iff : forall n f h m, f = NormalFamily \/ f = DiagFamily -> (forall i, (i < n)%nat -> 0 < h i i) ->
  (inverse_of n h (covariance n (laplace_scale f h m)) <-> diagonal n h /\ forall i, (i < n)%nat -> h i i = 1).
Proof.
  intros n f h m Hf Hp.
  assert (E : laplace_scale f h m = Vector (fun i => 1 / h i i)) by (destruct Hf as [->| ->]; reflexivity). rewrite E. clear E.
  cbn [covariance].
  assert (R : forall i j, (i < n)%nat -> (j < n)%nat -> mmul n h (mdiag (fun i => 1 / h i i * (1 / h i i))) i j = h i j * (1 / h j j * (1 / h j j))).
  { intros i j Hi Hj. rewrite mmul_msum, (msum_single n j); auto; unfold mdiag; [rewrite Nat.eqb_refl; auto|].
    intros k Hk N. apply Nat.eqb_neq in N. rewrite N. lra. }
  assert (L : forall i j, (i < n)%nat -> (j < n)%nat -> mmul n (mdiag (fun i => 1 / h i i * (1 / h i i))) h i j = h i j * (1 / h i i * (1 / h i i))).
  { intros i j Hi Hj. rewrite mmul_msum, (msum_single n i); auto; unfold mdiag; [rewrite Nat.eqb_refl; lra|].
    intros k Hk N. apply Nat.eqb_neq in N. rewrite Nat.eqb_sym, N. lra. }
  split.
  - intros [H _]. split.
    + intros i j Hi Hj N. pose proof (H i j Hi Hj) as E. rewrite R in E by auto. unfold identity in E. apply Nat.eqb_neq in N. rewrite N in E.
      apply Rmult_integral in E. destruct E as [E|E]; auto. pose proof (Rdiv_lt_0_compat 1 (h j j) Rlt_0_1 (Hp j Hj)). nra.
    + intros i Hi. pose proof (H i i Hi Hi) as E. rewrite R in E by auto. unfold identity in E. rewrite Nat.eqb_refl in E.
      pose proof (Hp i Hi) as P. assert (U : h i i * (1 / h i i) = 1) by (field; lra).
      rewrite <- Rmult_assoc, U in E. rewrite Rmult_1_l in E. rewrite E in U. lra.
  - intros [D O]. split; intros i j Hi Hj; [rewrite R by auto|rewrite L by auto]; unfold identity.
    + destruct (Nat.eqb_spec i j) as [->|N]; [rewrite O by auto; field|rewrite D by auto; lra].
    + destruct (Nat.eqb_spec i j) as [->|N]; [rewrite O by auto; field|rewrite D by auto; lra].
Qed.

(** Witnesses. *)
Definition h2 : matrix := fun i j => match i, j with 0%nat, 0%nat => 1 | 0%nat, 1%nat => 1 | 1%nat, 0%nat => 1 | 1%nat, 1%nat => 2 | _, _ => 0 end.
Definition l2 : matrix := fun i j => match i, j with 0%nat, 0%nat => 1 | 0%nat, 1%nat => 0 | 1%nat, 0%nat => 1 | 1%nat, 1%nat => 1 | _, _ => 0 end.
Definition m2 : matrix := fun i j => match i, j with 0%nat, 0%nat => 1 | 0%nat, 1%nat => 0 | 1%nat, 0%nat => -1 | 1%nat, 1%nat => 1 | _, _ => 0 end.

Ltac two := intros i j Hi Hj; rewrite ?mmul_msum; unfold transpose;
  destruct i as [|[|i]]; try lia; destruct j as [|[|j]]; try lia; unfold msum, h2, l2, m2, identity; simpl; lra.

Lemma h2_cholesky : cholesky_of 2 h2 l2.
Proof.
  split; [|split].
  - intros i j Hi Hj. destruct i as [|[|i]], j as [|[|j]]; try lia; reflexivity.
  - intros i Hi. destruct i as [|[|i]]; try lia; simpl; lra.
  - two.
Qed.

Lemma l2_inverse : inverse_of 2 l2 m2.
Proof. split; two. Qed.

Lemma tril_wrong : exists n h l m, cholesky_of n h l /\ inverse_of n l m /\ ~ inverse_of n h (covariance n (laplace_scale TriLFamily h m)).
Proof.
  exists 2%nat, h2, l2, m2. split; [apply h2_cholesky|]. split; [apply l2_inverse|].
  rewrite (tril_iff _ _ _ _ h2_cholesky l2_inverse). intros D. specialize (D 0%nat 1%nat ltac:(lia) ltac:(lia) ltac:(lia)). simpl in D. lra.
Qed.

Lemma normal_wrong : exists h l m, cholesky_of 1 h l /\ inverse_of 1 l m /\ forall f, f = NormalFamily \/ f = DiagFamily ->
  ~ inverse_of 1 h (covariance 1 (laplace_scale f h m)).
Proof.
  exists (fun _ _ => 4), (fun _ _ => 2), (fun _ _ => 1 / 2).
  assert (U : forall a b c : R, a * b = c -> same 1 (mmul 1 (fun _ _ => a) (fun _ _ => b)) (fun _ _ => c)).
  { intros a b c <- i j Hi Hj. rewrite mmul_msum. unfold msum. simpl. lra. }
  assert (ID : same 1 (fun _ _ => 1) identity) by (intros i j Hi Hj; assert (i = 0%nat) by lia; assert (j = 0%nat) by lia; subst; reflexivity).
  split; [|split].
  - split; [intros; lia|]. split; [intros; lra|]. apply U. lra.
  - split; (eapply same_trans; [apply U|apply ID]); lra.
  - intros f Hf. rewrite diag_iff by (auto; intros; lra). intros [_ H]. specialize (H 0%nat ltac:(lia)). lra.
Qed.
