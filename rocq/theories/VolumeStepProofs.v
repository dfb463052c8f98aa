(** * A step that accepts or refuses the end of a volume-preserving involution. *)
From Coquelicot Require Import Coquelicot.
From Coq Require Import Reals Lra Lia List Arith Psatz.
From Verif Require Import Transform VI VISpec VIIntegralSpec.
From Verif Require Import VolumeSpec VolumeProofs VolumeMassProofs.
Import ListNotations.
Local Open Scope R_scope.
Set Bullet Behavior "Strict Subproofs".

(** A map is continuous when its entries are. *)
Lemma close_nth : forall d x y, length x = length y -> (forall k, (k < length x)%nat -> Rabs (nth k x 0 - nth k y 0) < d) -> close d x y.
Proof.
  intros d x. induction x as [|a x IH]; intros [|b y] L H; try discriminate; [constructor|]. constructor.
  - apply (H O). cbn. lia.
  - apply IH; [cbn in L; lia|]. intros k Hk. apply (H (S k)). cbn. lia.
Qed.
Lemma cube_nth : forall B x, (forall k, (k < length x)%nat -> Rabs (nth k x 0) <= B) -> cube B x.
Proof.
  intros B x. induction x as [|a x IH]; intros H; constructor.
  - apply (H O). cbn. lia.
  - apply IH. intros k Hk. apply (H (S k)). cbn. lia.
Qed.
Lemma nth_close : forall d x y k, close d x y -> (k < length x)%nat -> Rabs (nth k x 0 - nth k y 0) < d.
Proof. intros d x y k H. revert k. induction H; intros [|k] Hk; cbn in *; try lia; auto. apply IHForall2. lia. Qed.

Lemma cmap_coords : forall n m T, (forall x, length x = n -> length (T x) = m) ->
  (forall k, (k < m)%nat -> continuous_n n (fun x => nth k (T x) 0)) -> cmap n m T.
Proof.
  intros n m T L C. split; [exact L|]. split.
  - intros M. assert (H : forall j, (j <= m)%nat -> exists B, 0 <= B /\ forall x, length x = n -> cube M x -> forall k, (k < j)%nat -> Rabs (nth k (T x) 0) <= B).
    { induction j as [|j IH]; intros Hj; [exists 0; split; [lra|]; intros; lia|]. destruct IH as [B [HB E]]; [lia|].
      destruct (cn_bounded _ _ (C j Hj) M) as [K [HK E']]. exists (B + K). split; [lra|]. intros x Hx Hc k Hk.
      destruct (Nat.eq_dec k j) as [->|Hn]; [pose proof (E' x Hx Hc); lra|]. pose proof (E x Hx Hc k ltac:(lia)). lra. }
    destruct (H m (le_n m)) as [B [HB E]]. exists B. split; [exact HB|]. intros x Hx Hc. apply cube_nth. rewrite L by auto. auto.
  - intros M eps He.
    assert (H : forall j, (j <= m)%nat -> exists d, 0 < d /\ forall x y, length x = n -> length y = n -> cube M x -> cube M y -> close d x y ->
       forall k, (k < j)%nat -> Rabs (nth k (T x) 0 - nth k (T y) 0) < eps).
    { induction j as [|j IH]; intros Hj; [exists 1; split; [lra|]; intros; lia|]. destruct IH as [d [Hd E]]; [lia|].
      destruct (C j Hj M eps He) as [d' [Hd' E']]. exists (Rmin d d'). split; [apply Rmin_glb_lt; auto|].
      intros x y Hx Hy Hcx Hcy Hc k Hk.
      assert (W : forall e, Rmin d d' <= e -> close e x y).
      { intros e Hle. clear -Hc Hle. induction Hc; constructor; auto. lra. }
      destruct (Nat.eq_dec k j) as [->|Hn]; [apply E'; auto; apply W, Rmin_r|].
      apply (E x y); auto; [apply W, Rmin_l|lia]. }
    destruct (H m (le_n m)) as [d [Hd E]]. exists d. split; [exact Hd|]. intros x y Hx Hy Hcx Hcy Hc. apply close_nth; [rewrite !L; auto|].
    rewrite L by auto. intros k Hk. apply (E x y); auto.
Qed.
Lemma cn_coord : forall n k, (k < n)%nat -> continuous_n n (fun x => nth k x 0).
Proof.
  intros n k Hk M eps He. exists eps. split; [exact He|]. intros x y Hx Hy _ _ Hc. apply nth_close; auto. lia.
Qed.

(** [g f] is continuous when [g] stays below [v] and [v f] is. *)
Lemma cn_dom : forall n v g f, continuous_n n v -> continuous_n n g -> continuous_n n (fun x => v x * f x) ->
  (forall x, length x = n -> 0 <= g x <= v x) ->
  (forall M, exists B, 0 <= B /\ forall x, length x = n -> cube M x -> Rabs (f x) <= B) ->
  continuous_n n (fun x => g x * f x).
Proof.
  intros n v g f Cv Cg Cvf D Bf M eps He. destruct (Bf M) as [B [HB E]].
  assert (Hq : 0 < eps / 4) by lra. assert (Hb : 0 < eps / (4 * (B + 1))) by (apply Rdiv_lt_0_compat; lra).
  destruct (Cvf M _ Hq) as [d1 [P1 E1]]. destruct (Cv M _ Hb) as [d2 [P2 E2]]. destruct (Cg M _ Hb) as [d3 [P3 E3]].
  exists (Rmin d1 (Rmin d2 d3)). split; [repeat apply Rmin_glb_lt; auto|]. intros x y Hx Hy Hcx Hcy Hc.
  assert (W : forall e, Rmin d1 (Rmin d2 d3) <= e -> close e x y).
  { intros e Hle. clear -Hc Hle. induction Hc; constructor; auto. lra. }
  assert (A1 : Rabs (v x * f x - v y * f y) < eps / 4) by (apply E1; auto; apply W, Rmin_l).
  assert (A2 : Rabs (v x - v y) < eps / (4 * (B + 1))).
  { apply E2; auto. apply W. eapply Rle_trans; [apply Rmin_r|apply Rmin_l]. }
  assert (A3 : Rabs (g x - g y) < eps / (4 * (B + 1))).
  { apply E3; auto. apply W. eapply Rle_trans; [apply Rmin_r|apply Rmin_r]. }
  pose proof (E y Hy Hcy) as By. destruct (D x Hx) as [G0 G1]. set (q := eps / (4 * (B + 1))) in *.
  assert (Q : B * q <= eps / 4). { unfold q. apply (Rmult_le_reg_r (4 * (B + 1))); [lra|]. field_simplify; nra. }
  assert (S1 : Rabs (f y * (v x - v y)) <= B * q).
  { rewrite Rabs_mult. apply Rmult_le_compat; auto using Rabs_pos. lra. }
  assert (S2 : Rabs (f y * (g x - g y)) <= B * q).
  { rewrite Rabs_mult. apply Rmult_le_compat; auto using Rabs_pos. lra. }
  assert (S3 : Rabs (v x * (f x - f y)) <= eps / 4 + B * q).
  { replace (v x * (f x - f y)) with ((v x * f x - v y * f y) + - (f y * (v x - v y))) by ring.
    eapply Rle_trans; [apply Rabs_triang|]. rewrite Rabs_Ropp. lra. }
  assert (S4 : Rabs (g x * (f x - f y)) <= Rabs (v x * (f x - f y))).
  { rewrite !Rabs_mult. apply Rmult_le_compat_r; [apply Rabs_pos|]. rewrite !Rabs_right by lra. lra. }
  replace (g x * f x - g y * f y) with (g x * (f x - f y) + f y * (g x - g y)) by ring.
  eapply Rle_lt_trans; [apply Rabs_triang|]. lra.
Qed.

(** Bounded on cubes. *)
Definition locally_bounded (n : nat) (f : list R -> R) : Prop :=
  forall M, exists B, 0 <= B /\ forall x, length x = n -> cube M x -> Rabs (f x) <= B.
Lemma lb_comp : forall n T f, cmap n n T -> locally_bounded n f -> locally_bounded n (fun x => f (T x)).
Proof. intros n T f [L [B _]] H M. destruct (B M) as [K [_ HK]]. destruct (H K) as [K' [P E]]. exists K'. auto. Qed.

Section Step.
Variable n : nat.
Variable T : list R -> list R.
Hypothesis HT : good n T.
Hypothesis Hback : forall x, length x = n -> T (T x) = x.
(** The weight, and a function that is averaged. *)
Variable v f e : list R -> R.
Hypothesis Cv : continuous_n n v.
Hypothesis Pv : forall x, length x = n -> 0 <= v x.
Hypothesis Cf : continuous_n n (fun x => v x * f x).
Hypothesis Bf : locally_bounded n f.
Hypothesis He : forall x, length x = n -> v x * e x = v x * f x + Rmin (v x) (v (T x)) * (f (T x) - f x).

Let m (x : list R) : R := Rmin (v x) (v (T x)).
Lemma T_length : forall x, length x = n -> length (T x) = n.
Proof. apply (proj1 (proj1 HT)). Qed.
Lemma m_range : forall x, length x = n -> 0 <= m x /\ m x <= v x /\ m x <= v (T x).
Proof.
  intros x Hx. unfold m. split; [apply Rmin_glb; apply Pv; auto using T_length|]. split; [apply Rmin_l|apply Rmin_r].
Qed.
Lemma Cm : continuous_n n m.
Proof. apply cn_min; auto. apply (cn_comp n n T v); auto. apply HT. Qed.
Lemma Cstay : continuous_n n (fun x => m x * f x).
Proof. apply (cn_dom n v); auto using Cm. intros x Hx. destruct (m_range x Hx). lra. Qed.
Lemma Cmove : continuous_n n (fun x => m x * f (T x)).
Proof.
  apply (cn_dom n (fun x => v (T x)) m (fun x => f (T x))); auto using Cm.
  - apply (cn_comp n n T v); auto. apply HT.
  - apply (cn_comp n n T (fun x => v x * f x)); auto. apply HT.
  - intros x Hx. destruct (m_range x Hx). lra.
  - apply lb_comp; auto. apply HT.
Qed.
Lemma step_continuous : continuous_n n (fun x => v x * e x).
Proof.
  apply (cn_ext n (fun x => v x * f x + (1 * (m x * f (T x)) + -1 * (m x * f x)))).
  - intros x Hx. rewrite He by auto. fold (m x). ring.
  - apply cn_plus; auto. apply cn_lin; auto using Cmove, Cstay.
Qed.
Lemma step_stationary : forall c, by_volume n (fun x => v x * f x) c -> by_volume n (fun x => v x * e x) c.
Proof.
  intros c Hc. pose proof (by_volume_integral n) as HI.
  destruct (by_volume_dominated n (fun x => m x * f x) (fun x => v x * f x) c) as [a Ha]; auto using Cstay.
  { intros x Hx. destruct (m_range x Hx) as [M0 [M1 _]]. rewrite !Rabs_mult. apply Rmult_le_compat_r; [apply Rabs_pos|].
    rewrite !Rabs_right by lra. lra. }
  assert (Hb : by_volume n (fun x => m x * f (T x)) a).
  { eapply (int_ext _ _ HI); [|apply (by_volume_good n T _ a HT Ha)]. intros x Hx. cbv beta. unfold m. rewrite Hback by auto.
    rewrite Rmin_comm. auto. }
  eapply (int_ext _ _ HI) with (f := fun x => v x * f x + (m x * f (T x) + -1 * (m x * f x))).
  - intros x Hx. rewrite He by auto. fold (m x). ring.
  - replace c with (c + (a + -1 * a)) by ring. apply (int_add _ _ HI); auto. apply (int_add _ _ HI); auto. apply (int_scal _ _ HI); auto.
Qed.
End Step.
