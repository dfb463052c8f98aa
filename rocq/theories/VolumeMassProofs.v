(** * Integrals over R^n and the maps that preserve them. *)
From Coquelicot Require Import Coquelicot.
From Coq Require Import Reals Lra Lia List Arith Psatz.
From Verif Require Import Transform VI VISpec VIIntegralSpec.
From Verif Require Import VolumeSpec VolumeProofs.
Import ListNotations.
Local Open Scope R_scope.
Notation J := cube_integral.
Ltac conjs := repeat match goal with |- window _ _ _ => unfold window | |- rigid _ _ => unfold rigid | |- _ /\ _ => split end.
Set Bullet Behavior "Strict Subproofs".

(** ** Continuous functions *)
Lemma cn_ext : forall n f g, (forall x, length x = n -> f x = g x) -> continuous_n n f -> continuous_n n g.
Proof.
  intros n f g E H M eps He. destruct (H M eps He) as [d [Hd K]]. exists d. split; [exact Hd|].
  intros. rewrite <- !E by auto. auto.
Qed.
Lemma cn_const : forall n c, continuous_n n (fun _ => c).
Proof. intros n c M eps He. exists 1. split; [lra|]. intros. rewrite Rminus_eq_0, Rabs_R0. exact He. Qed.

Lemma cn_bounded : forall n f, continuous_n n f -> forall M, exists B, 0 <= B /\ forall x, length x = n -> cube M x -> Rabs (f x) <= B.
Proof.
  intros n f H M. destruct (H (Rabs M) 1 Rlt_0_1) as [d [Hd E]].
  destruct (archimed (Rabs M / d)) as [A _]. set (K := S (Z.to_nat (up (Rabs M / d)))).
  assert (HM : 0 <= Rabs M / d) by (apply Rmult_le_pos; [apply Rabs_pos|apply Rlt_le, Rinv_0_lt_compat; exact Hd]).
  assert (HK : Rabs M / d < INR K).
  { unfold K. rewrite S_INR, INR_IZR_INZ, Z2Nat.id by (apply le_IZR; lra). lra. }
  assert (HK0 : 0 < INR K) by lra.
  set (z := fun (i : nat) (x : list R) => map (Rmult (INR i / INR K)) x).
  exists (Rabs (f (repeat 0 n)) + INR K). split; [pose proof (Rabs_pos (f (repeat 0 n))); lra|].
  intros x Hx Hc.
  assert (C : forall i, (i <= K)%nat -> cube (Rabs M) (z i x)).
  { intros i Hi. unfold z, cube. rewrite Forall_map. eapply Forall_impl; [|exact Hc]. intros a Ha. cbv beta in Ha.
    rewrite Rabs_mult. assert (0 <= INR i / INR K <= 1).
    { split; [apply Rmult_le_pos; [apply pos_INR|apply Rlt_le, Rinv_0_lt_compat; lra]|].
      apply Rmult_le_reg_r with (INR K); [lra|]. unfold Rdiv. rewrite Rmult_assoc, Rinv_l by lra. apply le_INR in Hi. lra. }
    rewrite (Rabs_right (INR i / INR K)) by lra. pose proof (Rabs_pos a). pose proof (RRle_abs M). nra. }
  assert (L : forall i, length (z i x) = n) by (intros; unfold z; rewrite map_length; auto).
  assert (S : forall i, (i <= K)%nat -> Rabs (f (z i x)) <= Rabs (f (repeat 0 n)) + INR i).
  { induction i as [|i IH]; intros Hi.
    - replace (z 0%nat x) with (repeat 0 n); [cbn; lra|]. unfold z. rewrite <- Hx. clear. cbn [INR].
      induction x; cbn; [reflexivity|]. f_equal; [unfold Rdiv; ring|auto].
    - assert (Rabs (f (z i x) - f (z (S i) x)) < 1).
      { apply E; auto; [apply C; lia|]. unfold z. clear -Hc Hd HK HK0. induction Hc as [|a l Ha Hl IH]; cbn [map]; constructor; auto.
        rewrite S_INR. replace (INR i / INR K * a - (INR i + 1) / INR K * a) with (- (a / INR K)) by (field; lra).
        rewrite Rabs_Ropp. unfold Rdiv. rewrite Rabs_mult, (Rabs_right (/ INR K)) by (apply Rle_ge, Rlt_le, Rinv_0_lt_compat; lra).
        apply Rmult_lt_reg_r with (INR K); [lra|]. rewrite Rmult_assoc, Rinv_l by lra. rewrite Rmult_1_r.
        assert (Rabs M < INR K * d). { apply Rmult_lt_reg_r with (/ d); [apply Rinv_0_lt_compat; lra|]. rewrite Rmult_assoc, Rinv_r by lra. unfold Rdiv in HK. lra. }
        pose proof (RRle_abs M). lra. }
      assert (Hi' : (i <= K)%nat) by lia. specialize (IH Hi'). rewrite S_INR.
      replace (f (z (S i) x)) with (f (z i x) - (f (z i x) - f (z (S i) x))) by ring.
      eapply Rle_trans; [apply Rabs_triang|]. rewrite Rabs_Ropp. lra. }
  specialize (S K (le_n K)). replace (z K x) with x in S; [exact S|].
  unfold z. unfold Rdiv. rewrite Rinv_r by lra. clear. induction x; cbn; [reflexivity|]. f_equal; [ring|auto].
Qed.

Lemma cn_lin : forall n f g a b, continuous_n n f -> continuous_n n g -> continuous_n n (fun x => a * f x + b * g x).
Proof.
  intros n f g a b Hf Hg M eps He.
  set (A := Rabs a + 1). set (B := Rabs b + 1).
  assert (HA : 0 < A) by (unfold A; pose proof (Rabs_pos a); lra). assert (HB : 0 < B) by (unfold B; pose proof (Rabs_pos b); lra).
  destruct (Hf M (eps / (2 * A))) as [d1 [H1 E1]]; [apply Rdiv_lt_0_compat; lra|].
  destruct (Hg M (eps / (2 * B))) as [d2 [H2 E2]]; [apply Rdiv_lt_0_compat; lra|].
  exists (Rmin d1 d2). split; [apply Rmin_pos; auto|]. intros x y Hx Hy Cx Cy C.
  specialize (E1 x y Hx Hy Cx Cy (close_mono _ _ _ _ (Rmin_l _ _) C)). specialize (E2 x y Hx Hy Cx Cy (close_mono _ _ _ _ (Rmin_r _ _) C)).
  replace (a * f x + b * g x - (a * f y + b * g y)) with (a * (f x - f y) + b * (g x - g y)) by ring.
  eapply Rle_lt_trans; [apply Rabs_triang|]. rewrite !Rabs_mult.
  assert (K1 : Rabs a * Rabs (f x - f y) <= A * Rabs (f x - f y)) by (apply Rmult_le_compat_r; [apply Rabs_pos|unfold A; lra]).
  assert (K2 : Rabs b * Rabs (g x - g y) <= B * Rabs (g x - g y)) by (apply Rmult_le_compat_r; [apply Rabs_pos|unfold B; lra]).
  assert (K3 : A * Rabs (f x - f y) < eps / 2).
  { replace (eps / 2) with (A * (eps / (2 * A))) by (field; lra). apply Rmult_lt_compat_l; auto. }
  assert (K4 : B * Rabs (g x - g y) < eps / 2).
  { replace (eps / 2) with (B * (eps / (2 * B))) by (field; lra). apply Rmult_lt_compat_l; auto. }
  lra.
Qed.
Lemma cn_mult : forall n f g, continuous_n n f -> continuous_n n g -> continuous_n n (fun x => f x * g x).
Proof.
  intros n f g Hf Hg M eps He.
  destruct (cn_bounded n f Hf M) as [A [HA BA]]. destruct (cn_bounded n g Hg M) as [B [HB BB]].
  destruct (Hf M (eps / (2 * (B + 1)))) as [d1 [H1 E1]]; [apply Rdiv_lt_0_compat; lra|].
  destruct (Hg M (eps / (2 * (A + 1)))) as [d2 [H2 E2]]; [apply Rdiv_lt_0_compat; lra|].
  exists (Rmin d1 d2). split; [apply Rmin_pos; auto|]. intros x y Hx Hy Cx Cy C.
  specialize (E1 x y Hx Hy Cx Cy (close_mono _ _ _ _ (Rmin_l _ _) C)). specialize (E2 x y Hx Hy Cx Cy (close_mono _ _ _ _ (Rmin_r _ _) C)).
  replace (f x * g x - f y * g y) with ((f x - f y) * g x + f y * (g x - g y)) by ring.
  eapply Rle_lt_trans; [apply Rabs_triang|]. rewrite !Rabs_mult.
  assert (K1 : Rabs (f x - f y) * Rabs (g x) <= Rabs (f x - f y) * (B + 1)) by (apply Rmult_le_compat_l; [apply Rabs_pos|specialize (BB x Hx Cx); lra]).
  assert (K2 : Rabs (f y) * Rabs (g x - g y) <= (A + 1) * Rabs (g x - g y)) by (apply Rmult_le_compat_r; [apply Rabs_pos|specialize (BA y Hy Cy); lra]).
  assert (K3 : Rabs (f x - f y) * (B + 1) < eps / 2).
  { replace (eps / 2) with (eps / (2 * (B + 1)) * (B + 1)) by (field; lra). apply Rmult_lt_compat_r; lra. }
  assert (K4 : (A + 1) * Rabs (g x - g y) < eps / 2).
  { replace (eps / 2) with ((A + 1) * (eps / (2 * (A + 1)))) by (field; lra). apply Rmult_lt_compat_l; lra. }
  lra.
Qed.
Lemma Rmax_lip : forall a b c d e, Rabs (a - c) < e -> Rabs (b - d) < e -> Rabs (Rmax a b - Rmax c d) < e.
Proof. intros a b c d e H1 H2. apply Rabs_def2 in H1. apply Rabs_def2 in H2. apply Rabs_def1; unfold Rmax; destruct (Rle_dec a b), (Rle_dec c d); lra. Qed.
Lemma cn_max : forall n f g, continuous_n n f -> continuous_n n g -> continuous_n n (fun x => Rmax (f x) (g x)).
Proof.
  intros n f g Hf Hg M eps He. destruct (Hf M eps He) as [d1 [H1 E1]]. destruct (Hg M eps He) as [d2 [H2 E2]].
  exists (Rmin d1 d2). split; [apply Rmin_pos; auto|]. intros x y Hx Hy Cx Cy C. apply Rmax_lip.
  - apply E1; auto. eapply close_mono; [apply Rmin_l|exact C].
  - apply E2; auto. eapply close_mono; [apply Rmin_r|exact C].
Qed.
Lemma cn_opp : forall n f, continuous_n n f -> continuous_n n (fun x => - f x).
Proof. intros n f H. apply (cn_ext n (fun x => (-1) * f x + 0 * f x)); [intros; ring|]. apply cn_lin; auto. Qed.
Lemma cn_scal : forall n f c, continuous_n n f -> continuous_n n (fun x => c * f x).
Proof. intros n f c H. apply (cn_ext n (fun x => c * f x + 0 * f x)); [intros; ring|]. apply cn_lin; auto. Qed.
Lemma cn_plus : forall n f g, continuous_n n f -> continuous_n n g -> continuous_n n (fun x => f x + g x).
Proof. intros n f g H K. apply (cn_ext n (fun x => 1 * f x + 1 * g x)); [intros; ring|]. apply cn_lin; auto. Qed.
Lemma cn_min : forall n f g, continuous_n n f -> continuous_n n g -> continuous_n n (fun x => Rmin (f x) (g x)).
Proof.
  intros n f g Hf Hg. apply (cn_ext n (fun x => - Rmax (- f x) (- g x))).
  - intros x _. unfold Rmax, Rmin. destruct (Rle_dec (- f x) (- g x)), (Rle_dec (f x) (g x)); lra.
  - apply cn_opp, cn_max; apply cn_opp; auto.
Qed.

(** ** Maps *)
Definition cmap (n m : nat) (T : list R -> list R) : Prop :=
  (forall x, length x = n -> length (T x) = m) /\
  (forall M, exists B, 0 <= B /\ forall x, length x = n -> cube M x -> cube B (T x)) /\
  (forall M eps, 0 < eps -> exists d, 0 < d /\ forall x y, length x = n -> length y = n -> cube M x -> cube M y -> close d x y -> close eps (T x) (T y)).
Definition proper (n : nat) (T : list R -> list R) : Prop :=
  forall M, exists B, 0 <= B /\ forall x, length x = n -> cube M (T x) -> cube B x.
Definition good (n : nat) (T : list R -> list R) : Prop :=
  cmap n n T /\ proper n T /\ forall M f, tst n M f -> tst n M (fun x => f (T x)) -> J M n (fun x => f (T x)) = J M n f.

Lemma cn_comp : forall n m T f, cmap n m T -> continuous_n m f -> continuous_n n (fun x => f (T x)).
Proof.
  intros n m T f [L [B U]] Hf M eps He. destruct (B M) as [K [_ HK]]. destruct (Hf K eps He) as [d [Hd E]].
  destruct (U M d Hd) as [e [He' E']]. exists e. split; [exact He'|]. intros. apply E; auto.
Qed.
Lemma cmap_comp : forall n m k T S, cmap n m T -> cmap m k S -> cmap n k (fun x => S (T x)).
Proof.
  intros n m k T S [L [B U]] [L' [B' U']]. split; [auto|]. split.
  - intros M. destruct (B M) as [K [_ HK]]. destruct (B' K) as [K' [H0 HK']]. exists K'. auto.
  - intros M eps He. destruct (B M) as [K [_ HK]]. destruct (U' K eps He) as [d [Hd E]]. destruct (U M d Hd) as [e [He' E']].
    exists e. split; [exact He'|]. intros. apply E; auto.
Qed.
Lemma rigid_cmap : forall n T, rigid n T -> cmap n n T.
Proof.
  intros n T [L [C B]]. split; [exact L|]. split.
  - intros M. exists (Rabs M). split; [apply Rabs_pos|]. intros x Hx Hc. apply (proj1 (B _ x Hx)). eapply cube_mono; [apply RRle_abs|exact Hc].
  - intros M eps He. exists eps. split; [exact He|]. intros. apply C; auto.
Qed.
Lemma rigid_proper : forall n T, rigid n T -> proper n T.
Proof.
  intros n T [L [C B]] M. exists (Rabs M). split; [apply Rabs_pos|]. intros x Hx Hc. apply (proj2 (B _ x Hx)). eapply cube_mono; [apply RRle_abs|exact Hc].
Qed.

Lemma tst_of : forall n M f, 0 <= M -> continuous_n n f -> (forall x, length x = n -> ~ cube M x -> f x = 0) -> tst n M f.
Proof.
  intros n M f HM Hf Z. split; [exact HM|]. split; [|exact Z]. intros eps He.
  destruct (Hf (M + 1) eps He) as [d [Hd E]]. exists (Rmin d 1). split; [apply Rmin_pos; lra|].
  intros x y Hx Hy C. assert (C1 : close d x y) by (eapply close_mono; [apply Rmin_l|exact C]).
  assert (C2 : close 1 x y) by (eapply close_mono; [apply Rmin_r|exact C]).
  destruct (cube_dec M x) as [Kx|Kx].
  - apply E; auto; [eapply cube_mono; [|exact Kx]; lra|eapply cube_close; eauto].
  - destruct (cube_dec M y) as [Ky|Ky].
    + apply E; auto; [|eapply cube_mono; [|exact Ky]; lra]. eapply cube_close; [exact Ky|]. now apply close_sym.
    + rewrite !Z by auto. rewrite Rminus_eq_0, Rabs_R0. exact He.
Qed.
Lemma tst_cn : forall n M f, tst n M f -> continuous_n n f.
Proof. intros n M f [_ [H _]] K eps He. destruct (H eps He) as [d [Hd E]]. exists d. split; auto. Qed.
Lemma tst_comp : forall n T M f, cmap n n T -> proper n T -> tst n M f -> exists M', M <= M' /\ tst n M' (fun x => f (T x)).
Proof.
  intros n T M f HT HP Hf. destruct (HP M) as [B [HB E]]. exists (Rmax M B). split; [apply Rmax_l|].
  apply tst_of; [eapply Rle_trans; [apply HB|apply Rmax_r]|eapply cn_comp; [exact HT|eapply tst_cn; exact Hf]|].
  intros x Hx Hc. apply Hf; [apply HT; exact Hx|]. intros K. apply Hc. eapply cube_mono; [apply Rmax_r|]. auto.
Qed.

Lemma good_comp : forall n T S, good n T -> good n S -> good n (fun x => S (T x)).
Proof.
  intros n T S [HT [PT GT]] [HS [PS GS]]. split; [eapply cmap_comp; eauto|]. split.
  - intros M. destruct (PS M) as [B [HB E]]. destruct (PT B) as [B' [HB' E']]. exists B'. split; [exact HB'|].
    intros x Hx Hc. apply E'; auto. apply E; auto. apply HT; auto.
  - intros M f Hf Hg. destruct (tst_comp n S M f HS PS Hf) as [M' [HM Hm]].
    destruct (tst_comp n T M' _ HT PT Hm) as [M2 [HM2 Hm2]].
    rewrite <- (J_wider n M M2) by (auto; lra). rewrite <- (J_wider n M M2 f) by (auto; lra).
    rewrite (GT M2 (fun x => f (S x))); [|eapply tst_wider; [exact HM2|exact Hm]|exact Hm2].
    apply GS; [eapply tst_wider; [|exact Hf]; lra|eapply tst_wider; [exact HM2|exact Hm]].
Qed.
Lemma good_ext : forall n T S, (forall x, length x = n -> T x = S x) -> good n T -> good n S.
Proof.
  intros n T S E [[L [B U]] [P G]]. split; [|split].
  - split; [|split].
    + intros x Hx. rewrite <- E by auto. auto.
    + intros M. destruct (B M) as [K [H0 HK]]. exists K. split; auto. intros x Hx Hc. rewrite <- E by auto. auto.
    + intros M eps He. destruct (U M eps He) as [d [Hd K]]. exists d. split; auto. intros. rewrite <- !E by auto. auto.
  - intros M. destruct (P M) as [K [H0 HK]]. exists K. split; auto. intros x Hx Hc. rewrite <- E in Hc by auto. auto.
  - intros M f Hf Hg. rewrite (J_ext n M (fun x => f (S x)) (fun x => f (T x))) by (intros; rewrite E; auto).
    apply G; auto. destruct Hg as [HM [Hu Hz]]. split; [exact HM|]. split.
    + intros eps He. destruct (Hu eps He) as [d [Hd K]]. exists d. split; auto. intros. rewrite !E by auto. auto.
    + intros x Hx Hc. rewrite E by auto. auto.
Qed.
Lemma good_id : forall n, good n (fun x => x).
Proof.
  intros n. split; [|split].
  - split; [auto|]. split; [intros M; exists (Rabs M); split; [apply Rabs_pos|]; intros; eapply cube_mono; [apply RRle_abs|auto]|].
    intros M eps He. exists eps. auto.
  - intros M. exists (Rabs M). split; [apply Rabs_pos|]. intros; eapply cube_mono; [apply RRle_abs|auto].
  - reflexivity.
Qed.
Lemma good_iter : forall n T k, good n T -> good n (fun x => Nat.iter k T x).
Proof.
  intros n T k H. induction k as [|k IH]; [apply good_id|]. apply (good_comp n (fun x => Nat.iter k T x) T); auto.
Qed.
Lemma good_rot : forall n, good n rot.
Proof.
  intros n. split; [apply rigid_cmap, rot_rigid|]. split; [apply rigid_proper, rot_rigid|].
  intros M f Hf _. apply J_rot. exact Hf.
Qed.

(** The first [a] entries moved behind the others. *)
Definition turn (a : nat) (l : list R) : list R := skipn a l ++ firstn a l.
Lemma iter_rot : forall a l, (a <= length l)%nat -> Nat.iter a rot l = turn a l.
Proof.
  induction a as [|a IH]; intros l Hl; [cbn; unfold turn; cbn; rewrite app_nil_r; reflexivity|].
  cbn [Nat.iter]. cbn. change (rot (Nat.iter a rot l) = turn (S a) l). rewrite IH by lia. unfold turn.
  destruct (skipn a l) as [|x r] eqn:E.
  { exfalso. apply (f_equal (@length R)) in E. rewrite skipn_length in E. cbn in E. lia. }
  cbn [rot app]. assert (E2 : skipn (S a) l = r).
  { clear -E. revert l E. induction a as [|a IH]; intros [|b l] E; cbn in *; try discriminate; [now injection E|apply IH; exact E]. }
  rewrite E2, <- app_assoc. f_equal.
  clear -E. revert l E. induction a as [|a IH]; intros [|b l] E; cbn in *; try discriminate; [now injection E as -> _|f_equal; apply IH; exact E].
Qed.
Lemma good_turn : forall n a, (a <= n)%nat -> good n (turn a).
Proof.
  intros n a H. apply (good_ext n (fun x => Nat.iter a rot x)); [intros x Hx; apply iter_rot; lia|]. apply good_iter, good_rot.
Qed.

Lemma plusl_length : forall x v, length x = length v -> length (plusl x v) = length x.
Proof. intros x v H. unfold plusl. rewrite map_length, combine_length. lia. Qed.
Lemma plusl_cube : forall A B x v, length x = length v -> cube A x -> cube B v -> cube (A + B) (plusl x v).
Proof.
  intros A B x. induction x as [|a x IH]; intros [|b v] L H K; try discriminate; [constructor|].
  inversion H; inversion K; subst. cbn. constructor; [|apply IH; auto]. eapply Rle_trans; [apply Rabs_triang|]. cbn. lra.
Qed.
Lemma plusl_cube_inv : forall A B x v, length x = length v -> cube A (plusl x v) -> cube B v -> cube (A + B) x.
Proof.
  intros A B x. induction x as [|a x IH]; intros [|b v] L H K; try discriminate; [constructor|].
  injection L as L. cbn in H. apply Forall_inv in H as H1. apply Forall_inv_tail in H. apply Forall_inv in K as K1. apply Forall_inv_tail in K.
  constructor; [|apply (IH v); auto]. cbn in H1. replace a with ((a + b) - b) by ring.
  eapply Rle_trans; [apply Rabs_triang|]. rewrite Rabs_Ropp. lra.
Qed.
Lemma plusl_close : forall d e x y u v, close d x y -> close e u v -> close (d + e) (plusl x u) (plusl y v).
Proof.
  intros d e x y u v H. revert u v. induction H as [|a b x y H1 H IH]; intros u v K; [constructor|].
  destruct K as [|a' b' u v K1 K]; cbn; [constructor|]. constructor; [|apply IH; auto]. cbn.
  replace (a + a' - (b + b')) with ((a - b) + (a' - b')) by ring. eapply Rle_lt_trans; [apply Rabs_triang|]. lra.
Qed.
Lemma firstn_close : forall a d x y, close d x y -> close d (firstn a x) (firstn a y).
Proof. intros a d x y H. revert a. induction H; intros [|k]; cbn; constructor; auto. apply IHForall2. Qed.
Lemma skipn_close : forall a d x y, close d x y -> close d (skipn a x) (skipn a y).
Proof. intros a d x y H. revert a. induction H; intros [|k]; cbn; try constructor; auto. Qed.
Lemma cube_parts : forall a M x, cube M x <-> cube M (firstn a x) /\ cube M (skipn a x).
Proof. intros a M x. unfold cube. rewrite <- Forall_app, firstn_skipn. reflexivity. Qed.

Lemma good_kick : forall a b h, cmap a b h -> good (a + b) (kick_block a h).
Proof.
  intros a b h [L [B U]].
  assert (La : forall x : list R, length x = (a + b)%nat -> length (firstn a x) = a) by (intros; rewrite firstn_length; lia).
  assert (Lb : forall x : list R, length x = (a + b)%nat -> length (skipn a x) = b) by (intros; rewrite skipn_length; lia).
  assert (Lp : forall x, length x = (a + b)%nat -> length (skipn a x) = length (h (firstn a x))) by (intros; rewrite Lb, L by auto; auto).
  split; [|split].
  - split; [|split].
    + intros x Hx. unfold kick_block. rewrite app_length, plusl_length, La, Lb by auto. reflexivity.
    + intros M. destruct (B M) as [K [HK E]]. exists (Rabs M + K). split; [pose proof (Rabs_pos M); lra|].
      intros x Hx Hc. apply (cube_parts a) in Hc. destruct Hc as [C1 C2]. unfold kick_block. apply Forall_app. split.
      * eapply cube_mono; [|exact C1]. pose proof (RRle_abs M). lra.
      * apply plusl_cube; auto. eapply cube_mono; [apply RRle_abs|exact C2].
    + intros M eps He. destruct (U M (eps / 2)) as [d [Hd E]]; [lra|]. exists (Rmin d (eps / 2)). split; [apply Rmin_pos; lra|].
      intros x y Hx Hy Cx Cy C. apply (cube_parts a) in Cx. apply (cube_parts a) in Cy. unfold kick_block. apply Forall2_app.
      * apply firstn_close. eapply close_mono; [|exact C]. eapply Rle_trans; [apply Rmin_r|lra].
      * replace eps with (eps / 2 + eps / 2) by field. apply plusl_close.
        -- apply skipn_close. eapply close_mono; [apply Rmin_r|exact C].
        -- apply E; try apply La; try tauto. apply firstn_close. eapply close_mono; [apply Rmin_l|exact C].
  - intros M. destruct (B M) as [K [HK E]]. exists (Rabs M + K). split; [pose proof (Rabs_pos M); lra|].
    intros x Hx Hc. unfold kick_block in Hc. apply Forall_app in Hc. destruct Hc as [C1 C2]. apply (cube_parts a). split.
    + eapply cube_mono; [|exact C1]. pose proof (RRle_abs M). lra.
    + apply (plusl_cube_inv _ _ _ (h (firstn a x))); auto. eapply cube_mono; [apply RRle_abs|exact C2].
  - intros M f Hf Hg. apply J_kick; auto.
Qed.

Definition drift_block (a : nat) (h : list R -> list R) (l : list R) : list R := plusl (firstn a l) (h (skipn a l)) ++ skipn a l.
Lemma firstn_app_l : forall a (x y : list R), length x = a -> firstn a (x ++ y) = x.
Proof. intros a x y <-. rewrite firstn_app, Nat.sub_diag, firstn_all. cbn. apply app_nil_r. Qed.
Lemma skipn_app_l : forall a (x y : list R), length x = a -> skipn a (x ++ y) = y.
Proof. intros a x y <-. rewrite skipn_app, Nat.sub_diag, skipn_all. reflexivity. Qed.
Lemma turn_app : forall a x y, length x = a -> turn a (x ++ y) = y ++ x.
Proof. intros a x y H. unfold turn. rewrite skipn_app_l, firstn_app_l by auto. reflexivity. Qed.
Lemma kick_app : forall a x y h, length x = a -> kick_block a h (x ++ y) = x ++ plusl y (h x).
Proof. intros a x y h H. unfold kick_block. rewrite skipn_app_l, firstn_app_l by auto. reflexivity. Qed.
Lemma drift_app : forall a x y h, length x = a -> drift_block a h (x ++ y) = plusl x (h y) ++ y.
Proof. intros a x y h H. unfold drift_block. rewrite skipn_app_l, firstn_app_l by auto. reflexivity. Qed.
Lemma mirror_app : forall a x y, length x = a -> mirror_block a (x ++ y) = x ++ map Ropp y.
Proof. intros a x y H. unfold mirror_block. rewrite skipn_app_l, firstn_app_l by auto. reflexivity. Qed.

Lemma good_drift : forall a b h, cmap b a h -> good (a + b) (drift_block a h).
Proof.
  intros a b h H. apply (good_ext (a + b) (fun x => turn b (kick_block b h (turn a x)))).
  - intros l Hl. rewrite <- (firstn_skipn a l). set (x := firstn a l). set (y := skipn a l).
    assert (Lx : length x = a) by (unfold x; rewrite firstn_length; lia). assert (Ly : length y = b) by (unfold y; rewrite skipn_length; lia).
    rewrite (drift_app a x y h Lx), (turn_app a x y Lx), (kick_app b y x h Ly), (turn_app b y _ Ly). reflexivity.
  - apply (good_comp (a + b) (turn a) (fun x => turn b (kick_block b h x))); [apply good_turn; lia|].
    apply (good_comp (a + b) (kick_block b h) (turn b)); [|apply good_turn; lia].
    rewrite Nat.add_comm. apply good_kick. exact H.
Qed.

Lemma mirror_cube : forall a M x, cube M x -> cube M (mirror_block a x).
Proof.
  intros a M x H. apply (cube_parts a) in H. destruct H as [H1 H2]. unfold mirror_block. apply Forall_app. split; [exact H1|].
  apply Forall_map. eapply Forall_impl; [|exact H2]. intros b Hb. cbv beta in *. rewrite Rabs_Ropp. exact Hb.
Qed.
Lemma good_mirror : forall a b, good (a + b) (mirror_block a).
Proof.
  intros a b.
  assert (Hr : rigid (a + b) (mirror_block a)).
  { unfold rigid. conjs.
    - intros x Hx. unfold mirror_block. rewrite app_length, map_length, firstn_length, skipn_length. lia.
    - intros d x y _ _ H. unfold mirror_block. apply Forall2_app; [apply firstn_close; auto|]. apply map_opp_rigid, skipn_close; auto.
    - intros M x Hx. split; [apply mirror_cube|]. intros H. apply (mirror_cube a) in H. unfold mirror_block in H at 2.
      rewrite mirror_app, map_map in H by (rewrite firstn_length; lia).
      rewrite (map_ext _ (fun b => b)), map_id, firstn_skipn in H by (intros; ring). exact H. }
  split; [apply rigid_cmap, Hr|]. split; [apply rigid_proper, Hr|]. intros M f Hf _. apply J_mirror. exact Hf.
Qed.

(** ** Windows *)
Definition ramp (M a : R) : R := Rmax 0 (Rmin 1 (M + 1 - Rabs a)).
Definition std (M : R) (x : list R) : R := fold_right (fun a acc => Rmin (ramp M a) acc) 1 x.
Lemma Rmin_lip : forall a b c d e, Rabs (a - c) < e -> Rabs (b - d) < e -> Rabs (Rmin a b - Rmin c d) < e.
Proof. intros a b c d e H1 H2. apply Rabs_def2 in H1. apply Rabs_def2 in H2. apply Rabs_def1; unfold Rmin; destruct (Rle_dec a b), (Rle_dec c d); lra. Qed.
Lemma ramp_lip : forall M a b e, Rabs (a - b) < e -> Rabs (ramp M a - ramp M b) < e.
Proof.
  intros M a b e H. assert (He : 0 < e) by (eapply Rle_lt_trans; [apply Rabs_pos|exact H]). unfold ramp.
  assert (Z : forall t : R, Rabs (t - t) < e) by (intros t; rewrite Rminus_eq_0, Rabs_R0; exact He).
  apply Rmax_lip; [apply Z|]. apply Rmin_lip; [apply Z|].
  replace (M + 1 - Rabs a - (M + 1 - Rabs b)) with (- (Rabs a - Rabs b)) by ring. rewrite Rabs_Ropp.
  eapply Rle_lt_trans; [apply Rabs_triang_inv2|exact H].
Qed.
Lemma ramp_range : forall M a, 0 <= ramp M a <= 1.
Proof. intros M a. unfold ramp, Rmax, Rmin. destruct (Rle_dec 1 (M + 1 - Rabs a)); destruct (Rle_dec 0 _); lra. Qed.
Lemma std_cons : forall M a x, std M (a :: x) = Rmin (ramp M a) (std M x).
Proof. reflexivity. Qed.
Lemma std_range : forall M x, 0 <= std M x <= 1.
Proof.
  intros M x. induction x as [|a x IH]; [unfold std; cbn; lra|]. rewrite std_cons. pose proof (ramp_range M a). unfold Rmin. destruct (Rle_dec _ _); lra.
Qed.
Lemma std_one : forall M x, cube M x -> std M x = 1.
Proof.
  intros M x H. induction H as [|a x Ha Hx IH]; [reflexivity|]. rewrite std_cons, IH.
  unfold ramp, Rmin, Rmax. destruct (Rle_dec 1 (M + 1 - Rabs a)); [|lra]. destruct (Rle_dec 0 1); [|lra]. destruct (Rle_dec 1 1); lra.
Qed.
Lemma std_zero : forall M x, ~ cube (M + 1) x -> std M x = 0.
Proof.
  intros M x. induction x as [|a x IH]; intros H; [exfalso; apply H; constructor|]. rewrite std_cons.
  pose proof (std_range M x). destruct (Rle_dec (Rabs a) (M + 1)) as [Ha|Ha].
  - rewrite IH by (intros K; apply H; constructor; auto). pose proof (ramp_range M a). unfold Rmin. destruct (Rle_dec _ _); lra.
  - assert (E : ramp M a = 0). { unfold ramp, Rmin, Rmax. destruct (Rle_dec 1 _); [lra|]. destruct (Rle_dec 0 _); lra. }
    rewrite E. unfold Rmin. destruct (Rle_dec _ _); lra.
Qed.
Lemma std_window : forall n M, 0 <= M -> window n (M + 1) (std M).
Proof.
  intros n M HM. conjs; [lra| |intros; apply std_range|intros; apply std_zero; auto].
  intros K eps He. exists eps. split; [exact He|]. intros x y _ _ _ _ C. induction C as [|a b x y H1 H IH]; [|rewrite !std_cons].
  - rewrite Rminus_eq_0, Rabs_R0. exact He.
  - apply Rmin_lip; [apply ramp_lip; exact H1|exact IH].
Qed.
Lemma window_tst : forall n M chi f, window n M chi -> continuous_n n f -> tst n M (fun x => chi x * f x).
Proof.
  intros n M chi f [HM [Hc [_ Hz]]] Hf. apply tst_of; [exact HM|apply cn_mult; auto|]. intros x Hx K. rewrite Hz by auto. ring.
Qed.
Lemma window_wider : forall n M M' chi, M <= M' -> window n M chi -> window n M' chi.
Proof.
  intros n M M' chi H [HM [Hc [Hr Hz]]]. conjs; auto; [lra|]. intros x Hx K. apply Hz; auto.
  intros L. apply K. eapply cube_mono; eauto.
Qed.
Lemma window_max : forall n M M' chi chi', window n M chi -> window n M' chi' -> window n (Rmax M M') (fun x => Rmax (chi x) (chi' x)).
Proof.
  intros n M M' chi chi' H H'. apply (window_wider _ _ (Rmax M M')) in H; [|apply Rmax_l]. apply (window_wider _ _ (Rmax M M')) in H'; [|apply Rmax_r].
  destruct H as [HM [Hc [Hr Hz]]]. destruct H' as [_ [Hc' [Hr' Hz']]]. conjs; auto; [apply cn_max; auto| |].
  - intros x Hx. specialize (Hr x Hx). specialize (Hr' x Hx). unfold Rmax. destruct (Rle_dec _ _); lra.
  - intros x Hx K. rewrite Hz, Hz' by auto. apply Rmax_left. lra.
Qed.

(** ** The integral of nonnegative functions *)
Lemma mass_unique : forall n f a b, mass n f a -> mass n f b -> a = b.
Proof. intros n f a b Ha Hb. eapply is_lub_u; eauto. Qed.
Lemma mass_ext : forall n f g a, (forall x, length x = n -> f x = g x) -> mass n f a -> mass n g a.
Proof.
  intros n f g a E [H1 H2]. split.
  - intros v [chi [M [W ->]]]. apply H1. exists chi, M. split; [exact W|]. apply J_ext. intros. rewrite E; auto.
  - intros b Hb. apply H2. intros v [chi [M [W ->]]]. apply Hb. exists chi, M. split; [exact W|]. apply J_ext. intros. rewrite E; auto.
Qed.
Lemma mass_part : forall n f a chi M, mass n f a -> window n M chi -> J M n (fun x => chi x * f x) <= a.
Proof. intros n f a chi M [H _] W. apply H. exists chi, M. auto. Qed.

Lemma mass_add : forall n f g a b, continuous_n n f -> continuous_n n g ->
  (forall x, length x = n -> 0 <= f x) -> (forall x, length x = n -> 0 <= g x) ->
  mass n f a -> mass n g b -> mass n (fun x => f x + g x) (a + b).
Proof.
  intros n f g a b Cf Cg Pf Pg Ha Hb. split.
  - intros v [chi [M [W ->]]].
    rewrite (J_ext n M _ (fun x => 1 * (chi x * f x) + 1 * (chi x * g x))) by (intros; ring).
    rewrite (J_lin n M (fun x => chi x * f x) (fun x => chi x * g x)) by (apply window_tst; auto).
    pose proof (mass_part n f a chi M Ha W). pose proof (mass_part n g b chi M Hb W). lra.
  - intros u Hu.
    assert (P : forall chi1 M1 chi2 M2, window n M1 chi1 -> window n M2 chi2 ->
      J M1 n (fun x => chi1 x * f x) + J M2 n (fun x => chi2 x * g x) <= u).
    { intros chi1 M1 chi2 M2 W1 W2. pose proof (window_max n M1 M2 chi1 chi2 W1 W2) as W.
      assert (K := Hu _ (ex_intro _ _ (ex_intro _ _ (conj W eq_refl)))). cbv beta in K.
      rewrite <- (J_wider n M1 (Rmax M1 M2)) by (apply Rmax_l || (apply window_tst; auto)).
      rewrite <- (J_wider n M2 (Rmax M1 M2)) by (apply Rmax_r || (apply window_tst; auto)).
      set (MM := Rmax M1 M2) in *. set (chi := fun x => Rmax (chi1 x) (chi2 x)) in *.
      assert (T1 : tst n MM (fun x => chi1 x * f x)) by (apply window_tst; auto; eapply window_wider; [|exact W1]; apply Rmax_l).
      assert (T2 : tst n MM (fun x => chi2 x * g x)) by (apply window_tst; auto; eapply window_wider; [|exact W2]; apply Rmax_r).
      assert (T3 : tst n MM (fun x => chi x * (f x + g x))) by (apply (window_tst n MM chi (fun x => f x + g x)); auto; apply cn_plus; auto).
      eapply Rle_trans; [|exact K].
      replace (J MM n (fun x => chi1 x * f x) + J MM n (fun x => chi2 x * g x)) with
        (1 * J MM n (fun x => chi1 x * f x) + 1 * J MM n (fun x => chi2 x * g x)) by ring.
      rewrite <- J_lin by auto. apply J_le; auto; [apply tst_lin; auto|].
      intros x Hx. specialize (Pf x Hx). specialize (Pg x Hx). unfold chi.
      assert (chi1 x <= Rmax (chi1 x) (chi2 x)) by apply Rmax_l. assert (chi2 x <= Rmax (chi1 x) (chi2 x)) by apply Rmax_r. nra. }
    destruct Ha as [_ Ha]. destruct Hb as [_ Hb].
    assert (A : forall chi2 M2, window n M2 chi2 -> a <= u - J M2 n (fun x => chi2 x * g x)).
    { intros chi2 M2 W2. apply Ha. intros v [chi [M [W ->]]]. specialize (P chi M chi2 M2 W W2). lra. }
    assert (B : b <= u - a). { apply Hb. intros v [chi [M [W ->]]]. specialize (A chi M W). lra. }
    lra.
Qed.

Lemma mass_zero : forall n f, (forall x, length x = n -> f x = 0) -> mass n f 0.
Proof.
  intros n f H. split.
  - intros v [chi [M [W ->]]]. rewrite J_zero; [lra|]. intros x Hx. rewrite H by auto. ring.
  - intros b Hb. replace 0 with (J (0 + 1) n (fun x => std 0 x * f x)) by (apply J_zero; intros x Hx; rewrite H by auto; ring).
    apply Hb. exists (std 0), (0 + 1). split; [apply std_window; lra|reflexivity].
Qed.
Lemma mass_scal : forall n f a c, 0 <= c -> continuous_n n f -> mass n f a -> mass n (fun x => c * f x) (c * a).
Proof.
  intros n f a c Hc Cf Ha. destruct (Req_dec c 0) as [->|Hn].
  { rewrite Rmult_0_l. apply mass_zero. intros; ring. }
  assert (E : forall chi M, window n M chi -> J M n (fun x => chi x * (c * f x)) = c * J M n (fun x => chi x * f x)).
  { intros chi M W. rewrite (J_ext n M _ (fun x => c * (chi x * f x) + 0 * (chi x * f x))) by (intros; ring).
    rewrite (J_lin n M (fun x => chi x * f x) (fun x => chi x * f x)) by (apply window_tst; auto). ring. }
  split.
  - intros v [chi [M [W ->]]]. rewrite E by auto. apply Rmult_le_compat_l; auto. eapply mass_part; eauto.
  - intros b Hb. apply Rmult_le_reg_l with (/ c); [apply Rinv_0_lt_compat; lra|]. rewrite <- Rmult_assoc, Rinv_l, Rmult_1_l by lra.
    apply Ha. intros v [chi [M [W ->]]]. apply Rmult_le_reg_l with c; [lra|]. rewrite <- Rmult_assoc, Rinv_r, Rmult_1_l by lra.
    rewrite <- E by auto. apply Hb. exists chi, M. auto.
Qed.
Lemma mass_dominated : forall n f g b, continuous_n n f -> continuous_n n g -> (forall x, length x = n -> 0 <= f x <= g x) ->
  mass n g b -> exists a, mass n f a.
Proof.
  intros n f g b Cf Cg H Hb.
  destruct (completeness (fun v => exists chi M, window n M chi /\ v = J M n (fun x => chi x * f x))) as [a Ha].
  - exists b. intros v [chi [M [W ->]]]. eapply Rle_trans; [|exact (mass_part n g b chi M Hb W)].
    apply J_le; try (apply window_tst; auto). intros x Hx. destruct W as [_ [_ [Wr _]]]. specialize (Wr x Hx). specialize (H x Hx). nra.
  - exists (J (0 + 1) n (fun x => std 0 x * f x)), (std 0), (0 + 1). split; [apply std_window; lra|reflexivity].
  - exists a. exact Ha.
Qed.

(** The maps above preserve it. *)
Lemma mass_good : forall n T f a, good n T -> continuous_n n f -> (forall x, length x = n -> 0 <= f x) ->
  mass n f a -> mass n (fun x => f (T x)) a.
Proof.
  intros n T f a [HT [PT GT]] Cf Pf Ha.
  assert (C : forall chi M, window n M chi -> exists M', M <= M' /\ tst n M' (fun x => chi (T x) * f (T x)) /\
    J M' n (fun x => chi (T x) * f (T x)) = J M n (fun x => chi x * f x)).
  { intros chi M W. pose proof (window_tst n M chi f W Cf) as T1.
    destruct (tst_comp n T M _ HT PT T1) as [M' [HM T2]]. exists M'. split; [exact HM|]. split; [exact T2|].
    rewrite (GT M' (fun x => chi x * f x) (tst_wider _ _ _ _ HM T1) T2). apply J_wider; auto. }
  assert (CfT : continuous_n n (fun x => f (T x))) by (eapply cn_comp; eauto).
  split.
  - intros v [chi [M [W ->]]]. destruct HT as [L [B U]]. destruct (B M) as [K [HK E]].
    pose proof (std_window n K HK) as W'. destruct (C (std K) (K + 1) W') as [M' [HM [T2 EJ]]].
    eapply Rle_trans; [|exact (mass_part n f a _ _ Ha W')]. rewrite <- EJ.
    assert (T1 : tst n M (fun x => chi x * f (T x))) by (apply (window_tst n M chi (fun x => f (T x))); auto).
    rewrite <- (J_wider n M (Rmax M M')) by (apply Rmax_l || auto). rewrite <- (J_wider n M' (Rmax M M')) by (apply Rmax_r || auto).
    apply J_le; [eapply tst_wider; [apply Rmax_l|auto]|eapply tst_wider; [apply Rmax_r|auto]|].
    intros x Hx. apply Rmult_le_compat_r; [apply Pf; auto|]. destruct W as [_ [_ [Wr Wz]]].
    destruct (cube_dec M x) as [Kx|Kx].
    + rewrite (std_one K) by auto. apply Wr; auto.
    + rewrite Wz by auto. apply std_range.
  - intros b Hb. apply Ha. intros v [chi [M [W ->]]]. destruct (C chi M W) as [M' [HM [T2 <-]]]. apply Hb.
    exists (fun x => chi (T x)). destruct (PT M) as [B [HB E]]. exists (Rmax M' B). split.
    + destruct W as [WM [Wc [Wr Wz]]]. conjs.
      * eapply Rle_trans; [exact HB|apply Rmax_r].
      * eapply cn_comp; eauto.
      * intros x Hx. apply Wr, HT; auto.
      * intros x Hx Kx. apply Wz; [apply HT; auto|]. intros L. apply Kx. eapply cube_mono; [apply Rmax_r|]. auto.
    + symmetry. apply J_wider; [apply Rmax_l|exact T2].
Qed.

(** ** The integral of continuous functions *)
Lemma by_volume_integral : forall n, integral (fun x => length x = n) (by_volume n).
Proof.
  intros n. constructor.
  - intros f a a' [g [h [b [c [Cg [Ch [P [Mg [Mh ->]]]]]]]]] [g' [h' [b' [c' [Cg' [Ch' [P' [Mg' [Mh' ->]]]]]]]]].
    assert (E : b + c' = b' + c).
    { apply (mass_unique n (fun x => g x + h' x)).
      - apply mass_add; auto; intros x Hx; [apply P|apply P']; auto.
      - apply (mass_ext n (fun x => g' x + h x)).
        + intros x Hx. destruct (P x Hx) as [_ [_ E1]]. destruct (P' x Hx) as [_ [_ E2]]. lra.
        + apply mass_add; auto; intros x Hx; [apply P'|apply P]; auto. }
    lra.
  - intros f f' a E [g [h [b [c [Cg [Ch [P [Mg [Mh ->]]]]]]]]]. exists g, h, b, c. conjs; auto.
    intros x Hx. destruct (P x Hx) as [P1 [P2 P3]]. rewrite <- E by auto. auto.
  - intros f f' a a' [g [h [b [c [Cg [Ch [P [Mg [Mh ->]]]]]]]]] [g' [h' [b' [c' [Cg' [Ch' [P' [Mg' [Mh' ->]]]]]]]]].
    exists (fun x => g x + g' x), (fun x => h x + h' x), (b + b'), (c + c').
    conjs; try (apply cn_plus; auto).
    + intros x Hx. destruct (P x Hx) as [P1 [P2 P3]]. destruct (P' x Hx) as [P4 [P5 P6]]. repeat split; lra.
    + apply mass_add; auto; intros x Hx; [apply P|apply P']; auto.
    + apply mass_add; auto; intros x Hx; [apply P|apply P']; auto.
    + ring.
  - intros k f a [g [h [b [c [Cg [Ch [P [Mg [Mh ->]]]]]]]]]. destruct (Rle_dec 0 k) as [Hk|Hk].
    + exists (fun x => k * g x), (fun x => k * h x), (k * b), (k * c).
      conjs; try (apply mass_scal; auto); try (apply cn_scal; auto); try ring.
      intros x Hx. destruct (P x Hx) as [P1 [P2 P3]]. repeat split; try nra; rewrite P3; ring.
    + exists (fun x => - k * h x), (fun x => - k * g x), (- k * c), (- k * b).
      conjs; try (apply mass_scal; auto; lra); try (apply (cn_scal n _ (- k)); auto); try ring.
      intros x Hx. destruct (P x Hx) as [P1 [P2 P3]]. repeat split; try nra; rewrite P3; ring.
Qed.

Lemma by_volume_good : forall n T f a, good n T -> by_volume n f a -> by_volume n (fun x => f (T x)) a.
Proof.
  intros n T f a HT [g [h [b [c [Cg [Ch [P [Mg [Mh ->]]]]]]]]].
  exists (fun x => g (T x)), (fun x => h (T x)), b, c. pose proof HT as [HT1 _].
  conjs; auto; try (eapply cn_comp; eauto).
  - intros x Hx. apply P, HT1; auto.
  - apply mass_good; auto. intros x Hx. apply P; auto.
  - apply mass_good; auto. intros x Hx. apply P; auto.
Qed.

Lemma by_volume_dominated : forall n f g b, continuous_n n f -> by_volume n g b -> (forall x, length x = n -> Rabs (f x) <= Rabs (g x)) ->
  exists a, by_volume n f a.
Proof.
  intros n f k b Cf [g [h [b' [c [Cg [Ch [P [Mg [Mh ->]]]]]]]]] D.
  assert (Ms : mass n (fun x => g x + h x) (b' + c)) by (apply mass_add; auto; intros x Hx; apply P; auto).
  assert (Cs : continuous_n n (fun x => g x + h x)) by (apply cn_plus; auto).
  assert (Bd : forall x, length x = n -> Rabs (f x) <= g x + h x).
  { intros x Hx. eapply Rle_trans; [apply D; auto|]. destruct (P x Hx) as [P1 [P2 P3]]. rewrite P3. unfold Rabs. destruct (Rcase_abs _); lra. }
  assert (Cp : continuous_n n (fun x => Rmax (f x) 0)) by (apply cn_max; [auto|apply cn_const]).
  assert (Cm : continuous_n n (fun x => Rmax (- f x) 0)) by (apply (cn_max n (fun x => - f x)); [apply cn_opp; auto|apply cn_const]).
  destruct (mass_dominated n (fun x => Rmax (f x) 0) (fun x => g x + h x) (b' + c)) as [p Hp]; auto.
  { intros x Hx. specialize (Bd x Hx). unfold Rabs in Bd. split; [apply Rmax_r|]. unfold Rmax. destruct (Rle_dec _ _), (Rcase_abs (f x)); lra. }
  destruct (mass_dominated n (fun x => Rmax (- f x) 0) (fun x => g x + h x) (b' + c)) as [q Hq]; auto.
  { intros x Hx. specialize (Bd x Hx). unfold Rabs in Bd. split; [apply Rmax_r|]. unfold Rmax. destruct (Rle_dec _ _), (Rcase_abs (f x)); lra. }
  exists (p - q), (fun x => Rmax (f x) 0), (fun x => Rmax (- f x) 0), p, q. conjs; auto.
  intros x Hx. split; [apply Rmax_r|]. split; [apply Rmax_r|]. unfold Rmax. destruct (Rle_dec (f x) 0), (Rle_dec (- f x) 0); lra.
Qed.
