(** Sums of log densities with signs. *)
From Coquelicot Require Import Coquelicot.
From Coq Require Import Reals List Bool Permutation Lia Lra.
From Verif Require Import Ext MHSpec.
Import ListNotations.
Local Open Scope R_scope.

Lemma density_nonneg : forall l, 0 <= density l.
Proof. intros [r| | |]; simpl; try lra. left. apply exp_pos. Qed.

Lemma product_nonneg : forall l, Forall (fun x => 0 <= x) l -> 0 <= product l.
Proof. induction 1; simpl; [lra|]. apply Rmult_le_pos; auto. Qed.

Lemma product_app : forall a b, product (a ++ b) = product a * product b.
Proof. induction a; intros; simpl; [lra|]. rewrite IHa. lra. Qed.

Lemma product_perm : forall a b, Permutation a b -> product a = product b.
Proof. induction 1; simpl; try lra. all: try rewrite IHPermutation; try lra. Qed.

Lemma eadd_comm : forall a b, eadd a b = eadd b a.
Proof. intros [r| | |] [s| | |]; simpl; auto. f_equal; lra. Qed.

Lemma eadd_assoc : forall a b c, eadd a (eadd b c) = eadd (eadd a b) c.
Proof. intros [r| | |] [s| | |] [q| | |]; simpl; auto. f_equal; lra. Qed.

(** What a sum of signed log densities with products [P] of the added and [N] of
    the subtracted densities looks like. *)
Definition ratio_of (P N : R) (s : ext) : Prop :=
  0 <= P /\ 0 <= N /\
  (0 < P -> 0 < N -> exists r, s = Fin r /\ P = exp r * N) /\
  (P = 0 -> 0 < N -> s = NInf) /\ (0 < P -> N = 0 -> s = PInf) /\ (P = 0 -> N = 0 -> s = NaN).

Lemma ratio_of_0 : ratio_of 1 1 (Fin 0).
Proof.
  unfold ratio_of. repeat split; try lra. intros _ _. exists 0. split; auto. rewrite exp_0. lra.
Qed.

Lemma ratio_add : forall P N s l, ratio_of P N s -> is_log_density l -> ratio_of (P * density l) N (eadd s l).
Proof.
  intros P N s l (H1 & H2 & A & B & C & D) [->|(q & ->)]; simpl.
  - rewrite Rmult_0_r. repeat split; try lra.
    + intros _ HN. destruct H1 as [H1|H1].
      * destruct (A H1 HN) as (r & -> & _). auto.
      * rewrite B; auto.
    + intros _ HN. destruct H1 as [H1|H1].
      * rewrite C; auto.
      * rewrite D; auto.
  - pose proof (exp_pos q) as Hq. assert (HP : 0 < P * exp q -> 0 < P).
    { intros H. destruct H1 as [H1|H1]; auto. rewrite <- H1 in H. lra. }
    assert (HP0 : P * exp q = 0 -> P = 0). { intros H. apply Rmult_integral in H. destruct H; lra. }
    split; [apply Rmult_le_pos; lra|]. split; [auto|]. repeat split.
    + intros HP' HN. destruct (A (HP HP') HN) as (r & -> & E). exists (r + q). split; auto. rewrite exp_plus, E. lra.
    + intros HP' HN. rewrite B; auto.
    + intros HP' HN. rewrite C; auto.
    + intros HP' HN. rewrite D; auto.
Qed.

Lemma ratio_neg : forall P N s, ratio_of P N s -> ratio_of N P (eneg s).
Proof.
  intros P N s (H1 & H2 & A & B & C & D). repeat split; auto.
  - intros HN HP. destruct (A HP HN) as (r & -> & E). exists (- r). split; auto. rewrite exp_Ropp, E.
    pose proof (exp_pos r). field. lra.
  - intros HN HP. rewrite C; auto.
  - intros HN HP. rewrite B; auto.
  - intros HN HP. rewrite D; auto.
Qed.

Lemma eneg_eadd : forall a b, eneg (eadd a b) = eadd (eneg a) (eneg b).
Proof. intros [r| | |] [s| | |]; simpl; auto. f_equal; lra. Qed.
Lemma eneg_neg : forall a, eneg (eneg a) = a.
Proof. intros [r| | |]; simpl; auto. f_equal; lra. Qed.

Lemma ratio_sub : forall P N s l, ratio_of P N s -> is_log_density l -> ratio_of P (N * density l) (esub s l).
Proof.
  intros P N s l H Hl. apply ratio_neg in H. apply (ratio_add _ _ _ _ H) in Hl. apply ratio_neg in Hl.
  rewrite eneg_eadd, eneg_neg in Hl. exact Hl.
Qed.

(** The acceptance probability. *)
Definition accept_prob (P N : R) : R :=
  if Req_EM_T N 0 then (if Req_EM_T P 0 then 0 else 1) else Rmin 1 (P / N).

Lemma accept_prob_range : forall P N, 0 <= P -> 0 <= N -> 0 <= accept_prob P N <= 1.
Proof.
  intros P N HP HN. unfold accept_prob. destruct (Req_EM_T N 0); [destruct (Req_EM_T P 0); lra|].
  split; [|apply Rmin_l]. apply Rmin_glb; [lra|]. apply Rmult_le_pos; auto. left. apply Rinv_0_lt_compat. lra.
Qed.

Lemma accept_balance : forall P N, 0 <= P -> 0 <= N -> N * accept_prob P N = P * accept_prob N P.
Proof.
  assert (G : forall P N, 0 <= P -> 0 <= N -> N * accept_prob P N = Rmin N P).
  { intros P N HP HN. unfold accept_prob. destruct (Req_EM_T N 0) as [->|Hne].
    - rewrite Rmin_left; auto. lra.
    - unfold Rmin. destruct (Rle_dec 1 (P / N)) as [H|H]; destruct (Rle_dec N P) as [H'|H']; try lra.
      + assert (P / N < 1); [|lra]. apply (Rmult_lt_reg_r N); [lra|]. field_simplify; lra.
      + exfalso. apply H. apply (Rmult_le_reg_r N); [lra|]. field_simplify; lra.
      + field. auto. }
  intros P N HP HN. rewrite !G by auto. apply Rmin_comm.
Qed.

Lemma accept_iff : forall P N s u, ratio_of P N s -> 0 < u < 1 ->
  eltb (elog (Fin u)) s = true <-> u < accept_prob P N.
Proof.
  intros P N s u (H1 & H2 & A & B & C & D) Hu. unfold elog. destruct (Rlt_dec 0 u); [|lra].
  unfold accept_prob. destruct (Req_EM_T N 0) as [->|HN]; [destruct (Req_EM_T P 0) as [->|HP]|].
  - rewrite D by auto. simpl. split; [discriminate|lra].
  - rewrite C by (auto; lra). simpl. split; [lra|auto].
  - destruct (Req_EM_T P 0) as [->|HP].
    + rewrite B by (auto; lra). simpl. unfold Rdiv. rewrite Rmult_0_l, Rmin_right by lra. split; [discriminate|lra].
    + destruct A as (q & -> & E); [lra|lra|]. simpl. replace (P / N) with (exp q) by (rewrite E; field; lra).
      destruct (Rlt_dec (ln u) q) as [H|H]; split; intros X; auto; try discriminate.
      * apply Rmin_glb_lt; [lra|]. rewrite <- (exp_ln u) by auto. apply exp_increasing; auto.
      * exfalso. apply H. assert (u < exp q). { eapply Rlt_le_trans; [apply X|apply Rmin_r]. }
        rewrite <- (ln_exp q). apply ln_increasing; auto.
Qed.

Lemma indicator_RInt : forall a, 0 <= a <= 1 -> is_RInt (fun u => if Rlt_dec u a then 1 else 0) 0 1 a.
Proof.
  intros a Ha. set (f := fun u => if Rlt_dec u a then 1 else 0).
  assert (H1 : is_RInt (V := R_NormedModule) f 0 a (scal (a - 0) 1)).
  { apply (is_RInt_ext (fun _ => 1)); [|apply (is_RInt_const (V := R_NormedModule) 0 a 1)]. intros x Hx.
    rewrite Rmin_left, Rmax_right in Hx by lra. unfold f. destruct (Rlt_dec x a); lra. }
  assert (H2 : is_RInt (V := R_NormedModule) f a 1 (scal (1 - a) 0)).
  { apply (is_RInt_ext (fun _ => 0)); [|apply (is_RInt_const (V := R_NormedModule) a 1 0)]. intros x Hx.
    rewrite Rmin_left, Rmax_right in Hx by lra. unfold f. destruct (Rlt_dec x a); lra. }
  pose proof (is_RInt_Chasles f 0 a 1 _ _ H1 H2) as H.
  match type of H with @is_RInt _ _ _ _ ?v => replace v with a in H; [exact H|] end.
  unfold plus, scal; simpl; unfold mult; simpl; lra.
Qed.

Lemma RInt_01_unique : forall (f g : R -> R) (a b : R), is_RInt f 0 1 a -> is_RInt g 0 1 b ->
  (forall u, 0 < u < 1 -> f u = g u) -> a = b.
Proof.
  intros f g a b Ha Hb H. assert (Ha' : is_RInt g 0 1 a).
  { apply (is_RInt_ext f g); auto. intros x Hx. rewrite Rmin_left, Rmax_right in Hx by lra. auto. }
  rewrite <- (is_RInt_unique (V := R_CompleteNormedModule) g 0 1 a Ha').
  apply (is_RInt_unique (V := R_CompleteNormedModule) g 0 1 b Hb).
Qed.
