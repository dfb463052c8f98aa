From Coq Require Import List Arith Bool Reals Permutation Lia Lra.
From Verif Require Import Feed FeedProofs MonteCarlo Gibbs GibbsSpec GibbsProofs MHProofs.
Import ListNotations.
Local Open Scope R_scope.

Lemma sum_over_ext : forall {A} (l : list A) f g, (forall a, In a l -> f a = g a) -> sum_over l f = sum_over l g.
Proof.
  unfold sum_over. induction l as [|a l IH]; intros f g H; simpl; auto. rewrite (H a) by (simpl; auto).
  rewrite (IH f g); auto. intros; apply H; simpl; auto.
Qed.
Lemma sum_over_scal : forall {A} (l : list A) c f, sum_over l (fun a => c * f a) = c * sum_over l f.
Proof. unfold sum_over. induction l as [|a l IH]; intros c f; simpl; [lra|]. rewrite IH. lra. Qed.
Lemma sum_over_perm : forall {A} (l l' : list A) f, Permutation l l' -> sum_over l f = sum_over l' f.
Proof. unfold sum_over. induction 1; simpl; lra. Qed.
Lemma sum_over_map : forall {A B} (g : A -> B) l f, sum_over (map g l) f = sum_over l (fun a => f (g a)).
Proof. unfold sum_over. induction l as [|a l IH]; intros f; simpl; auto. rewrite IH. auto. Qed.
Lemma sum_over_filter : forall {A} (P : A -> bool) l f,
  sum_over l (fun a => if P a then f a else 0) = sum_over (filter P l) f.
Proof. unfold sum_over. induction l as [|a l IH]; intros f; simpl; auto. rewrite IH. destruct (P a); simpl; lra. Qed.
Lemma sum_over_single : forall {A} (eqd : forall a b : A, {a = b} + {a <> b}) l b f, NoDup l -> In b l ->
  sum_over l (fun a => f a * if eqd a b then 1 else 0) = f b.
Proof.
  intros A eqd l b f Hn Hb. induction l as [|a l IH]; [destruct Hb|]. inversion Hn; subst. unfold sum_over in *. simpl.
  destruct (eqd a b) as [->|Hne].
  - replace (fold_right _ 0 l) with 0; [lra|]. clear - H1. induction l as [|a l IH]; simpl; auto.
    destruct (eqd a b) as [->|]; [simpl in H1; tauto|]. rewrite <- IH; [lra|]. intros H; apply H1; simpl; auto.
  - destruct Hb as [->|Hb]; [congruence|]. rewrite IH by auto. lra.
Qed.
Lemma sum_nonneg_zero : forall {A} (l : list A) f, (forall a, In a l -> 0 <= f a) -> sum_over l f = 0 -> forall a, In a l -> f a = 0.
Proof.
  intros A. unfold sum_over. induction l as [|a l IH]; intros f Hp Hs b Hb; [destruct Hb|]. simpl in Hs.
  assert (0 <= fold_right (fun a s => f a + s) 0 l).
  { clear - Hp. induction l as [|c l IH]; simpl; [lra|]. assert (0 <= f c) by (apply Hp; simpl; auto).
    assert (0 <= fold_right (fun a s => f a + s) 0 l). { apply IH. intros d [<-|Hd]; apply Hp; simpl; auto. } lra. }
  assert (0 <= f a) by (apply Hp; simpl; auto). destruct Hb as [<-|Hb]; [lra|]. apply IH; auto; [|lra].
  intros; apply Hp; simpl; auto.
Qed.

Lemma map_inj_NoDup : forall {A B} (f : A -> B) l, (forall a b, In a l -> In b l -> f a = f b -> a = b) -> NoDup l -> NoDup (map f l).
Proof.
  intros A B f. induction l as [|a l IH]; intros Hf Hn; simpl; constructor; inversion Hn; subst.
  - intros H. apply in_map_iff in H. destruct H as (b & E & Hb). assert (b = a) by (apply Hf; simpl; auto). congruence.
  - apply IH; auto. intros x y Hx Hy. apply Hf; simpl; auto.
Qed.

Section L.
Context {V : Type} (veq : forall a b : V, {a = b} + {a <> b}).
Variable latent : list nat.
Variable values : list V.
Variable space : list (list V).
Variable p : list V -> R.
Hypothesis Hlat : NoDup latent.
Hypothesis Hall : all_states latent values space.
Hypothesis Hp : forall s, 0 <= p s.

Lemma replaced_length : forall i (v : V) s, (i < length s)%nat -> length (replaced i v s) = length s.
Proof.
  intros i v s H. unfold replaced. rewrite app_length. cbn [length]. rewrite firstn_length, skipn_length. lia.
Qed.
Lemma replaced_nth : forall i (v : V) s j, (i < length s)%nat ->
  nth_error (replaced i v s) j = if Nat.eqb j i then Some v else nth_error s j.
Proof.
  intros i v s j Hi. unfold replaced. destruct (Nat.eqb_spec j i) as [->|Hne].
  - rewrite nth_error_app2; rewrite firstn_length; [|lia]. replace (i - Nat.min i (length s))%nat with 0%nat by lia. auto.
  - destruct (Nat.lt_ge_cases j i).
    + rewrite nth_error_app1 by (rewrite firstn_length; lia). rewrite <- (firstn_skipn i s) at 2.
      rewrite nth_error_app1; auto. rewrite firstn_length. lia.
    + rewrite nth_error_app2 by (rewrite firstn_length; lia). rewrite firstn_length.
      replace (j - Nat.min i (length s))%nat with (S (j - S i)) by lia. cbn [nth_error].
      rewrite <- (firstn_skipn (S i) s) at 2. rewrite nth_error_app2; rewrite firstn_length; [|lia]. f_equal. lia.
Qed.
Lemma nth_ext_error : forall (a b : list V), (forall j, nth_error a j = nth_error b j) -> a = b.
Proof.
  induction a as [|x a IH]; intros [|y b] H; auto.
  - specialize (H 0%nat). discriminate. - specialize (H 0%nat). discriminate.
  - pose proof (H 0%nat) as H0. injection H0 as <-. f_equal. apply IH. intros j. exact (H (S j)).
Qed.
Lemma replaced_twice : forall i (v w : V) s, (i < length s)%nat -> replaced i v (replaced i w s) = replaced i v s.
Proof.
  intros i v w s Hi. apply nth_ext_error. intros j. rewrite !replaced_nth; auto; [|rewrite replaced_length; auto].
  destruct (Nat.eqb j i); auto.
Qed.
Lemma replaced_same : forall i (s : list V) v, nth_error s i = Some v -> replaced i v s = s.
Proof.
  intros i s v H. assert (Hi : (i < length s)%nat) by (apply nth_error_Some; congruence).
  apply nth_ext_error. intros j. rewrite replaced_nth by auto. destruct (Nat.eqb_spec j i) as [->|]; auto.
Qed.

Lemma in_space_replaced : forall i v s, In s space -> In v values -> (i < length latent)%nat -> In (replaced i v s) space.
Proof.
  intros i v s Hs Hv Hi. destruct Hall as (_ & _ & H). apply H in Hs. destruct Hs as [L Hin]. apply H.
  rewrite replaced_length by lia. split; auto. intros w Hw. unfold replaced in Hw. apply in_app_or in Hw.
  destruct Hw as [Hw|[<-|Hw]]; auto.
  - apply Hin. rewrite <- (firstn_skipn i s). apply in_or_app; auto.
  - apply Hin. rewrite <- (firstn_skipn (S i) s). apply in_or_app; auto.
Qed.


Lemma scanned_spec : forall i (s : list V) v, length s = length latent -> (i < length latent)%nat ->
  scanned latent (nth i latent O) s v = map Some (replaced i v s).
Proof.
  intros i s v Hl Hi. unfold scanned, gibbs_scan. cbn [fold_left fst snd].
  assert (E : forall j k, nth_error latent j = Some k ->
    dict_get (scan_block (fun _ _ => v) (combine latent s) [nth i latent O]) k = nth_error (replaced i v s) j).
  { intros j k Hj. rewrite scan_block_get. rewrite replaced_nth by lia.
    assert (Hjl : (j < length latent)%nat) by (apply nth_error_Some; congruence).
    destruct (in_dec Nat.eq_dec k [nth i latent O]) as [[Hk|[]]|Hk].
    - assert (j = i). { apply (proj1 (NoDup_nth_error latent) Hlat); auto. rewrite Hj. rewrite (nth_error_nth' latent O Hi). congruence. }
      subst j. rewrite Nat.eqb_refl. auto.
    - destruct (Nat.eqb_spec j i) as [->|Hne].
      + exfalso. apply Hk. left. apply nth_error_nth. auto.
      + destruct (nth_error s j) as [w|] eqn:Ew.
        * apply get_in; [rewrite fst_combine; auto|]. apply (nth_error_In (combine latent s) j).
          apply nth_combine; auto.
        * exfalso. apply nth_error_None in Ew. lia. }
  assert (G : forall (ks : list nat) (r : list V) (f : nat -> option V), length r = length ks ->
    (forall j k, nth_error ks j = Some k -> f k = nth_error r j) -> map f ks = map Some r).
  { clear. induction ks as [|k ks IH]; intros [|x r] f Hl H; simpl in *; try lia; auto.
    rewrite (H 0%nat k eq_refl). simpl. f_equal. apply IH; [lia|]. intros j k' Hj. exact (H (S j) k' Hj). }
  apply G; auto. rewrite replaced_length; lia.
Qed.

Lemma step_invariant : forall i r, (i < length latent)%nat -> In r space ->
  sum_over space (fun s => p s * sum_over values (fun v => conditional values p i s v *
    if list_eq_dec veq (replaced i v s) r then 1 else 0)) = p r.
Proof.
  intros i r Hi Hr. pose proof Hall as (Hnv & Hns & Hsp). pose proof (proj1 (Hsp r) Hr) as [Lr Vr].
  assert (Hri : exists u, nth_error r i = Some u).
  { destruct (nth_error r i) eqn:E; eauto. apply nth_error_None in E. lia. }
  destruct Hri as (u & Hu). assert (Hui : In u values) by (apply Vr; eapply nth_error_In; eauto).
  set (agree := fun s => if list_eq_dec veq (replaced i u s) r then true else false).
  assert (E1 : forall s, In s space ->
    p s * sum_over values (fun v => conditional values p i s v * (if list_eq_dec veq (replaced i v s) r then 1 else 0)) =
    if agree s then p s * conditional values p i r u else 0).
  { intros s Hs. pose proof (proj1 (Hsp s) Hs) as [Ls Vs]. unfold agree. destruct (list_eq_dec veq (replaced i u s) r) as [Ea|Ea].
    - f_equal. rewrite <- (sum_over_single veq values u (fun v => conditional values p i r v) Hnv Hui).
      apply sum_over_ext. intros v Hv.
      assert (Ec : conditional values p i s v = conditional values p i r v).
      { unfold conditional. rewrite <- Ea. rewrite replaced_twice by lia. f_equal. apply sum_over_ext.
        intros w _. rewrite replaced_twice by lia. auto. }
      rewrite Ec. f_equal. destruct (list_eq_dec veq (replaced i v s) r) as [E|E]; destruct (veq v u) as [->|Hvu]; auto.
      + exfalso. apply Hvu. pose proof (replaced_nth i v s i ltac:(lia)) as H. rewrite E, Hu, Nat.eqb_refl in H. congruence.
      + congruence.
    - replace (sum_over values _) with 0; [lra|]. symmetry.
      rewrite (sum_over_ext _ _ (fun _ => 0 * 0)); [rewrite sum_over_scal; lra|]. intros v Hv.
      destruct (list_eq_dec veq (replaced i v s) r) as [E|E]; [|lra]. exfalso. apply Ea.
      pose proof (replaced_nth i v s i ltac:(lia)) as H. rewrite E, Hu, Nat.eqb_refl in H. congruence. }
  rewrite (sum_over_ext _ _ _ E1). rewrite sum_over_filter.
  rewrite (sum_over_perm _ (map (fun w => replaced i w r) values)).
  2:{ apply NoDup_Permutation.
      - apply NoDup_filter; auto.
      - apply map_inj_NoDup; auto. intros a b Ha Hb E.
        pose proof (replaced_nth i a r i ltac:(lia)) as H1. rewrite E, (replaced_nth i b r i) in H1 by lia.
        rewrite Nat.eqb_refl in H1. congruence.
      - intros s. rewrite filter_In, in_map_iff. unfold agree. split.
        + intros [Hs Ha]. destruct (list_eq_dec veq (replaced i u s) r) as [Ea|]; [|discriminate].
          pose proof (proj1 (Hsp s) Hs) as [Ls Vs].
          destruct (nth_error s i) as [w|] eqn:Ew; [|apply nth_error_None in Ew; lia].
          exists w. split; [|apply Vs; eapply nth_error_In; eauto]. rewrite <- Ea, replaced_twice by lia. apply replaced_same; auto.
        + intros (w & <- & Hw). split; [apply in_space_replaced; auto|].
          rewrite replaced_twice by lia. rewrite (replaced_same i r u Hu). destruct (list_eq_dec veq r r); congruence. }
  rewrite sum_over_map. rewrite (sum_over_ext _ _ (fun a => conditional values p i r u * p (replaced i a r))) by (intros; lra).
  rewrite sum_over_scal. unfold conditional. rewrite (replaced_same i r u Hu).
  destruct (Req_dec (sum_over values (fun w => p (replaced i w r))) 0) as [Z|Z]; [|field; auto].
  rewrite Z, Rmult_0_r. symmetry. rewrite <- (replaced_same i r u Hu).
  apply (sum_nonneg_zero values (fun w => p (replaced i w r))); auto.
Qed.

Lemma gibbs_invariant : forall order r, (forall i, In i order -> (i < length latent)%nat) -> In r space ->
  law_after veq latent values space p order p r = p r.
Proof.
  assert (Ext : forall order q q' r, (forall i, In i order -> (i < length latent)%nat) ->
    (forall s, In s space -> q s = q' s) -> In r space ->
    law_after veq latent values space p order q r = law_after veq latent values space p order q' r).
  { induction order as [|i order IH]; intros q q' r Ho E Hr; simpl; auto. apply IH; auto; [intros; apply Ho; simpl; auto|].
    intros s Hs. apply sum_over_ext. intros s' Hs'. rewrite E; auto. }
  induction order as [|i order IH]; intros r Ho Hr; simpl; auto.
  rewrite (Ext order _ p); auto.
  - apply IH; auto. intros; apply Ho; simpl; auto.
  - intros; apply Ho; simpl; auto.
  - intros s Hs. rewrite <- (step_invariant i s) by (auto; apply Ho; simpl; auto).
    apply sum_over_ext. intros s' Hs'. f_equal. apply sum_over_ext. intros v Hv. f_equal.
    pose proof Hall as (_ & _ & Hsp). pose proof (proj1 (Hsp s') Hs') as [Ls _].
    rewrite scanned_spec; auto; [|apply Ho; simpl; auto].
    match goal with |- context [list_eq_dec ?e (map Some ?a) (map Some ?b)] => destruct (list_eq_dec e (map Some a) (map Some b)) as [E|E] end.
    + destruct (list_eq_dec veq (replaced i v s') s) as [|N]; auto. exfalso. apply N. clear - E.
      revert E. generalize (replaced i v s'). revert s. intros b a. revert b.
      induction a as [|x a IHa]; intros [|y b] E; simpl in E; try discriminate; auto. injection E as -> E. f_equal. auto.
    + destruct (list_eq_dec veq (replaced i v s') s) as [E2|N]; auto. exfalso. apply E. rewrite E2. auto.
Qed.
End L.
