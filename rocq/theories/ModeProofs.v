(** * Proofs for C52. *)
From Coq Require Import Reals List Arith Bool Lia Lra Psatz.
From Verif Require Import Transform TransformProofs VIProofs Mode ModeSpec.
Import ListNotations.
Local Open Scope R_scope.

Lemma count_true_cons : forall b m, count_true (b :: m) = ((if b then 1 else 0) + count_true m)%nat.
Proof. intros [|] m; reflexivity. Qed.

Lemma where_length : forall m i, length (where_true i m) = count_true m.
Proof. induction m as [|b m IH]; intros i; auto. cbn [where_true]. rewrite count_true_cons. destruct b; cbn [length]; rewrite IH; auto. Qed.

Lemma where_spec : forall m i k, In k (where_true i m) <-> (i <= k /\ nth_error m (k - i) = Some true)%nat.
Proof.
  induction m as [|b m IH]; intros i k; cbn [where_true].
  - split; [intros []|]. intros [_ H]. destruct (k - i)%nat; discriminate.
  - assert (E : In k (where_true (S i) m) <-> (S i <= k /\ nth_error (b :: m) (k - i) = Some true)%nat).
    { rewrite IH. split; intros [H1 H2]; (split; [lia|]); replace (k - i)%nat with (S (k - S i)) in * by lia; auto. }
    destruct b; cbn [In]; rewrite ?E.
    + split; [intros [<-|H]; [rewrite Nat.sub_diag; auto|destruct H; split; [lia|auto]]|]. intros [H1 H2]. destruct (Nat.eq_dec i k); auto. right. split; [lia|auto].
    + split; [intros [H1 H2]; split; [lia|auto]|]. intros [H1 H2]. split; auto. destruct (Nat.eq_dec i k) as [->|]; [|lia]. rewrite Nat.sub_diag in H2. discriminate.
Qed.

Lemma where_nodup : forall m i, NoDup (where_true i m).
Proof.
  induction m as [|b m IH]; intros i; cbn [where_true]; [constructor|]. destruct b; auto. constructor; auto. rewrite where_spec. lia.
Qed.

Lemma clear_length : forall m cold, length (clear_mask m cold) = length m.
Proof. intros. unfold clear_mask. rewrite map_length, combine_length, seq_length, Nat.min_id. auto. Qed.

Lemma clear_count : forall m cold, NoDup cold -> incl cold (where_true 0 m) -> count_true (clear_mask m cold) = (count_true m - length cold)%nat.
Proof.
  intros m cold ND I.
  assert (G : forall m i, count_true (map (fun p => if existsb (Nat.eqb (fst p)) cold then false else snd p) (combine (seq i (length m)) m)) =
    length (filter (fun k => negb (existsb (Nat.eqb k) cold)) (where_true i m))).
  { clear. induction m as [|b m IH]; intros i; auto. cbn [length seq combine map fst snd where_true]. rewrite count_true_cons, IH.
    destruct b; [|destruct (existsb _ _); auto]. cbn [filter]. destruct (existsb (Nat.eqb i) cold); auto. }
  unfold clear_mask. rewrite G.
  assert (P : forall l cold, NoDup l -> NoDup cold -> incl cold l -> length (filter (fun k => negb (existsb (Nat.eqb k) cold)) l) = (length l - length cold)%nat).
  { clear. intros l cold Hl Hc Hi.
    assert (E : length (filter (fun k => existsb (Nat.eqb k) cold) l) = length cold).
    { apply Nat.le_antisymm; apply NoDup_incl_length.
      - apply NoDup_filter. auto.
      - intros k Hk. apply filter_In in Hk. destruct Hk as [_ Hk]. apply existsb_exists in Hk. destruct Hk as (c & Hc1 & E). apply Nat.eqb_eq in E. congruence.
      - auto.
      - intros k Hk. apply filter_In. split; [auto|]. apply existsb_exists. exists k. split; auto. apply Nat.eqb_refl. }
    assert (S : forall f (l : list nat), (length (filter f l) + length (filter (fun k => negb (f k)) l) = length l)%nat).
    { clear. intros f. induction l as [|a l IH]; auto. cbn [filter]. destruct (f a); cbn [negb length]; lia. }
    specialize (S (fun k => existsb (Nat.eqb k) cold) l). cbn beta in S. lia. }
  rewrite P; auto; [rewrite where_length; auto|apply where_nodup].
Qed.

Lemma total_add : forall (mode : list nat) mask, length mode = length mask ->
  total (map (fun p : nat * bool => if snd p then S (fst p) else fst p) (combine mode mask)) = (total mode + count_true mask)%nat.
Proof.
  induction mode as [|c mode IH]; intros [|b mask] L; try discriminate; auto. injection L as L. cbn [combine map fst snd total fold_right].
  fold (total (map (fun p : nat * bool => if snd p then S (fst p) else fst p) (combine mode mask))). rewrite IH by auto. rewrite count_true_cons. fold (total mode). destruct b; lia.
Qed.

Lemma softmax_length : forall v, length (softmax v) = length v.
Proof. intros. unfold softmax. rewrite !map_length. auto. Qed.

Section Rounds.
Variable choice : nat -> list nat -> nat -> list nat.
Hypothesis HC : valid_choice choice.

Lemma round_inv : forall round u s n, length (m_mode s) = length (m_probs s) -> (total (m_mode s) + m_remaining s = n)%nat ->
  let s' := mode_round choice round u s in
  length (m_mode s') = length (m_mode s) /\ length (m_probs s') = length (m_mode s) /\ (total (m_mode s') + m_remaining s' = n)%nat.
Proof.
  intros round u s n L T. cbv zeta. unfold mode_round. cbn [m_mode m_probs m_remaining].
  set (probs := if forallb _ _ then softmax (m_probs s) else m_probs s).
  assert (LP : length probs = length (m_mode s)) by (unfold probs; destruct (forallb _ _); rewrite ?softmax_length; auto).
  set (mask := map (fun p => leb_R u p) probs). assert (LM : length mask = length (m_mode s)) by (unfold mask; rewrite map_length; auto).
  set (over := (count_true mask - m_remaining s)%nat).
  set (mask' := if Nat.ltb 0 over then clear_mask mask (choice round (where_true 0 mask) over) else mask).
  assert (LM' : length mask' = length (m_mode s)) by (unfold mask'; destruct (Nat.ltb 0 over); rewrite ?clear_length; auto).
  assert (C : (count_true mask' <= m_remaining s)%nat).
  { unfold mask'. destruct (Nat.ltb_spec 0 over) as [H|H].
    - destruct (HC round (where_true 0 mask) over) as (C1 & C2 & C3); [rewrite where_length; unfold over; lia|apply where_nodup|].
      rewrite clear_count by auto. rewrite C1. unfold over. lia.
    - unfold over in H. lia. }
  split; [rewrite map_length, combine_length; lia|]. split; [rewrite map_length, combine_length; lia|]. rewrite total_add by auto. lia.
Qed.

Lemma loop_total : forall fuel round u s n mode caller, length (m_mode s) = length (m_probs s) -> (total (m_mode s) + m_remaining s = n)%nat ->
  mode_loop choice fuel round u s = Returned mode caller -> length mode = length (m_mode s) /\ total mode = n.
Proof.
  induction fuel as [|fuel IH]; intros round u s n mode caller L T H; cbn [mode_loop] in H; destruct (Nat.ltb_spec 0 (m_remaining s)) as [R|R].
  - discriminate.
  - injection H as <- <-. split; auto. lia.
  - destruct (round_inv round u s n L T) as (L1 & L2 & T1). destruct (IH _ _ _ n _ _ (eq_trans L1 (eq_sym L2)) T1 H) as [E1 E2]. split; auto. lia.
  - injection H as <- <-. split; auto. lia.
Qed.

Lemma total_repeat : forall n, total (repeat 0%nat n) = 0%nat.
Proof. induction n as [|n IH]; auto. Qed.

Lemma total_onehot : forall K k start, (start <= k < start + K)%nat -> total (map (fun i => if Nat.eqb i k then 1%nat else 0%nat) (seq start K)) = 1%nat.
Proof.
  assert (Z : forall K k start, (k < start)%nat -> total (map (fun i => if Nat.eqb i k then 1%nat else 0%nat) (seq start K)) = 0%nat).
  { induction K as [|K IH]; intros k start H; auto. cbn [seq map total fold_right]. fold (total (map (fun i => if Nat.eqb i k then 1%nat else 0%nat) (seq (S start) K))).
    rewrite IH by lia. destruct (Nat.eqb_spec start k); lia. }
  induction K as [|K IH]; intros k start H; [lia|]. cbn [seq map total fold_right]. fold (total (map (fun i => if Nat.eqb i k then 1%nat else 0%nat) (seq (S start) K))).
  destruct (Nat.eqb_spec start k) as [->|N]; [rewrite Z by lia; lia|]. rewrite IH by lia. lia.
Qed.

Lemma argmax_from_spec : forall l best top i (all : list R), (forall j, (j < i)%nat -> nth j all 0 <= top) -> nth best all 0 = top -> (best < i)%nat ->
  (forall j, nth j l 0 = nth (i + j) all 0) -> length all = (i + length l)%nat ->
  (argmax_from best top i l < length all)%nat /\ forall j, (j < length all)%nat -> nth j all 0 <= nth (argmax_from best top i l) all 0.
Proof.
  induction l as [|x l IH]; intros best top i all Hb Ht Hi Hl L; cbn [argmax_from].
  - simpl in L. split; [lia|]. intros j Hj. rewrite Ht. apply Hb. lia.
  - cbn [length] in L. assert (X : nth i all 0 = x) by (specialize (Hl 0%nat); cbn in Hl; rewrite Nat.add_0_r in Hl; auto).
    assert (Hl' : forall j, nth j l 0 = nth (S i + j) all 0) by (intros j; specialize (Hl (S j)); cbn in Hl; rewrite Hl; f_equal; lia).
    unfold ltb_R. destruct (Rlt_dec top x) as [H|H]; (apply IH; [|auto|lia|auto|lia]).
    + intros j Hj. destruct (Nat.eq_dec j i) as [->|N]; [lra|]. specialize (Hb j ltac:(lia)). lra.
    + intros j Hj. destruct (Nat.eq_dec j i) as [->|N]; [lra|]. apply Hb. lia.
Qed.

Lemma argmax_spec : forall l, l <> [] -> (argmax l < length l)%nat /\ forall j, (j < length l)%nat -> nth j l 0 <= nth (argmax l) l 0.
Proof.
  intros [|x l] H; [congruence|]. cbn [argmax]. apply (argmax_from_spec l 0 x 1 (x :: l)); auto.
  intros j Hj. replace j with 0%nat by lia. simpl. lra.
Qed.

Lemma mode_total : forall fuel probs n mode caller, probs <> [] -> multinomial_mode choice fuel probs n = Returned mode caller ->
  length mode = length probs /\ total mode = n.
Proof.
  intros fuel probs n mode caller N H. unfold multinomial_mode in H. destruct (Nat.eqb_spec n 1) as [->|N1].
  - injection H as <- <-. split; [rewrite map_length, seq_length; auto|]. apply total_onehot. destruct (argmax_spec probs N). lia.
  - destruct (Nat.eqb_spec n 0) as [->|N0]; [discriminate|]. destruct (loop_total fuel 0 (1 / INR n) (mkmode probs probs true (repeat 0%nat (length probs)) n) n mode caller) as [L T]; auto; [cbn; apply repeat_length|cbn; rewrite total_repeat; auto|].
    cbn [m_mode] in L. rewrite repeat_length in L. auto.
Qed.

End Rounds.

(** ** One trial *)

Lemma weight_zero : forall probs c, total c = 0%nat -> weight probs c = 1.
Proof.
  induction probs as [|p probs IH]; intros [|c cs] H; auto. cbn [total fold_right] in H. fold (total cs) in H. cbn [weight]. replace c with 0%nat by lia.
  rewrite IH by lia. simpl. lra.
Qed.

Lemma weight_one : forall probs c, length c = length probs -> total c = 1%nat -> exists k, (k < length probs)%nat /\ weight probs c = nth k probs 0.
Proof.
  induction probs as [|p probs IH]; intros [|c cs] L T; try discriminate. injection L as L. cbn [total fold_right] in T. fold (total cs) in T. cbn [weight].
  destruct c as [|[|c]]; [| |lia].
  - destruct (IH cs L ltac:(lia)) as (k & Hk & E). exists (S k). split; [simpl; lia|]. rewrite E. simpl. lra.
  - exists 0%nat. split; [simpl; lia|]. rewrite weight_zero by lia. simpl. lra.
Qed.

Lemma weight_onehot : forall probs k start, (k < length probs)%nat ->
  weight probs (map (fun i => if Nat.eqb i (start + k) then 1%nat else 0%nat) (seq start (length probs))) = nth k probs 0.
Proof.
  induction probs as [|p probs IH]; intros k start H; [simpl in H; lia|]. cbn [length seq map weight]. destruct k as [|k].
  - rewrite Nat.add_0_r, Nat.eqb_refl. cbn [nth]. rewrite weight_zero; [simpl; lra|].
    assert (Z : forall K s, (start < s)%nat -> total (map (fun i => if Nat.eqb i start then 1%nat else 0%nat) (seq s K)) = 0%nat).
    { clear. induction K as [|K IH]; intros s H; auto. cbn [seq map total fold_right]. fold (total (map (fun i => if Nat.eqb i start then 1%nat else 0%nat) (seq (S s) K))).
      rewrite IH by lia. destruct (Nat.eqb_spec s start); lia. }
    apply Z. lia.
  - destruct (Nat.eqb_spec start (start + S k)); [lia|]. replace (start + S k)%nat with (S start + k)%nat by lia. rewrite IH by (simpl in H; lia). simpl. lra.
Qed.

Lemma mode_one : forall choice fuel probs, probs <> [] -> exists mode, multinomial_mode choice fuel probs 1 = Returned mode probs /\ is_mode 1 probs mode.
Proof.
  intros choice fuel probs N. unfold multinomial_mode. cbn [Nat.eqb]. eexists. split; [reflexivity|]. destruct (argmax_spec probs N) as [A1 A2].
  split; [rewrite map_length, seq_length; auto|]. split; [apply total_onehot; lia|].
  intros other L T. unfold multinomial_prob. destruct (weight_one probs other L T) as (k & Hk & E). rewrite E.
  pose proof (weight_onehot probs (argmax probs) 0 A1) as W. cbn [plus] in W. rewrite W. specialize (A2 k Hk). simpl. lra.
Qed.

(** ** Expected counts that are whole numbers *)

Lemma power_fact : forall c j, (c ^ j * fact c <= c ^ c * fact j)%nat.
Proof.
  intros c j. destruct (Nat.le_gt_cases j c) as [H|H].
  - assert (E : (c ^ c = c ^ j * c ^ (c - j))%nat) by (rewrite <- Nat.pow_add_r; f_equal; lia). rewrite E, <- Nat.mul_assoc. apply Nat.mul_le_mono_l.
    assert (G : forall d, (j + d <= c)%nat -> (fact (j + d) <= c ^ d * fact j)%nat).
    { clear. induction d as [|d IH]; intros Hd; [rewrite Nat.add_0_r; simpl; lia|]. rewrite Nat.add_succ_r. cbn [fact Nat.pow]. specialize (IH ltac:(lia)).
      change (fact (j + d) + (j + d) * fact (j + d))%nat with (S (j + d) * fact (j + d))%nat.
      rewrite <- Nat.mul_assoc. apply Nat.mul_le_mono; lia. }
    specialize (G (c - j)%nat ltac:(lia)). replace (j + (c - j))%nat with c in G by lia. auto.
  - remember (j - c)%nat as d eqn:Ed. replace j with (c + d)%nat by lia. clear Ed H. rewrite Nat.pow_add_r, <- Nat.mul_assoc. apply Nat.mul_le_mono_l.
    induction d as [|d IH]; [rewrite Nat.add_0_r; simpl; lia|]. rewrite Nat.add_succ_r. cbn [fact Nat.pow].
    change (fact (c + d) + (c + d) * fact (c + d))%nat with (S (c + d) * fact (c + d))%nat. rewrite <- Nat.mul_assoc. apply Nat.mul_le_mono; lia.
Qed.

Lemma factor_le : forall (n c j : nat), (0 < n)%nat -> (INR c / INR n) ^ j * INR n ^ j / INR (fact j) <= (INR c / INR n) ^ c * INR n ^ c / INR (fact c).
Proof.
  intros n c j Hn. assert (P : 0 < INR n) by (apply lt_0_INR; auto).
  assert (E : forall m, (INR c / INR n) ^ m * INR n ^ m = INR c ^ m).
  { intros m. rewrite <- Rpow_mult_distr. f_equal. field. lra. }
  rewrite !E. pose proof (INR_fact_lt_0 c) as Fc. pose proof (INR_fact_lt_0 j) as Fj.
  pose proof (power_fact c j) as Q. apply le_INR in Q. rewrite !mult_INR, !pow_INR in Q.
  apply Rmult_le_reg_r with (INR (fact j) * INR (fact c)); [apply Rmult_lt_0_compat; auto|].
  replace (INR c ^ j / INR (fact j) * (INR (fact j) * INR (fact c))) with (INR c ^ j * INR (fact c)) by (field; lra).
  replace (INR c ^ c / INR (fact c) * (INR (fact j) * INR (fact c))) with (INR c ^ c * INR (fact j)) by (field; lra). auto.
Qed.

Fixpoint scaled_weight (n : nat) (probs : list R) (counts : list nat) : R :=
  match probs, counts with
  | p :: probs', c :: counts' => p ^ c * INR n ^ c / INR (fact c) * scaled_weight n probs' counts'
  | _, _ => 1
  end.

Lemma weight_scaled : forall n probs counts, length counts = length probs -> scaled_weight n probs counts = INR n ^ total counts * weight probs counts.
Proof.
  intros n. induction probs as [|p probs IH]; intros [|c cs] L; try discriminate; [simpl; lra|]. injection L as L. cbn [scaled_weight weight total fold_right]. fold (total cs).
  rewrite IH by auto. rewrite pow_add. pose proof (INR_fact_neq_0 c). field. auto.
Qed.

Lemma scaled_le : forall n counts other, (0 < n)%nat -> length other = length counts ->
  0 <= scaled_weight n (map (fun c => INR c / INR n) counts) other <= scaled_weight n (map (fun c => INR c / INR n) counts) counts.
Proof.
  intros n counts. induction counts as [|c counts IH]; intros [|j other] Hn L; try discriminate; [simpl; lra|]. injection L as L. cbn [map scaled_weight].
  specialize (IH other Hn L). pose proof (factor_le n c j Hn) as Q. assert (P : 0 < INR n) by (apply lt_0_INR; auto).
  assert (0 <= (INR c / INR n) ^ j * INR n ^ j / INR (fact j)).
  { apply Rmult_le_pos; [|left; apply Rinv_0_lt_compat, INR_fact_lt_0]. apply Rmult_le_pos; apply pow_le; [|lra]. apply Rmult_le_pos; [apply pos_INR|left; apply Rinv_0_lt_compat; auto]. }
  split; [apply Rmult_le_pos; lra|apply Rmult_le_compat; lra].
Qed.

Lemma exact_mode : forall n counts, (0 < n)%nat -> total counts = n -> is_mode n (map (fun c => INR c / INR n) counts) counts.
Proof.
  intros n counts Hn T. split; [rewrite map_length; auto|]. split; auto. intros other L T'. rewrite map_length in L. unfold multinomial_prob.
  apply Rmult_le_compat_l; [left; apply INR_fact_lt_0|]. destruct (scaled_le n counts other Hn L) as [_ Q].
  rewrite !weight_scaled in Q by (rewrite map_length; auto). rewrite T, T' in Q. apply Rmult_le_reg_l in Q; auto. apply pow_lt, lt_0_INR. auto.
Qed.

Lemma count_le_total : forall d, (count_true (map (Nat.leb 1) d) <= total d)%nat.
Proof. induction d as [|x d IH]; auto. cbn [map total fold_right]. rewrite count_true_cons. fold (total d). destruct x as [|x]; [change (Nat.leb 1 0) with false|change (Nat.leb 1 (S x)) with true]; cbv iota; lia. Qed.

Lemma exact_round : forall choice round n d mode caller, (1 < n)%nat -> (0 < total d)%nat -> length mode = length d ->
  mode_round choice round (1 / INR n) (mkmode caller (map (fun c => INR c / INR n) d) true mode (total d)) =
  mkmode (map (fun c => INR c / INR n) (map pred d)) (map (fun c => INR c / INR n) (map pred d)) true
    (map (fun p : nat * nat => if Nat.leb 1 (snd p) then S (fst p) else fst p) (combine mode d)) (total (map pred d)).
Proof.
  intros choice round n d mode caller Hn Hd L. assert (P : 0 < INR n) by (apply lt_0_INR; lia). unfold mode_round. cbn [m_probs m_mode m_remaining m_alias m_caller].
  assert (Cmp : forall c : nat, leb_R (1 / INR n) (INR c / INR n) = Nat.leb 1 c).
  { intros c. unfold leb_R. destruct (Rle_dec (1 / INR n) (INR c / INR n)) as [H|H]; destruct (Nat.leb_spec 1 c) as [C|C]; auto; exfalso.
    - replace c with 0%nat in H by lia. simpl in H. unfold Rdiv in H. rewrite Rmult_0_l in H. pose proof (Rinv_0_lt_compat _ P). lra.
    - apply H. unfold Rdiv. apply Rmult_le_compat_r; [left; apply Rinv_0_lt_compat; auto|]. apply (le_INR 1 c C). }
  assert (Soft : forallb (fun p => ltb_R p (1 / INR n)) (map (fun c => INR c / INR n) d) = false).
  { destruct (forallb _ _) eqn:E; auto. exfalso. rewrite forallb_forall in E.
    assert (Z : forall x, In x d -> x = 0%nat).
    { intros x Hx. specialize (E (INR x / INR n) ltac:(apply in_map_iff; eauto)). specialize (Cmp x). unfold ltb_R, leb_R in *.
      destruct (Rlt_dec (INR x / INR n) (1 / INR n)); [|discriminate]. destruct (Rle_dec (1 / INR n) (INR x / INR n)); [lra|]. destruct x; auto. discriminate. }
    assert (total d = 0%nat); [|lia]. clear - Z. induction d as [|x d IH]; auto. cbn [total fold_right]. fold (total d). rewrite IH by (intros; apply Z; right; auto). rewrite (Z x) by (left; auto). auto. }
  rewrite Soft, map_map. rewrite (map_ext _ (Nat.leb 1)) by auto. pose proof (count_le_total d) as CT.
  replace (Nat.ltb 0 (count_true (map (Nat.leb 1) d) - total d)) with false by (symmetry; apply Nat.ltb_ge; lia).
  assert (E1 : map (fun p : R * bool => if snd p then fst p - 1 / INR n else fst p) (combine (map (fun c => INR c / INR n) d) (map (Nat.leb 1) d)) = map (fun c => INR c / INR n) (map pred d)).
  { clear - P. induction d as [|x d IH]; auto. cbn [map combine fst snd]. f_equal; auto. destruct x; cbn [Nat.leb pred]; [auto|]. rewrite S_INR. field. lra. }
  assert (E2 : map (fun p : nat * bool => if snd p then S (fst p) else fst p) (combine mode (map (Nat.leb 1) d)) = map (fun p : nat * nat => if Nat.leb 1 (snd p) then S (fst p) else fst p) (combine mode d)).
  { clear - L. revert mode L. induction d as [|x d IH]; intros [|m mode] L; try discriminate; auto. injection L as L. cbn [map combine fst snd]. f_equal; auto. }
  rewrite E1, E2. f_equal. clear. induction d as [|x d IH]; auto. cbn [map total fold_right]. rewrite count_true_cons. fold (total d) (total (map pred d)). pose proof (count_le_total d). destruct x as [|x]; [change (Nat.leb 1 0) with false|change (Nat.leb 1 (S x)) with true]; cbv iota; cbn [pred]; lia.
Qed.

Lemma total_pred : forall d, (total (map pred d) <= total d /\ (0 < total d -> total (map pred d) < total d))%nat.
Proof.
  induction d as [|x d [IH1 IH2]]; [simpl; lia|]. cbn [map total fold_right]. fold (total d) (total (map pred d)). destruct x; cbn [pred]; lia.
Qed.

Lemma exact_loop : forall choice n, (1 < n)%nat -> forall fuel round d mode caller, (total d <= fuel)%nat -> length mode = length d ->
  (total d = 0%nat -> caller = map (fun c => INR c / INR n) d) ->
  mode_loop choice fuel round (1 / INR n) (mkmode caller (map (fun c => INR c / INR n) d) true mode (total d)) =
  Returned (map (fun p : nat * nat => (fst p + snd p)%nat) (combine mode d)) (repeat 0 (length d)).
Proof.
  intros choice n Hn. assert (P : 0 < INR n) by (apply lt_0_INR; lia).
  assert (Z : forall d mode caller, total d = 0%nat -> length mode = length d -> (total d = 0%nat -> caller = map (fun c => INR c / INR n) d) ->
    Returned mode caller = Returned (map (fun p : nat * nat => (fst p + snd p)%nat) (combine mode d)) (repeat 0 (length d))).
  { intros d mode caller T L C. rewrite (C T). clear C. f_equal.
    - revert mode L. induction d as [|x d IH]; intros [|m mode] L; try discriminate; auto. cbn [total fold_right] in T. fold (total d) in T. injection L as L. cbn [combine map fst snd]. rewrite <- (IH ltac:(lia) mode) by auto. f_equal. lia.
    - clear L. induction d as [|x d IH]; auto. cbn [total fold_right] in T. fold (total d) in T. cbn [map length repeat]. rewrite IH by lia. f_equal. replace x with 0%nat by lia. simpl. field. lra. }
  induction fuel as [|fuel IH]; intros round d mode caller F L C; cbn [mode_loop m_remaining m_mode m_caller].
  - destruct (Nat.ltb_spec 0 (total d)); [lia|]. apply Z; auto; lia.
  - destruct (Nat.ltb_spec 0 (total d)) as [H|H]; [|apply Z; auto; lia]. rewrite exact_round by auto. rewrite IH.
    + f_equal; [|rewrite map_length; auto]. clear - L. revert mode L. induction d as [|x d IH]; intros [|m mode] L; try discriminate; auto. injection L as L. cbn [combine map fst snd]. rewrite IH by auto.
      f_equal. destruct x; cbn [Nat.leb pred]; lia.
    + destruct (total_pred d). lia.
    + rewrite !map_length, combine_length. lia.
    + auto.
Qed.

(** Whole expected counts are returned, and are the mode; the caller's array ends as zeros. *)
Lemma mode_exact : forall choice fuel counts n, (1 < n <= fuel)%nat -> total counts = n ->
  multinomial_mode choice fuel (map (fun c => INR c / INR n) counts) n = Returned counts (repeat 0 (length counts)) /\
  is_mode n (map (fun c => INR c / INR n) counts) counts.
Proof.
  intros choice fuel counts n Hn T. split; [|apply exact_mode; auto; lia]. unfold multinomial_mode. destruct (Nat.eqb_spec n 1); [lia|]. destruct (Nat.eqb_spec n 0); [lia|].
  rewrite map_length. replace (mkmode _ _ true (repeat 0%nat (length counts)) n) with (mkmode (map (fun c => INR c / INR n) counts) (map (fun c => INR c / INR n) counts) true (repeat 0%nat (length counts)) (total counts)) by (rewrite T; auto).
  rewrite exact_loop; [|lia|lia|apply repeat_length|auto].
  f_equal. clear. induction counts as [|c counts IH]; auto. cbn [length repeat combine map fst snd]. rewrite IH. auto.
Qed.

(** ** Uniform probabilities with more classes than trials *)

Lemma sum_repeat : forall (c : R) n, sumR (repeat c n) = INR n * c.
Proof. intros c n. induction n as [|n IH]; [simpl; lra|]. rewrite S_INR. cbn [repeat sumR]. rewrite IH. lra. Qed.

Lemma map_repeat_R : forall {A B} (f : A -> B) a n, map f (repeat a n) = repeat (f a) n.
Proof. intros A B f a n. induction n as [|n IH]; auto. cbn [repeat map]. rewrite IH. auto. Qed.

Lemma softmax_uniform : forall c K, softmax (repeat c K) = repeat (1 / INR K) K.
Proof.
  intros c K. unfold softmax. rewrite map_repeat_R, sum_repeat, map_repeat_R. destruct K as [|K]; auto. f_equal. pose proof (exp_pos c). assert (0 < INR (S K)) by (apply lt_0_INR; lia). field. lra.
Qed.

Lemma uniform_round : forall choice round n K c s, (1 < n < K)%nat -> c < 1 / INR n -> m_probs s = repeat c K -> length (m_mode s) = K ->
  let s' := mode_round choice round (1 / INR n) s in
  m_probs s' = repeat (1 / INR K) K /\ m_mode s' = m_mode s /\ m_remaining s' = m_remaining s.
Proof.
  intros choice round n K c s Hn Hc Hp Hm. cbv zeta. unfold mode_round. rewrite Hp.
  assert (Soft : forallb (fun p => ltb_R p (1 / INR n)) (repeat c K) = true).
  { apply forallb_forall. intros x Hx. apply repeat_spec in Hx. subst. unfold ltb_R. destruct (Rlt_dec c (1 / INR n)); auto. }
  rewrite Soft, softmax_uniform. cbn [m_probs m_mode m_remaining].
  assert (Mask : map (fun p => leb_R (1 / INR n) p) (repeat (1 / INR K) K) = repeat false K).
  { rewrite map_repeat_R. f_equal. unfold leb_R. destruct (Rle_dec (1 / INR n) (1 / INR K)) as [H|H]; auto. exfalso.
    assert (INR n < INR K) by (apply lt_INR; lia). assert (0 < INR n) by (apply lt_0_INR; lia).
    assert (1 / INR K < 1 / INR n) by (unfold Rdiv; rewrite !Rmult_1_l; apply Rinv_lt_contravar; auto; apply Rmult_lt_0_compat; lra). lra. }
  rewrite Mask. assert (C : count_true (repeat false K) = 0%nat) by (clear; induction K as [|K IH]; auto).
  rewrite C. cbn [Nat.sub]. replace (Nat.ltb 0 0) with false by auto. rewrite C, Nat.sub_0_r. split; [|split; auto].
  - clear. generalize (1 / INR K). intros r. induction K as [|K IH]; auto. cbn [repeat combine map fst snd]. rewrite IH. auto.
  - rewrite <- Hm. clear. generalize (m_mode s). intros l. induction l as [|x l IH]; auto. cbn [length repeat combine map fst snd]. rewrite IH. auto.
Qed.

Lemma uniform_loop : forall choice n K fuel round c s, (1 < n < K)%nat -> c < 1 / INR n -> m_probs s = repeat c K -> length (m_mode s) = K -> (0 < m_remaining s)%nat ->
  mode_loop choice fuel round (1 / INR n) s = OutOfFuel.
Proof.
  intros choice n K. induction fuel as [|fuel IH]; intros round c s Hn Hc Hp Hm Hr; cbn [mode_loop]; destruct (Nat.ltb_spec 0 (m_remaining s)); try lia; auto.
  destruct (uniform_round choice round n K c s Hn Hc Hp Hm) as (E1 & E2 & E3). apply (IH _ (1 / INR K)); auto; [|rewrite E2; auto|lia].
  assert (INR n < INR K) by (apply lt_INR; lia). assert (0 < INR n) by (apply lt_0_INR; lia).
  unfold Rdiv; rewrite !Rmult_1_l; apply Rinv_lt_contravar; auto; apply Rmult_lt_0_compat; lra.
Qed.

Lemma mode_diverges : forall choice n K fuel, (1 < n < K)%nat -> multinomial_mode choice fuel (repeat (1 / INR K) K) n = OutOfFuel.
Proof.
  intros choice n K fuel H. unfold multinomial_mode. destruct (Nat.eqb_spec n 1); [lia|]. destruct (Nat.eqb_spec n 0); [lia|].
  apply (uniform_loop choice n K fuel 0 (1 / INR K)); auto; [| |cbn; lia].
  - assert (INR n < INR K) by (apply lt_INR; lia). assert (0 < INR n) by (apply lt_0_INR; lia).
    unfold Rdiv; rewrite !Rmult_1_l; apply Rinv_lt_contravar; auto; apply Rmult_lt_0_compat; lra.
  - cbn [m_mode]. rewrite !repeat_length. auto.
Qed.

(** ** Not a mode *)

Lemma wrong_rounds : forall choice, exists caller probs alias,
  mode_round choice 0 (/ 2) (mkmode [7 / 10; 3 / 10] [7 / 10; 3 / 10] true [0; 0]%nat 2) = mkmode [7 / 10 - / 2; 3 / 10] [7 / 10 - / 2; 3 / 10] true [1; 0]%nat 1 /\
  mode_round choice 1 (/ 2) (mkmode [7 / 10 - / 2; 3 / 10] [7 / 10 - / 2; 3 / 10] true [1; 0]%nat 1) = mkmode caller probs alias [1; 1]%nat 0.
Proof.
  intros choice. eexists. eexists. eexists. split.
  - unfold mode_round. cbn [m_probs m_mode m_remaining m_alias m_caller forallb andb map].
    assert (L1 : ltb_R (7 / 10) (/ 2) = false) by (unfold ltb_R; destruct (Rlt_dec (7 / 10) (/ 2)); auto; lra).
    assert (L2 : leb_R (/ 2) (7 / 10) = true) by (unfold leb_R; destruct (Rle_dec (/ 2) (7 / 10)); auto; lra).
    assert (L3 : leb_R (/ 2) (3 / 10) = false) by (unfold leb_R; destruct (Rle_dec (/ 2) (3 / 10)); auto; lra).
    rewrite L1. cbn [andb map]. rewrite L2, L3. reflexivity.
  - unfold mode_round. cbn [m_probs m_mode m_remaining m_alias m_caller forallb andb map].
    assert (L1 : ltb_R (7 / 10 - / 2) (/ 2) = true) by (unfold ltb_R; destruct (Rlt_dec (7 / 10 - / 2) (/ 2)); auto; lra).
    assert (L2 : ltb_R (3 / 10) (/ 2) = true) by (unfold ltb_R; destruct (Rlt_dec (3 / 10) (/ 2)); auto; lra).
    rewrite L1, L2. cbn [andb]. unfold softmax. cbn [map sumR].
    assert (I : exp (7 / 10 - / 2) < exp (3 / 10)) by (apply exp_increasing; lra). pose proof (exp_pos (7 / 10 - / 2)) as P.
    assert (L3 : forall a b, 0 < a -> a < b -> leb_R (/ 2) (a / (a + (b + 0))) = false).
    { intros a b Pa Iab. unfold leb_R. destruct (Rle_dec (/ 2) (a / (a + (b + 0)))) as [H|]; auto. exfalso. apply (Rmult_le_compat_r (a + (b + 0))) in H; [|lra]. unfold Rdiv in H. rewrite Rmult_assoc, Rinv_l in H; lra. }
    assert (L4 : forall a b, 0 < a -> a < b -> leb_R (/ 2) (b / (a + (b + 0))) = true).
    { intros a b Pa Iab. unfold leb_R. destruct (Rle_dec (/ 2) (b / (a + (b + 0)))) as [|H]; auto. exfalso. apply H. apply Rmult_le_reg_r with (a + (b + 0)); [lra|]. unfold Rdiv. rewrite Rmult_assoc, Rinv_l; lra. }
    rewrite (L3 _ _ P I), (L4 _ _ P I). reflexivity.
Qed.

Lemma wrong_mode : forall choice fuel, (2 <= fuel)%nat -> exists mode caller,
  multinomial_mode choice fuel [7 / 10; 3 / 10] 2 = Returned mode caller /\ ~ is_mode 2 [7 / 10; 3 / 10] mode.
Proof.
  intros choice fuel H. destruct fuel as [|[|fuel]]; [lia|lia|]. destruct (wrong_rounds choice) as (caller & probs & alias & R1 & R2). exists [1; 1]%nat, caller. split.
  - unfold multinomial_mode. cbn [Nat.eqb length repeat]. replace (1 / INR 2) with (/ 2) by (simpl; lra).
    cbn [mode_loop]. cbn [m_remaining Nat.ltb Nat.leb]. rewrite R1. cbn [m_remaining Nat.ltb Nat.leb]. rewrite R2. destruct fuel; reflexivity.
  - intros (_ & _ & M). specialize (M [2; 0]%nat eq_refl eq_refl). unfold multinomial_prob in M. simpl in M. lra.
Qed.

Lemma mode_corrupts : forall choice fuel, (2 <= fuel)%nat -> multinomial_mode choice fuel [1 / 2; 1 / 2] 2 = Returned [1; 1]%nat [0; 0].
Proof.
  intros choice fuel H. destruct (mode_exact choice fuel [1; 1]%nat 2 ltac:(lia) eq_refl) as [E _]. cbn [map length repeat] in E.
  replace (INR 1 / INR 2) with (1 / 2) in E by (simpl; lra). exact E.
Qed.
