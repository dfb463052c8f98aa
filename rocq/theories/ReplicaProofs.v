(** * Proofs for C28: exchange and tempered moves. *)
From Coquelicot Require Import Coquelicot.
From Coq Require Import Reals List Arith Bool Lia Lra Permutation.
From Verif Require Import Ext Feed MonteCarlo MonteCarloSpec MonteCarloProofs MH MHSpec ExtProofs MHProofs Replica ReplicaSpec.
Import ListNotations.
Local Open Scope nat_scope.

(** ** The loop *)
Lemma swap_length : forall {A} D (l : list A), length (swap_pairs D l) = length l.
Proof.
  intros A. induction D as [|d D IH]; intros l; [reflexivity|]. destruct l as [|a [|b l]]; auto.
  simpl. rewrite app_length, IH. destruct d; simpl; lia.
Qed.

Lemma swap_perm : forall {A} D (l : list A), Permutation (swap_pairs D l) l.
Proof.
  intros A. induction D as [|d D IH]; intros l; [reflexivity|]. destruct l as [|a [|b l]]; auto.
  simpl. destruct d; simpl.
  - rewrite (IH l). apply perm_swap.
  - rewrite (IH l). auto.
Qed.

Lemma swap_invol : forall {A} D (l : list A), swap_pairs D (swap_pairs D l) = l.
Proof.
  intros A. induction D as [|d D IH]; intros l; [reflexivity|]. destruct l as [|a [|b l]]; auto.
  destruct d; cbn [swap_pairs app]; rewrite IH; auto.
Qed.

Lemma exchanged_perm : forall {A} i D (l : list A), Permutation (exchanged i D l) l.
Proof. intros. unfold exchanged. rewrite swap_perm, firstn_skipn. auto. Qed.

Lemma exchanged_length : forall {A} i D (l : list A), length (exchanged i D l) = length l.
Proof. intros. apply Permutation_length, exchanged_perm. Qed.

Lemma exchanged_invol : forall {A} i D (l : list A), exchanged i D (exchanged i D l) = l.
Proof.
  intros A i D l. unfold exchanged. destruct (Nat.le_gt_cases i (length l)) as [H|H].
  - rewrite firstn_app, skipn_app, firstn_firstn, firstn_length. replace (i - Nat.min i (length l)) with 0 by lia.
    rewrite Nat.min_id. cbn [firstn skipn]. rewrite app_nil_r. rewrite (skipn_all2 (firstn i l)) by (rewrite firstn_length; lia).
    simpl. rewrite swap_invol. apply firstn_skipn.
  - rewrite (firstn_all2 l), (skipn_all2 l) by lia. assert (E : swap_pairs D (@nil A) = []) by (destruct D; auto).
    rewrite E, app_nil_r, (firstn_all2 l), (skipn_all2 l) by lia. rewrite E. apply app_nil_r.
Qed.

Lemma map_swap : forall {A B} (f : A -> B) D l, map f (swap_pairs D l) = swap_pairs D (map f l).
Proof.
  intros A B f. induction D as [|d D IH]; intros l; [reflexivity|]. destruct l as [|a [|b l]]; auto.
  simpl. rewrite map_app, IH. destruct d; auto.
Qed.

Section Exchange.
Variable bs : list R.
Variable ratios : list ext.
Variable us : nat -> R.

(** The decisions from pair [i] on. *)
Fixpoint decisions (m i : nat) : list bool :=
  match m with O => [] | S m' => exchange_test bs ratios i (us i) :: decisions m' (i + 2) end.

Lemma decisions_nth : forall m i j, j < m -> nth j (decisions m i) false = exchange_test bs ratios (i + 2 * j) (us (i + 2 * j)).
Proof.
  induction m as [|m IH]; intros i j Hj; [lia|]. destruct j as [|j]; simpl.
  - rewrite Nat.add_0_r. auto.
  - rewrite IH by lia. replace (i + 2 + 2 * j) with (i + S (j + S (j + 0))) by lia. auto.
Qed.
Lemma decisions_length : forall m i, length (decisions m i) = m.
Proof. induction m; intros; simpl; auto. Qed.

Lemma loop_spec : forall fuel i P, length P = i -> i <= length bs -> length bs - i <= 2 * fuel ->
  exchange_loop bs fuel ratios us i (P ++ seq i (length bs - i)) =
  P ++ swap_pairs (decisions ((length bs - i) / 2) i) (seq i (length bs - i)).
Proof.
  induction fuel as [|fuel IH]; intros i P HP Hi Hf.
  - simpl. replace (length bs - i) with 0 by lia. simpl. auto.
  - cbn [exchange_loop]. destruct (Nat.ltb_spec i (length bs - 1)) as [H|H].
    + replace (length bs - i) with (S (S (length bs - (i + 2)))) by lia. cbn [seq].
      assert (Hd : S (S (length bs - (i + 2))) / 2 = S ((length bs - (i + 2)) / 2)).
      { replace (S (S (length bs - (i + 2)))) with (1 * 2 + (length bs - (i + 2))) by lia. rewrite Nat.div_add_l by lia. lia. }
      rewrite Hd. cbn [decisions swap_pairs]. replace (S (S i)) with (i + 2) by lia. replace (S i) with (i + 1) by lia.
      destruct (exchange_test bs ratios i (us i)).
      * unfold scatter_pair. rewrite firstn_app, skipn_app, HP, Nat.sub_diag. cbn [firstn].
        replace (i + 2 - i) with 2 by lia. cbn [skipn]. rewrite (skipn_all2 P) by lia. rewrite firstn_all2 by lia.
        rewrite app_nil_r. cbn [app].
        replace (P ++ i + 1 :: i :: seq (i + 2) (length bs - (i + 2))) with ((P ++ [i + 1; i]) ++ seq (i + 2) (length bs - (i + 2)))
          by (rewrite <- app_assoc; auto).
        rewrite IH; [rewrite <- app_assoc; auto|rewrite app_length; simpl; lia|lia|lia].
      * replace (P ++ i :: i + 1 :: seq (i + 2) (length bs - (i + 2))) with ((P ++ [i; i + 1]) ++ seq (i + 2) (length bs - (i + 2)))
          by (rewrite <- app_assoc; auto).
        rewrite IH; [rewrite <- app_assoc; auto|rewrite app_length; simpl; lia|lia|lia].
    + destruct (length bs - i) as [|[|k]] eqn:E; try lia; simpl; auto.
Qed.

Lemma map_nth_seq : forall {A} (l : list A) d k i, i + k = length l -> map (fun j => nth j l d) (seq i k) = skipn i l.
Proof.
  intros A l d. induction k as [|k IH]; intros i H; simpl.
  - rewrite skipn_all2 by lia. auto.
  - rewrite IH by lia. clear IH. revert i H. induction l as [|a l IHl]; intros i H; simpl in H; [lia|].
    destruct i as [|i]; simpl; auto. apply IHl. lia.
Qed.

Lemma exchange_reorder : forall {V} (samples : list (list V)) i, length samples = length bs -> i <= length bs ->
  reorder samples (exchange_loop bs (length bs) ratios us i (seq 0 (length bs))) =
  exchanged i (decisions ((length bs - i) / 2) i) samples.
Proof.
  intros V samples i Hl Hi. replace (seq 0 (length bs)) with (seq 0 i ++ seq i (length bs - i)).
  - rewrite loop_spec; [|apply seq_length|auto|lia]. unfold reorder, exchanged. rewrite map_app, map_swap.
    f_equal.
    + transitivity (firstn i (map (fun j => nth j samples (nth 0 samples [])) (seq 0 (length samples)))).
      * rewrite firstn_map. f_equal. rewrite Hl. clear - Hi. revert Hi. generalize (length bs), 0.
        induction i as [|i IH]; intros n s H; simpl; auto. destruct n as [|n]; [lia|]. simpl. f_equal. apply IH. lia.
      * rewrite map_nth_seq by lia. auto.
    + f_equal. apply map_nth_seq. lia.
  - replace (length bs) with (i + (length bs - i)) at 2 by lia. rewrite seq_app. auto.
Qed.
End Exchange.

Lemma reorder_id : forall {V} (samples : list (list V)), reorder samples (seq 0 (length samples)) = samples.
Proof. intros. unfold reorder. rewrite map_nth_seq by lia. auto. Qed.

(** The new order of the replicas. *)
Lemma new_order : forall {V} bs freq ratios (d : replica_draws V) (samples : list (list V)),
  length samples = length bs -> r_first d <= length bs ->
  exists D, reorder samples (new_replica_idx bs freq ratios d) = exchanged (r_first d) D samples /\
    ((freq <= r_u d)%R -> D = []) /\
    ((r_u d < freq)%R -> length D = (length bs - r_first d) / 2 /\
      forall j, j < length D -> nth j D false = exchange_test bs ratios (r_first d + 2 * j) (r_us d (r_first d + 2 * j))).
Proof.
  intros V bs freq ratios d samples Hl Hf. unfold new_replica_idx. destruct (Rlt_dec (r_u d) freq) as [H|H].
  - exists (decisions bs ratios (r_us d) ((length bs - r_first d) / 2) (r_first d)). split; [apply exchange_reorder; auto|].
    split; [intros; lra|]. intros _. rewrite decisions_length. split; auto. intros j Hj. apply decisions_nth; auto.
  - exists []. rewrite <- Hl, reorder_id. split; [|split; [auto|intros; lra]].
    unfold exchanged. simpl. symmetry. apply firstn_skipn.
Qed.

(** ** The balance of the exchange *)
Local Open Scope R_scope.

Definition prob_of (s : ext) : R := match s with Fin r => Rmin 1 (exp r) | PInf => 1 | _ => 0 end.

Lemma prob_of_range : forall s, 0 <= prob_of s <= 1.
Proof.
  intros [r| | |]; simpl; try lra. split; [|apply Rmin_l]. apply Rmin_glb; [lra|left; apply exp_pos].
Qed.

Lemma prob_of_spec : forall s u, 0 < u < 1 -> eltb (elog (Fin u)) s = true <-> u < prob_of s.
Proof.
  intros s u Hu. destruct s as [r| | |].
  - assert (H : ratio_of (exp r) 1 (Fin r)).
    { pose proof (exp_pos r). unfold ratio_of. repeat split; try lra. intros _ _. exists r. split; auto. lra. }
    rewrite (accept_iff _ _ _ u H Hu). unfold accept_prob. destruct (Req_EM_T 1 0); [lra|]. simpl. unfold Rdiv.
    rewrite Rinv_1, Rmult_1_r. reflexivity.
  - simpl. destruct (Rlt_dec 0 u); [|lra]. simpl. split; auto; lra.
  - simpl. destruct (Rlt_dec 0 u); [|lra]. simpl. split; [discriminate|lra].
  - simpl. destruct (Rlt_dec 0 u); [|lra]. simpl. split; [discriminate|lra].
Qed.

Definition test_ratio (bs : list R) (ratios : list ext) (i : nat) : ext :=
  emul (esub (nth i ratios NaN) (nth (i + 1) ratios NaN)) (Fin (nth (i + 1) bs 0 - nth i bs 0)).

Lemma exchange_prob : forall bs ratios i, exchange_probability bs ratios i (prob_of (test_ratio bs ratios i)).
Proof.
  intros bs ratios i. pose proof (prob_of_range (test_ratio bs ratios i)) as H.
  exists (fun u => if Rlt_dec u (prob_of (test_ratio bs ratios i)) then 1 else 0). split; [apply indicator_RInt; auto|].
  intros u Hu. unfold exchange_test. fold (test_ratio bs ratios i). pose proof (prob_of_spec (test_ratio bs ratios i) u Hu) as E.
  destruct (eltb _ _); destruct (Rlt_dec _ _); auto; exfalso; [apply n, E|assert (false = true) by (apply E; auto)]; auto; discriminate.
Qed.

Lemma tempered_exp : forall r b, tempered (exp r) b = exp (r * b).
Proof.
  intros r b. unfold tempered. pose proof (exp_pos r). destruct (Req_EM_T (exp r) 0); [lra|].
  unfold Rpower. rewrite ln_exp. f_equal. lra.
Qed.
Lemma tempered_0 : forall b, tempered 0 b = 0.
Proof. intros. unfold tempered. destruct (Req_EM_T 0 0); [auto|lra]. Qed.

Lemma pair_balance : forall l l' b b', is_log_density l -> is_log_density l' ->
  tempered (density l) b * tempered (density l') b' * prob_of (emul (esub l l') (Fin (b' - b))) =
  tempered (density l') b * tempered (density l) b' * prob_of (emul (esub l' l) (Fin (b' - b))).
Proof.
  intros l l' b b' [->|(r & ->)] [->|(r' & ->)]; cbn [density]; rewrite ?tempered_0; try ring.
  rewrite !tempered_exp. unfold esub. simpl emul. simpl prob_of.
  set (w := (r + - r') * (b' - b)). replace ((r' + - r) * (b' - b)) with (- w) by (unfold w; ring).
  rewrite <- !exp_plus. replace (r' * b + r * b') with (w + (r * b + r' * b')) by (unfold w; ring).
  rewrite (exp_plus w). pose proof (accept_balance (exp w) 1 ltac:(left; apply exp_pos) ltac:(lra)) as E.
  unfold accept_prob in E. destruct (Req_EM_T 1 0); [lra|]. pose proof (exp_pos w). destruct (Req_EM_T (exp w) 0); [lra|].
  unfold Rdiv in E. rewrite Rinv_1, Rmult_1_r, !Rmult_1_l in E. rewrite <- exp_Ropp in E. rewrite E. ring.
Qed.

Lemma decision_cons : forall q d D, decision_probability q (d :: D) = (if d then q 0%nat else 1 - q 0%nat) * decision_probability (fun j => q (S j)) D.
Proof.
  intros q d D. unfold decision_probability. cbn [length seq combine map product fold_right fst snd]. f_equal.
  rewrite <- seq_shift.
  assert (E : forall (f : nat * bool -> R) (s : list nat) D', product (map f (combine (map S s) D')) = product (map (fun jd => f (S (fst jd), snd jd)) (combine s D'))).
  { intros f. induction s as [|a s IH]; intros [|d' D']; simpl; auto. f_equal. apply IH. }
  rewrite (E (fun jd => if snd jd then q (fst jd) else 1 - q (fst jd))). reflexivity.
Qed.

Lemma decision_ext : forall q q' D, (forall j, q j = q' j) -> decision_probability q D = decision_probability q' D.
Proof. intros q q' D H. unfold decision_probability. f_equal. apply map_ext. intros. rewrite H. auto. Qed.

Section Balance.
Context {S : Type}.
Variable L : S -> ext.
Hypothesis HL : forall z, is_log_density (L z).
Notation p := (fun z => density (L z)).
Notation q bs zs i := (fun j : nat => prob_of (test_ratio bs (map L zs) (i + 2 * j))).

Lemma swap_balance : forall D bs zs, length zs = length bs -> (2 * length D <= length bs)%nat ->
  ladder_density p bs zs * decision_probability (q bs zs 0) D =
  ladder_density p bs (swap_pairs D zs) * decision_probability (q bs (swap_pairs D zs) 0) D.
Proof.
  induction D as [|d D IH]; intros bs zs Hl HD; [auto|].
  destruct bs as [|b [|b' bs]]; simpl in HD; try lia. destruct zs as [|z [|z' zs]]; simpl in Hl; try lia.
  specialize (IH bs zs ltac:(lia) ltac:(lia)).
  assert (Hq : forall a c ws j, prob_of (test_ratio (b :: b' :: bs) (map L (a :: c :: ws)) (0 + 2 * Datatypes.S j)) =
     prob_of (test_ratio bs (map L ws) (0 + 2 * j))).
  { intros a c ws j. unfold test_ratio. replace (0 + 2 * Datatypes.S j)%nat with (Datatypes.S (Datatypes.S (0 + 2 * j))) by lia. reflexivity. }
  assert (Hq0 : forall a c ws, prob_of (test_ratio (b :: b' :: bs) (map L (a :: c :: ws)) (0 + 2 * 0)) =
     prob_of (emul (esub (L a) (L c)) (Fin (b' - b)))) by (intros; reflexivity).
  rewrite !decision_cons. cbn [swap_pairs]. 
  assert (Hlad : forall a c ws, ladder_density p (b :: b' :: bs) (a :: c :: ws) =
     tempered (p a) b * tempered (p c) b' * ladder_density p bs ws).
  { intros. unfold ladder_density. simpl. ring. }
  pose proof (pair_balance (L z) (L z') b b' (HL z) (HL z')) as PB.
  destruct d; cbn [app]; rewrite !Hlad; rewrite !Hq0;
    rewrite (decision_ext _ (q bs zs 0)) by (intros; apply Hq);
    rewrite (decision_ext (fun j => prob_of (test_ratio _ (map L (_ :: _ :: swap_pairs D zs)) _)) (q bs (swap_pairs D zs) 0)) by (intros; apply Hq).
  - set (Q1 := decision_probability _ D) in *. set (Q2 := decision_probability _ D) in *.
    transitivity ((tempered (p z) b * tempered (p z') b' * prob_of (emul (esub (L z) (L z')) (Fin (b' - b)))) * (ladder_density p bs zs * Q1));
      [ring|]. rewrite PB, IH. ring.
  - set (Q1 := decision_probability _ D) in *. set (Q2 := decision_probability _ D) in *.
    transitivity ((tempered (p z) b * tempered (p z') b' * (1 - prob_of (emul (esub (L z) (L z')) (Fin (b' - b))))) * (ladder_density p bs zs * Q1));
      [ring|]. rewrite IH. ring.
Qed.

Lemma exchange_balance : forall bs zs i D, length zs = length bs -> (i <= 1)%nat -> (i + 2 * length D <= length bs)%nat ->
  exists q q' : nat -> R,
    (forall j, exchange_probability bs (map L zs) (i + 2 * j) (q j)) /\
    (forall j, exchange_probability bs (map L (exchanged i D zs)) (i + 2 * j) (q' j)) /\
    ladder_density p bs zs * decision_probability q D =
    ladder_density p bs (exchanged i D zs) * decision_probability q' D.
Proof.
  intros bs zs i D Hl Hi HD. exists (q bs zs i), (q bs (exchanged i D zs) i).
  split; [intros; apply exchange_prob|]. split; [intros; apply exchange_prob|].
  unfold exchanged. destruct i as [|[|i]]; [|destruct bs as [|b bs]; destruct zs as [|z zs]; simpl in Hl, HD; try lia|lia].
  - cbn [firstn skipn app]. apply swap_balance; auto.
  - cbn [firstn skipn app].
    assert (E : forall ws, decision_probability (q (b :: bs) (z :: ws) 1) D = decision_probability (q bs ws 0) D).
    { intros ws. apply decision_ext. intros j. reflexivity. }
    rewrite !E. assert (Hlad : forall ws, ladder_density p (b :: bs) (z :: ws) = tempered (p z) b * ladder_density p bs ws) by reflexivity.
    rewrite !Hlad, !Rmult_assoc. f_equal. apply swap_balance; lia.
Qed.
End Balance.
