(** * Proofs for C47. *)
From Coq Require Import Reals List Arith Bool Lia Lra.
From Verif Require Import Transform TransformProofs VIProofs DP DPSpec.
Import ListNotations.

Section Loop.
Context {V : Type} (zero : V).
Variable n : nat.
Variable which : nat -> nat.
Variable base : nat -> nat -> V.
Variable beta : nat -> nat -> R.
Variable flips : nat -> nat -> bool.
Variable s0 : sticks (V := V).

Let len := length (s_locs s0).

Definition grown (k : nat) : sticks (V := V) :=
  mksticks (s_locs s0 ++ map base (seq len (k - len))) (s_probs s0 ++ map beta (seq len (k - len))).

Lemma grown_length : forall k, length (s_locs (grown k)) = Nat.max len k.
Proof. intros k. simpl. rewrite app_length, map_length, seq_length. fold len. lia. Qed.

Lemma grown_step : forall k, (if Nat.leb (k + 1) (length (s_locs (grown k))) then grown k
  else mksticks (s_locs (grown k) ++ [base k]) (s_probs (grown k) ++ [beta k])) = grown (k + 1).
Proof.
  intros k. rewrite grown_length. destruct (Nat.leb_spec (k + 1) (Nat.max len k)).
  - unfold grown. replace (k + 1 - len) with (k - len) by lia. auto.
  - unfold grown. simpl. rewrite <- !app_assoc. replace (k + 1 - len) with (S (k - len)) by lia.
    rewrite !seq_S, !map_app. simpl. replace (len + (k - len)) with k by lia. auto.
Qed.

Lemma grown_nth : forall i k k', i < Nat.max len k -> k <= k' ->
  nth i (s_locs (grown k')) (fun _ => zero) = nth i (s_locs (grown k)) (fun _ => zero).
Proof.
  intros i k k' Hi Hk. replace (k' - len) with ((k - len) + ((k' - len) - (k - len))) by lia.
  unfold grown. simpl. replace (k' - len) with ((k - len) + ((k' - len) - (k - len))) by lia.
  rewrite seq_app, map_app, app_assoc. rewrite app_nth1; auto. rewrite app_length, map_length, seq_length. fold len. lia.
Qed.

Definition inv (k : nat) (v : loop_vars (V := V)) : Prop :=
  l_k v = k /\ l_sticks v = grown k /\
  (forall j, j < n -> if l_bools v j then forall i, i < k -> flips i j = false
     else exists i, i < k /\ first_heads (fun i => flips i j) i /\ l_draws v j = nth i (s_locs (grown k)) (fun _ => zero) (which j)) /\
  (k = 0 \/ exists j, j < n /\ forall i, i < k - 1 -> flips i j = false).

Lemma inv_init : inv 0 (mkvars 0 (fun _ => true) s0 (fun _ => zero)).
Proof.
  split; [auto|]. split; [|split; [|auto]].
  - unfold grown. simpl. rewrite !app_nil_r. destruct s0; auto.
  - intros j _. simpl. intros i H. lia.
Qed.

Lemma inv_body : forall k v, inv k v -> dp_cond n v = true -> inv (k + 1) (dp_body zero which base beta flips v).
Proof.
  intros k v (Hk & Hs & Hj & _) Hc. unfold dp_body. rewrite Hk, Hs, grown_step. split; [auto|]. split; [auto|]. split.
  - intros j Hn. simpl. specialize (Hj j Hn). destruct (flips k j) eqn:F.
    + destruct (l_bools v j) eqn:B.
      * exists k. split; [lia|]. split; [split; auto|]. auto.
      * destruct Hj as (i & Hi & Hf & Hd). exists i. split; [lia|]. split; auto.
        rewrite Hd. change (s_locs s0 ++ map base (seq len (k + 1 - len))) with (s_locs (grown (k + 1))).
        rewrite (grown_nth i k (k + 1)); auto; lia.
    + destruct (l_bools v j) eqn:B.
      * intros i Hi. destruct (Nat.eq_dec i k) as [->|N]; auto. apply Hj. lia.
      * destruct Hj as (i & Hi & Hf & Hd). exists i. split; [lia|]. split; auto.
        rewrite Hd. change (s_locs s0 ++ map base (seq len (k + 1 - len))) with (s_locs (grown (k + 1))).
        rewrite (grown_nth i k (k + 1)); auto; lia.
  - right. unfold dp_cond in Hc. apply existsb_exists in Hc. destruct Hc as (j & Hin & B). apply in_seq in Hin. exists j. split; [lia|].
    specialize (Hj j ltac:(lia)). rewrite B in Hj. intros i Hi. apply Hj. lia.
Qed.

Lemma loop_inv : forall fuel k v v', inv k v -> dp_loop zero n which base beta flips fuel v = Some v' ->
  exists m, k <= m <= k + fuel /\ inv m v' /\ dp_cond n v' = false.
Proof.
  induction fuel as [|fuel IH]; intros k v v' Hi H; cbn [dp_loop] in H; destruct (dp_cond n v) eqn:C.
  - discriminate.
  - injection H as <-. exists k. split; [lia|]. auto.
  - destruct (IH (k + 1) _ _ (inv_body _ _ Hi C) H) as (m & Hm & I). exists m. split; [lia|]. auto.
  - injection H as <-. exists k. split; [lia|]. auto.
Qed.

Lemma cond_false : forall v : loop_vars (V := V), dp_cond n v = false -> forall j, j < n -> l_bools v j = false.
Proof.
  intros v H j Hj. destruct (l_bools v j) eqn:B; auto. exfalso.
  assert (dp_cond n v = true); [|congruence]. unfold dp_cond. apply existsb_exists. exists j. split; auto. apply in_seq. lia.
Qed.

Lemma sample_spec : forall fuel s x, dp_sample zero n which base beta flips fuel s0 = Some (s, x) ->
  exists m, m <= fuel /\
    s_locs s = s_locs s0 ++ map base (seq len (m - len)) /\ s_probs s = s_probs s0 ++ map beta (seq len (m - len)) /\
    (forall j, j < n -> exists k, k < m /\ first_heads (fun i => flips i j) k /\ x j = nth k (s_locs s) (fun _ => zero) (which j)) /\
    (m = 0 \/ exists j, j < n /\ first_heads (fun i => flips i j) (m - 1)).
Proof.
  intros fuel s x H. unfold dp_sample in H. destruct (dp_loop _ _ _ _ _ _ _ _) as [v|] eqn:E; [|discriminate]. injection H as <- <-.
  destruct (loop_inv _ _ _ _ inv_init E) as (m & Hm & (Hk & Hs & Hj & Hl) & Hc). exists m. split; [lia|]. rewrite Hs. split; [auto|]. split; [auto|]. split.
  - intros j Hn. specialize (Hj j Hn). rewrite (cond_false _ Hc j Hn) in Hj. auto.
  - destruct Hl as [->|(j & Hn & Hl)]; auto. destruct (Nat.eq_dec m 0) as [->|N]; [auto|]. right. exists j. split; auto.
    specialize (Hj j Hn). rewrite (cond_false _ Hc j Hn) in Hj. destruct Hj as (i & Hi & Hf & _).
    destruct (Nat.eq_dec i (m - 1)) as [<-|Ni]; auto. exfalso. destruct Hf as [Hf _]. rewrite Hl in Hf by lia. discriminate.
Qed.

Lemma loop_ends : forall fuel k v, l_k v = k ->
  (forall j, j < n -> l_bools v j = true -> exists i, k <= i < k + fuel /\ flips i j = true) ->
  exists v', dp_loop zero n which base beta flips fuel v = Some v'.
Proof.
  induction fuel as [|fuel IH]; intros k v Hk H; cbn [dp_loop]; destruct (dp_cond n v) eqn:C; eauto.
  - unfold dp_cond in C. apply existsb_exists in C. destruct C as (j & Hj & B). apply in_seq in Hj.
    destruct (H j ltac:(lia) B) as (i & Hi & _). lia.
  - apply (IH (k + 1)); [unfold dp_body; simpl; lia|]. intros j Hj B. unfold dp_body in B. cbn [l_bools] in B. rewrite Hk in B.
    destruct (flips k j) eqn:F; [discriminate|]. destruct (H j Hj B) as (i & Hi & Fi). exists i. split; auto.
    assert (i <> k) by (intros ->; congruence). lia.
Qed.

Lemma sample_ends : forall fuel, (exists s x, dp_sample zero n which base beta flips fuel s0 = Some (s, x)) <->
  forall j, j < n -> exists k, k < fuel /\ flips k j = true.
Proof.
  intros fuel. split.
  - intros (s & x & H) j Hj. destruct (sample_spec _ _ _ H) as (m & Hm & _ & _ & K & _). destruct (K j Hj) as (k & Hk & [F _] & _). exists k. split; [lia|auto].
  - intros H. unfold dp_sample. destruct (loop_ends fuel 0 (mkvars 0 (fun _ => true) s0 (fun _ => zero)) eq_refl) as (v & E).
    + intros j Hj _. destruct (H j Hj) as (i & Hi & F). exists i. split; [lia|auto].
    + rewrite E. eauto.
Qed.

End Loop.

(** Over any number of calls, atoms and sticks stay where they are. *)
Lemma calls_memoized : forall {V} (zero : V) cs s s' xs, dp_calls zero cs s = Some (s', xs) ->
  (exists l p, s_locs s' = s_locs s ++ l /\ s_probs s' = s_probs s ++ p /\ length l = length p) /\ length xs = length cs /\
  forall i c x, nth_error cs i = Some c -> nth_error xs i = Some x -> forall j, j < c_n V c ->
    exists k, k < length (s_locs s') /\ first_heads (fun t => c_flips V c t j) k /\ x j = nth k (s_locs s') (fun _ => zero) (c_which V c j).
Proof.
  intros V zero cs. induction cs as [|c cs IH]; intros s s' xs H; cbn [dp_calls] in H.
  - injection H as <- <-. split; [exists [], []; rewrite !app_nil_r; auto|]. split; auto. intros [|i] c x Hc; discriminate.
  - destruct (dp_sample _ _ _ _ _ _ _ _) as [[s1 x1]|] eqn:E; [|discriminate]. destruct (dp_calls zero cs s1) as [[s2 xs2]|] eqn:E2; [|discriminate].
    injection H as <- <-. destruct (IH _ _ _ E2) as ((l & p & L & P & LP) & Len & K). clear IH.
    destruct (sample_spec _ _ _ _ _ _ _ _ _ _ E) as (m & Hm & L1 & P1 & K1 & _).
    split; [|split].
    + exists (map (c_base V c) (seq (length (s_locs s)) (m - length (s_locs s))) ++ l), (map (c_beta V c) (seq (length (s_locs s)) (m - length (s_locs s))) ++ p).
      rewrite L, L1, P, P1, <- !app_assoc. split; auto. split; auto. rewrite !app_length, !map_length, LP. auto.
    + simpl. lia.
    + intros [|i] c' x Hc Hx; [|apply (K i); auto]. cbn in Hc, Hx. injection Hc as <-. injection Hx as <-. intros j Hj.
      destruct (K1 j Hj) as (k & Hk & F & X). 
      assert (B : k < length (s_locs s1)) by (rewrite L1, app_length, map_length, seq_length; lia).
      exists k. rewrite L. split; [rewrite app_length; lia|]. split; auto. rewrite app_nth1; auto.
Qed.

(** ** Stick breaking *)

Local Open Scope R_scope.

Lemma sum_map_zero : forall {A} (l : list A) (f : A -> R), (forall a, In a l -> f a = 0) -> sumR (map f l) = 0.
Proof. intros A l f H. rewrite (sumR_map_ext l f (fun _ => 0)) by auto. rewrite sumR_const. lra. Qed.

Lemma outcomes_total : forall m p, sumR (map (outcome_prob p) (outcomes m)) = 1.
Proof.
  induction m as [|m IH]; intros p; [simpl; lra|]. cbn [outcomes]. rewrite map_app, sumR_app, !map_map. cbn [outcome_prob].
  rewrite !sumR_map_scal, IH. lra.
Qed.

Lemma stick_law : forall m p k, (k < m)%nat ->
  sumR (map (fun c => if match first_in c with Some i => Nat.eqb i k | None => false end then outcome_prob p c else 0) (outcomes m)) = stick_weight p k.
Proof.
  induction m as [|m IH]; intros p k Hk; [lia|]. cbn [outcomes]. rewrite map_app, sumR_app, !map_map. cbn [first_in outcome_prob]. destruct k as [|k].
  - cbn [Nat.eqb stick_weight]. rewrite sumR_map_scal, outcomes_total.
    rewrite sum_map_zero; [lra|]. intros c _. destruct (first_in c); auto.
  - rewrite sum_map_zero by auto. cbn [stick_weight]. rewrite <- (IH (fun i => p (S i)) k) by lia. rewrite <- sumR_map_scal.
    rewrite Rplus_0_l. apply sumR_map_ext. intros c _. destruct (first_in c) as [i|]; cbn [option_map]; [cbn [Nat.eqb]; destruct (Nat.eqb i k); lra|lra].
Qed.

Lemma stick_nonneg : forall p k, (forall i, 0 <= p i <= 1) -> 0 <= stick_weight p k.
Proof.
  intros p k. revert p. induction k as [|k IH]; intros p H; simpl; [apply H|]. pose proof (H 0%nat). apply Rmult_le_pos; [lra|]. apply IH. auto.
Qed.
