(** * Printing a power with '%.4e' and reading it back (proofs). *)
From Verif Require Import Simplify.
From Coq Require Import ZArith QArith Qabs Qpower Lia Lqa.

Lemma pow10_pos : forall j, (0 < 10 ^ Z.of_nat j)%Z.
Proof. intros. apply Z.pow_pos_nonneg; lia. Qed.
Lemma pow10_S : forall j, (10 ^ Z.of_nat (S j) = 10 * 10 ^ Z.of_nat j)%Z.
Proof. intros. rewrite Nat2Z.inj_succ, Z.pow_succ_r; lia. Qed.

Lemma scale_up_spec : forall fuel n d k, (0 < n)%Z -> (0 < d)%Z -> (10000 * d <= n * 10 ^ Z.of_nat fuel)%Z ->
  exists j, scale_up fuel n d k = ((n * 10 ^ Z.of_nat j)%Z, d, (k - Z.of_nat j)%Z) /\
    (10000 * d <= n * 10 ^ Z.of_nat j)%Z /\ (j = O \/ (n * 10 ^ Z.of_nat j < 100000 * d)%Z).
Proof.
  induction fuel as [|f IH]; intros n d k Hn Hd H.
  - exists O. simpl in *. rewrite Z.mul_1_r in *. rewrite Z.sub_0_r. auto.
  - cbn [scale_up]. destruct (Z.ltb_spec n (10000 * d)) as [L|L].
    + destruct (IH (n * 10)%Z d (k - 1)%Z) as (j & E & B & C); [lia|lia| |].
      { rewrite pow10_S in H. lia. }
      exists (S j). rewrite pow10_S. replace (n * (10 * 10 ^ Z.of_nat j))%Z with (n * 10 * 10 ^ Z.of_nat j)%Z by ring.
      split; [replace (k - Z.of_nat (S j))%Z with (k - 1 - Z.of_nat j)%Z by lia; exact E|]. split; [exact B|]. right. destruct C as [->|C]; [change (10 ^ Z.of_nat 0)%Z with 1%Z; lia|exact C].
    + exists O. change (10 ^ Z.of_nat 0)%Z with 1%Z. rewrite Z.mul_1_r, Z.sub_0_r. auto.
Qed.

Lemma scale_down_spec : forall fuel n d k, (0 < n)%Z -> (0 < d)%Z -> (n < 100000 * d * 10 ^ Z.of_nat fuel)%Z -> (10000 * d <= n)%Z ->
  exists j, scale_down fuel n d k = (n, (d * 10 ^ Z.of_nat j)%Z, (k + Z.of_nat j)%Z) /\
    (10000 * (d * 10 ^ Z.of_nat j) <= n < 100000 * (d * 10 ^ Z.of_nat j))%Z.
Proof.
  induction fuel as [|f IH]; intros n d k Hn Hd H H'.
  - exists O. simpl in *. rewrite Z.mul_1_r in *. rewrite Z.add_0_r. auto.
  - cbn [scale_down]. destruct (Z.leb_spec (100000 * d) n) as [L|L].
    + destruct (IH n (d * 10)%Z (k + 1)%Z) as (j & E & B); [lia|lia| |lia|].
      { rewrite pow10_S in H. lia. }
      exists (S j). rewrite pow10_S. replace (d * (10 * 10 ^ Z.of_nat j))%Z with (d * 10 * 10 ^ Z.of_nat j)%Z by ring.
      split; [replace (k + Z.of_nat (S j))%Z with (k + 1 + Z.of_nat j)%Z by lia; exact E|exact B].
    + exists O. change (10 ^ Z.of_nat 0)%Z with 1%Z. rewrite Z.mul_1_r, Z.add_0_r. auto.
Qed.

Lemma half_even_spec : forall n d, (0 < d)%Z ->
  (Z.abs (2 * (half_even n d * d - n)) <= d)%Z /\ ((Z.abs (2 * (half_even n d * d - n)) = d)%Z -> Z.even (half_even n d) = true).
Proof.
  intros n d Hd. unfold half_even. pose proof (Z.div_mod n d ltac:(lia)) as E. pose proof (Z.mod_pos_bound n d Hd) as B.
  set (m := (n / d)%Z) in *. set (r := (n mod d)%Z) in *.
  destruct (Z.ltb_spec (2 * r) d) as [L|L].
  - split; [|intros A; exfalso]; replace (m * d - n)%Z with (- r)%Z in * by lia; lia.
  - destruct (Z.ltb_spec d (2 * r)) as [L'|L'].
    + split; [|intros A; exfalso]; replace ((m + 1) * d - n)%Z with (d - r)%Z in * by lia; lia.
    + destruct (Z.even m) eqn:Em.
      * split; [|auto]. replace (m * d - n)%Z with (- r)%Z in * by lia; lia.
      * split; [replace ((m + 1) * d - n)%Z with (d - r)%Z in * by lia; lia|].
        intros _. rewrite Z.even_add, Em. reflexivity.
Qed.

Lemma half_even_range : forall n d, (0 < d)%Z -> (10000 * d <= n < 100000 * d)%Z -> (10000 <= half_even n d <= 100000)%Z.
Proof. intros n d Hd H. destruct (half_even_spec n d Hd) as [A _]. nia. Qed.

Lemma ten_to_Qpower : forall k, ten_to k == Qpower 10 k.
Proof.
  intros [|p|p]; unfold ten_to.
  - reflexivity.
  - rewrite Zpower_Qpower by lia. reflexivity.
  - change (Z.neg p) with (- Z.pos p)%Z. rewrite Qpower_opp. rewrite <- (Zpower_Qpower 10 (Z.pos p)) by lia.
    rewrite <- Pos2Z.inj_pow. reflexivity.
Qed.

Lemma pow2_10 : forall x, (0 <= x)%Z -> (2 ^ x <= 10 ^ x)%Z.
Proof. intros x Hx. apply Z.pow_le_mono_l. lia. Qed.

Theorem round4_spec : forall q, ~ q == 0 -> exists m k,
  round4 q == inject_Z m * Qpower 10 k /\ (10000 <= Z.abs m <= 100000)%Z /\
  inject_Z 10000 * Qpower 10 k <= Qabs q /\ Qabs q < inject_Z 100000 * Qpower 10 k /\
  Qabs (round4 q - q) <= (1 # 2) * Qpower 10 k /\
  (Qabs (round4 q - q) == (1 # 2) * Qpower 10 k -> Z.even m = true).
Proof.
  intros q Hq. unfold round4. set (n := Z.abs (Qnum q)). set (d := Z.pos (Qden q)).
  assert (Hn : (0 < n)%Z). { unfold n. assert (Qnum q <> 0)%Z; [|lia]. intros E. apply Hq. unfold Qeq. rewrite E. reflexivity. }
  assert (Hd : (0 < d)%Z) by (unfold d; lia).
  destruct (Z.eqb_spec n 0) as [E|_]; [lia|].
  set (fuel := Z.to_nat (Z.log2 n + Z.log2 d + 8)).
  pose proof (Z.log2_nonneg n) as Ln. pose proof (Z.log2_nonneg d) as Ld.
  assert (Ef : Z.of_nat fuel = (Z.log2 n + Z.log2 d + 8)%Z) by (unfold fuel; rewrite Z2Nat.id; lia).
  assert (Bd : (d * 10000 <= 10 ^ Z.of_nat fuel)%Z).
  { rewrite Ef. replace (Z.log2 n + Z.log2 d + 8)%Z with (Z.succ (Z.log2 d) + (Z.log2 n + 3) + 4)%Z by lia.
    rewrite !Z.pow_add_r by lia. change (10 ^ 4)%Z with 10000%Z. pose proof (Z.log2_spec d Hd) as [_ S].
    pose proof (pow2_10 (Z.succ (Z.log2 d)) ltac:(lia)). assert (0 < 10 ^ Z.log2 n * 10 ^ 3)%Z by (apply Z.mul_pos_pos; apply Z.pow_pos_nonneg; lia). nia. }
  assert (Bn : (n < 10 ^ Z.of_nat fuel)%Z).
  { rewrite Ef. replace (Z.log2 n + Z.log2 d + 8)%Z with (Z.succ (Z.log2 n) + (Z.log2 d + 7))%Z by lia.
    rewrite Z.pow_add_r by lia. pose proof (Z.log2_spec n Hn) as [_ S].
    pose proof (pow2_10 (Z.succ (Z.log2 n)) ltac:(lia)). assert (0 < 10 ^ (Z.log2 d + 7))%Z by (apply Z.pow_pos_nonneg; lia). nia. }
  destruct (scale_up_spec fuel n d 0%Z Hn Hd) as (i & E1 & B1 & C1); [nia|]. rewrite E1.
  pose proof (pow10_pos i) as Pi.
  destruct (scale_down_spec fuel (n * 10 ^ Z.of_nat i)%Z d (0 - Z.of_nat i)%Z) as (j & E2 & B2); [nia|exact Hd| |exact B1|].
  { pose proof (pow10_pos fuel). destruct C1 as [->|C1]; [change (10 ^ Z.of_nat 0)%Z with 1%Z; nia|nia]. }
  rewrite E2. pose proof (pow10_pos j) as Pj.
  set (n2 := (n * 10 ^ Z.of_nat i)%Z) in *. set (d2 := (d * 10 ^ Z.of_nat j)%Z) in *.
  assert (Hd2 : (0 < d2)%Z) by (unfold d2; nia).
  set (k := (0 - Z.of_nat i + Z.of_nat j)%Z). set (u := half_even n2 d2).
  pose proof (half_even_range n2 d2 Hd2 ltac:(lia)) as Ru. fold u in Ru.
  destruct (half_even_spec n2 d2 Hd2) as [Hu Ht]. fold u in Hu, Ht.
  assert (Pk : Qpower 10 k == inject_Z (10 ^ Z.of_nat j) / inject_Z (10 ^ Z.of_nat i)).
  { unfold k. rewrite Z.add_comm. replace (Z.of_nat j + (0 - Z.of_nat i))%Z with (Z.of_nat j + - Z.of_nat i)%Z by lia.
    rewrite Qpower_plus by (intros A; discriminate A). rewrite Qpower_opp.
    rewrite (Zpower_Qpower 10 (Z.of_nat j)), (Zpower_Qpower 10 (Z.of_nat i)) by lia. reflexivity. }
  assert (Ppos : 0 < Qpower 10 k).
  { rewrite Pk. apply Qlt_shift_div_l; [change 0 with (inject_Z 0); rewrite <- Zlt_Qlt; exact Pi|]. rewrite Qmult_0_l.
    change 0 with (inject_Z 0). rewrite <- Zlt_Qlt. exact Pj. }
  (* |q| = (n2 / d2) * 10^k *)
  assert (Qa : Qabs q == inject_Z n2 / inject_Z d2 * Qpower 10 k).
  { rewrite Pk. unfold n2, d2. rewrite !inject_Z_mult.
    assert (E : Qabs q == inject_Z n / inject_Z d).
    { destruct q as [a b]. unfold n, d. simpl. rewrite <- Qmake_Qdiv. reflexivity. }
    rewrite E. assert (~ inject_Z (10 ^ Z.of_nat i) == 0) by (unfold Qeq; simpl; lia).
    assert (~ inject_Z (10 ^ Z.of_nat j) == 0) by (unfold Qeq; simpl; lia).
    assert (~ inject_Z d == 0) by (unfold Qeq; simpl; lia). field. auto. }
  assert (D2 : 0 < inject_Z d2) by (change 0 with (inject_Z 0); rewrite <- Zlt_Qlt; exact Hd2).
  assert (D2' : ~ inject_Z d2 == 0) by (intros A; rewrite A in D2; discriminate).
  assert (Qs : q == inject_Z (Z.sgn (Qnum q)) * Qabs q).
  { destruct q as [a b]. unfold Qeq; simpl. destruct a; simpl; lia. }
  assert (Sg : Z.abs (Z.sgn (Qnum q)) = 1%Z) by (unfold n in Hn; lia).
  set (s := Z.sgn (Qnum q)) in *.
  assert (Er : Qred (inject_Z (s * u) * ten_to k) == inject_Z (s * u) * Qpower 10 k) by (rewrite Qred_correct, ten_to_Qpower; reflexivity).
  assert (Ed : Qabs (Qred (inject_Z (s * u) * ten_to k) - q) == inject_Z (Z.abs (u * d2 - n2)) / inject_Z d2 * Qpower 10 k).
  { rewrite Er, Qs, Qa, inject_Z_mult.
    setoid_replace (inject_Z s * inject_Z u * Qpower 10 k - inject_Z s * (inject_Z n2 / inject_Z d2 * Qpower 10 k))
      with (inject_Z s * (inject_Z (u * d2 - n2) * (/ inject_Z d2 * Qpower 10 k))).
    - rewrite !Qabs_Qmult. rewrite !(Qabs_pos (Qpower 10 k)) by (apply Qlt_le_weak; exact Ppos).
      rewrite (Qabs_pos (/ inject_Z d2)) by (apply Qlt_le_weak, Qinv_lt_0_compat; exact D2).
      change (Qabs (inject_Z s)) with (inject_Z (Z.abs s)). change (Qabs (inject_Z (u * d2 - n2))) with (inject_Z (Z.abs (u * d2 - n2))).
      rewrite Sg. unfold Qdiv. change (inject_Z 1) with 1. ring.
    - unfold Zminus. rewrite inject_Z_plus, inject_Z_opp, inject_Z_mult. field. exact D2'. }
  exists (s * u)%Z, k. split; [exact Er|]. split; [rewrite Z.abs_mul, Sg; lia|].
  rewrite Ed, Qa.
  assert (M : forall a, inject_Z a * Qpower 10 k == inject_Z (a * d2) / inject_Z d2 * Qpower 10 k).
  { intros a. rewrite inject_Z_mult. field. exact D2'. }
  assert (I : 0 < / inject_Z d2) by (apply Qinv_lt_0_compat; exact D2).
  split; [|split; [|split]].
  - rewrite M. apply Qmult_le_compat_r; [|apply Qlt_le_weak; exact Ppos]. apply Qmult_le_compat_r; [|apply Qlt_le_weak; exact I].
    rewrite <- Zle_Qle. lia.
  - rewrite M. apply Qmult_lt_compat_r; [exact Ppos|]. apply Qmult_lt_compat_r; [exact I|]. rewrite <- Zlt_Qlt. lia.
  - setoid_replace ((1 # 2) * Qpower 10 k) with ((1 # 2) * inject_Z d2 / inject_Z d2 * Qpower 10 k) by (field; exact D2').
    apply Qmult_le_compat_r; [|apply Qlt_le_weak; exact Ppos]. apply Qmult_le_compat_r; [|apply Qlt_le_weak; exact I].
    unfold Qle, Qmult, inject_Z. cbn [Qnum Qden]. lia.
  - intros A. rewrite Z.even_mul. rewrite Ht; [destruct (Z.even s); reflexivity|].
    assert (B : inject_Z (Z.abs (u * d2 - n2)) == (1 # 2) * inject_Z d2).
    { setoid_replace ((1 # 2) * Qpower 10 k) with ((1 # 2) * inject_Z d2 / inject_Z d2 * Qpower 10 k) in A by (field; exact D2').
      apply Qmult_inj_r in A; [|intros Z0; rewrite Z0 in Ppos; discriminate].
      unfold Qdiv in A. apply Qmult_inj_r in A; [exact A|]. intros Z0. rewrite Z0 in I. discriminate. }
    unfold Qeq, Qmult, inject_Z in B. cbn [Qnum Qden] in B. lia.
Qed.

Theorem round4_relative : forall q, Qabs (round4 q - q) <= (1 # 20000) * Qabs q.
Proof.
  intros q. destruct (Qeq_dec q 0) as [E|E].
  - assert (R : round4 q == 0).
    { unfold round4. destruct (Z.eqb_spec (Z.abs (Qnum q)) 0) as [_|N]; [reflexivity|]. exfalso. apply N. unfold Qeq in E. simpl in E. lia. }
    rewrite R, E. discriminate.
  - destruct (round4_spec q E) as (m & k & _ & _ & A & _ & B & _). change (inject_Z 10000) with (10000 # 1) in A. lra.
Qed.
