(** * Proofs for C76: the log joints of the replicas. *)
From Coq Require Import List Arith Bool Lia.
From Verif Require Import Schedule ScheduleSpec ScheduleProofs.
Import ListNotations.

Definition rop_eq : forall a b : rop, {a = b} + {a <> b}.
Proof. decide equality; apply Nat.eq_dec. Defined.

Section R.
Context {V : Type}.
Variable zeros : V.
Variable get : nat -> V -> V.
Variable put : nat -> V -> V -> V.
Variable add : V -> V -> V.
Variable term : nat -> V.
Variable n : nat.
Variable m : nat -> V.
Notation g := (ratio_graph zeros get put add term n).
Notation sum := (ratio_sum zeros get put add term).

Definition ran (s : sstate rop V) o := s_out s o <> None.
Definition ratios (s : sstate rop V) : Prop :=
  (forall k, ran s (RScatter k) -> ran s (ratio_before k)) /\
  (forall k, ran s (RScatter k) -> ran s (REntry k)) /\
  (forall k o, s_out s (REntry k) = Some o -> o = Val (get k (sum k))) /\
  (forall k o, s_out s (RTerm k) = Some o -> o = Val (term k)) /\
  (forall k o, s_out s (RScatter k) = Some o -> o = Ref 0 /\ k < n) /\
  (forall o, s_out s RReset = Some o -> o = Ref 0) /\
  (forall o, s_out s RRead = Some o -> o = Val (sum n)) /\
  (forall k, ran s (ratio_before k) -> ~ ran s (RScatter k) -> s_mem s 0 = sum k).

Lemma ratios_down : forall s, ratios s -> forall d k, ran s (ratio_before (d + k)) -> ran s (ratio_before k).
Proof.
  intros s (H & _) d. induction d as [|d IH]; intros k R; auto.
Qed.

Lemma ratio_before_ref : forall s k o, ratios s -> s_out s (ratio_before k) = Some o -> o = Ref 0.
Proof. intros s k o (_ & _ & _ & _ & H1 & H2 & _) E. destruct k; simpl in E; [auto|]. apply (H1 k o E). Qed.

Lemma ratios_start : ratios (start m).
Proof.
  unfold ratios, ran. cbn [s_out start]. split; [|split; [|split; [|split; [|split; [|split; [|split]]]]]]; intros; try discriminate; exfalso; auto.
Qed.

Lemma ratios_fire : forall s o s', ratios s -> fire rop_eq g s o = Some s' -> ratios s'.
Proof.
  intros s o s' Hs F. destruct (fire_inv rop_eq g s o s' F) as (nd & vs & Eg & Eo & Ei & Dn & ->).
  pose proof Hs as (A1 & A2 & A3 & A4 & A5 & A6 & A7 & A8).
  assert (Bef : forall k, In (ratio_before k) (n_in nd) -> ran s (ratio_before k)) by (intros k Hk; apply Dn, in_or_app; auto).
  destruct o; simpl in Eg.
  - (* the variable *) injection Eg as <-. unfold ratios, ran. unfold out_of, mem_of. cbn [n_kind s_out s_mem n_in].
    assert (RB : forall j, (if rop_eq (ratio_before j) RVar then Some (Ref 0) else s_out s (ratio_before j)) = s_out s (ratio_before j)).
    { intros j. destruct (rop_eq (ratio_before j) RVar) as [X|]; auto. destruct j; discriminate X. }
    split; [|split; [|split; [|split; [|split; [|split; [|split]]]]]].
    + intros j Hj. rewrite RB. apply A1. exact Hj.
    + exact A2.
    + exact A3.
    + exact A4.
    + exact A5.
    + exact A6.
    + exact A7.
    + intros j. rewrite RB. apply A8.
  - (* reset *) injection Eg as <-. unfold ratios, ran. simpl. unfold out_of, mem_of. simpl.
    assert (NS : forall k, s_out s (RScatter k) = None).
    { intros k. destruct (s_out s (RScatter k)) eqn:E; auto. exfalso. apply (ratios_down s Hs (S k) 0); [|exact Eo]. rewrite Nat.add_0_r. unfold ran. simpl. congruence. }
    split; [|split; [|split; [|split; [|split; [|split; [|split]]]]]].
    + intros k. rewrite NS. congruence.
    + intros k. rewrite NS. congruence.
    + exact A3.
    + exact A4.
    + exact A5.
    + intros o. congruence.
    + exact A7.
    + intros k. destruct k as [|k]; simpl; auto. rewrite NS. congruence.
  - (* entry *) destruct (Nat.ltb k n) eqn:Ek; [|discriminate]. injection Eg as <-. unfold ratios, ran. unfold out_of, mem_of. cbn [n_kind s_out s_mem n_in].
    assert (NS : s_out s (RScatter k) = None).
    { destruct (s_out s (RScatter k)) eqn:E; auto. exfalso. apply (A2 k); [unfold ran; congruence|exact Eo]. }
    assert (Ev : hd zeros vs = sum k).
    { simpl in Ei. destruct (s_out s (ratio_before k)) as [o|] eqn:Eb; [|discriminate]. injection Ei as <-. simpl.
      rewrite (ratio_before_ref s k o Hs Eb). simpl. apply A8; unfold ran; congruence. }
    assert (RB : forall j, (if rop_eq (ratio_before j) (REntry k) then Some (Val (get k (hd zeros vs))) else s_out s (ratio_before j)) = s_out s (ratio_before j)).
    { intros j. destruct (rop_eq (ratio_before j) (REntry k)) as [X|]; auto. destruct j; discriminate X. }
    split; [|split; [|split; [|split; [|split; [|split; [|split]]]]]].
    + intros j Hj. rewrite RB. destruct (rop_eq (RScatter j) (REntry k)) as [X|]; [discriminate X|]. apply A1. exact Hj.
    + intros j Hj. destruct (rop_eq (RScatter j) (REntry k)) as [X|]; [discriminate X|]. destruct (rop_eq (REntry j) (REntry k)); [discriminate|]. apply A2. exact Hj.
    + intros j o. destruct (rop_eq (REntry j) (REntry k)) as [X|]; [|apply A3]. injection X as ->. rewrite Ev. congruence.
    + intros j o. destruct (rop_eq (RTerm j) (REntry k)) as [X|]; [discriminate X|]. apply A4.
    + intros j o. destruct (rop_eq (RScatter j) (REntry k)) as [X|]; [discriminate X|]. apply A5.
    + intros o. destruct (rop_eq RReset (REntry k)) as [X|]; [discriminate X|]. apply A6.
    + intros o. destruct (rop_eq RRead (REntry k)) as [X|]; [discriminate X|]. apply A7.
    + intros j. rewrite RB. destruct (rop_eq (RScatter j) (REntry k)) as [X|]; [discriminate X|]. apply A8.
  - (* term *) destruct (Nat.ltb k n) eqn:Ek; [|discriminate]. injection Eg as <-. unfold ratios, ran. unfold out_of, mem_of. cbn [n_kind s_out s_mem n_in].
    assert (RB : forall j, (if rop_eq (ratio_before j) (RTerm k) then Some (Val (term k)) else s_out s (ratio_before j)) = s_out s (ratio_before j)).
    { intros j. destruct (rop_eq (ratio_before j) (RTerm k)) as [X|]; auto. destruct j; discriminate X. }
    split; [|split; [|split; [|split; [|split; [|split; [|split]]]]]].
    + intros j Hj. rewrite RB. destruct (rop_eq (RScatter j) (RTerm k)) as [X|]; [discriminate X|]. apply A1. exact Hj.
    + intros j Hj. destruct (rop_eq (RScatter j) (RTerm k)) as [X|]; [discriminate X|]. destruct (rop_eq (REntry j) (RTerm k)); [discriminate|]. apply A2. exact Hj.
    + intros j o. destruct (rop_eq (REntry j) (RTerm k)) as [X|]; [discriminate X|]. apply A3.
    + intros j o. destruct (rop_eq (RTerm j) (RTerm k)) as [X|]; [|apply A4]. injection X as ->. congruence.
    + intros j o. destruct (rop_eq (RScatter j) (RTerm k)) as [X|]; [discriminate X|]. apply A5.
    + intros o. destruct (rop_eq RReset (RTerm k)) as [X|]; [discriminate X|]. apply A6.
    + intros o. destruct (rop_eq RRead (RTerm k)) as [X|]; [discriminate X|]. apply A7.
    + intros j. rewrite RB. destruct (rop_eq (RScatter j) (RTerm k)) as [X|]; [discriminate X|]. apply A8.
  - (* scatter *) destruct (Nat.ltb k n) eqn:Ek; [|discriminate]. injection Eg as <-. cbn [n_in n_after app] in *.
    assert (Pk : ran s (ratio_before k)) by (apply Bef; simpl; auto).
    assert (Pe : ran s (REntry k)) by (apply Dn; simpl; auto).
    assert (M : s_mem s 0 = sum k) by (apply A8; auto; unfold ran; congruence).
    assert (Ev : nth 1 vs zeros = get k (sum k) /\ nth 2 vs zeros = term k).
    { simpl in Ei. destruct (s_out s (ratio_before k)) as [o|] eqn:Eb; [|discriminate]. destruct (s_out s (REntry k)) as [oe|] eqn:Ee; [|discriminate].
      destruct (s_out s (RTerm k)) as [ot|] eqn:Et; [|discriminate]. injection Ei as <-. rewrite (A3 k oe Ee), (A4 k ot Et). split; reflexivity. }
    destruct Ev as [Ev1 Ev2].
    assert (NS : forall j, k < j -> s_out s (ratio_before (S j)) = None).
    { intros j Hj. destruct (s_out s (ratio_before (S j))) eqn:E; auto. exfalso.
      apply (ratios_down s Hs (j - k) (S k)); [|exact Eo]. replace (j - k + S k) with (S j) by lia. unfold ran. congruence. }
    unfold ratios, ran. unfold out_of, mem_of. cbn [n_kind s_out s_mem].
    split; [|split; [|split; [|split; [|split; [|split; [|split]]]]]].
    + intros j Hj. destruct (rop_eq (ratio_before j) (RScatter k)); [discriminate|]. destruct (rop_eq (RScatter j) (RScatter k)) as [X|]; [injection X as ->; exact Pk|]. apply A1. exact Hj.
    + intros j Hj. destruct (rop_eq (REntry j) (RScatter k)) as [X|]; [discriminate X|]. destruct (rop_eq (RScatter j) (RScatter k)) as [X|]; [injection X as ->; exact Pe|]. apply A2. exact Hj.
    + intros j o. destruct (rop_eq (REntry j) (RScatter k)) as [X|]; [discriminate X|]. apply A3.
    + intros j o. destruct (rop_eq (RTerm j) (RScatter k)) as [X|]; [discriminate X|]. apply A4.
    + intros j o. destruct (rop_eq (RScatter j) (RScatter k)) as [X|]; [|apply A5]. injection X as ->. apply Nat.ltb_lt in Ek. intros [= <-]. auto.
    + intros o. destruct (rop_eq RReset (RScatter k)) as [X|]; [discriminate X|]. apply A6.
    + intros o. destruct (rop_eq RRead (RScatter k)) as [X|]; [discriminate X|]. apply A7.
    + intros j. simpl Nat.eqb. cbv iota. destruct (rop_eq (ratio_before j) (RScatter k)) as [X|X].
      * destruct j as [|j]; [discriminate X|]. injection X as ->. intros _ _. rewrite M, Ev1, Ev2. reflexivity.
      * intros R1 R2. exfalso. destruct (rop_eq (RScatter j) (RScatter k)) as [Y|Y]; [apply R2; discriminate|].
        assert (j <> k) by congruence. assert (j <> S k) by (intros ->; apply X; reflexivity).
        destruct (Nat.lt_ge_cases j k) as [L|L].
        -- apply R2. apply (ratios_down s Hs (k - S j) (S j)). replace (k - S j + S j) with k by lia. exact Pk.
        -- destruct j as [|j]; [lia|]. apply R1. apply NS. lia.
  - (* read *) injection Eg as <-. unfold ratios, ran. unfold out_of, mem_of. cbn [n_kind s_out s_mem n_in].
    assert (RB : forall j, (if rop_eq (ratio_before j) RRead then Some (Val (hd zeros vs)) else s_out s (ratio_before j)) = s_out s (ratio_before j)).
    { intros j. destruct (rop_eq (ratio_before j) RRead) as [X|]; auto. destruct j; discriminate X. }
    assert (NS : s_out s (RScatter n) = None).
    { destruct (s_out s (RScatter n)) eqn:E; auto. destruct (A5 n _ E). lia. }
    split; [|split; [|split; [|split; [|split; [|split; [|split]]]]]].
    + intros j Hj. rewrite RB. destruct (rop_eq (RScatter j) RRead) as [X|]; [discriminate X|]. apply A1. exact Hj.
    + exact A2.
    + exact A3.
    + exact A4.
    + exact A5.
    + exact A6.
    + intros o. destruct (rop_eq RRead RRead); [|congruence]. intros [= <-]. f_equal. simpl in Ei.
      destruct (s_out s (ratio_before n)) as [o|] eqn:Eb; [|discriminate]. injection Ei as <-. simpl. rewrite (ratio_before_ref s n o Hs Eb). simpl. apply A8; unfold ran; congruence.
    + intros j. rewrite RB. apply A8.
Qed.

Theorem ratio_any_order : forall l s, run rop_eq g (start m) l = Some s -> complete g s ->
  s_out s RRead = Some (Val (sum n)) /\ s_mem s 0 = sum n.
Proof.
  intros l s R C.
  assert (X : forall l s0 s, ratios s0 -> run rop_eq g s0 l = Some s -> ratios s).
  { clear. induction l as [|i l IH]; intros s0 s H R; simpl in R; [injection R as <-; auto|].
    destruct (fire rop_eq g s0 i) as [t|] eqn:E; [|discriminate]. eapply IH; [|exact R]. eapply ratios_fire; eauto. }
  pose proof (X l _ s ratios_start R) as Hs. pose proof Hs as (A1 & A2 & A3 & A4 & A5 & A6 & A7 & A8). split.
  - destruct (s_out s RRead) as [o|] eqn:E; [|exfalso; apply (C RRead); [discriminate|exact E]]. rewrite (A7 o eq_refl). reflexivity.
  - apply A8.
    + destruct n as [|k] eqn:En; apply C; simpl; [discriminate|]. destruct (Nat.ltb_spec k (S k)); [discriminate|lia].
    + intros E. unfold ran in E. destruct (s_out s (RScatter n)) eqn:E'; [|congruence]. destruct (A5 n _ E'). lia.
Qed.
End R.
