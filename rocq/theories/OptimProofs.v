(** * Proofs for C42. *)
From Coq Require Import Reals Ascii String List Arith Bool Lia Lra.
From Verif Require Import Optim OptimSpec.
Import ListNotations.
Local Open Scope string_scope.

Lemma selection : forall fresh o g,
  match build_optimizer fresh o g with
  | inl (b, g') =>
      g' = (match o, g with OptNone, StepNone => StepVar fresh | _, _ => g end) /\
      ((exists x, o = OptObj x /\ b = Given x) \/
       exists c m r, b = New c r m /\ schedule g' r /\
         ((o = OptNone /\ c = Adam /\ m = None) \/ exists s, o = OptStr s /\ In (s, (c, m)) documented))
  | inr ValueError => exists s, o = OptStr s /\ ~ In s (map fst documented)
  | inr TypeError => o = OptOther
  end.
Proof.
  intros fresh o g. unfold build_optimizer.
  set (g' := match o, g with OptNone, StepNone => StepVar fresh | _, _ => g end).
  set (r := match g' with StepVar v => Decay 0.1 v 100 0.9 | _ => Constant 0.01 end).
  assert (HS : schedule g' r) by (unfold schedule, r; destruct g'; intros; reflexivity).
  destruct o as [|s|x|].
  - split; [reflexivity|]. right. exists Adam, None, r. split; [reflexivity|]. split; [exact HS|]. left. auto.
  - assert (K : forall n c m, s = n -> In (n, (c, m)) documented ->
      g' = match OptStr s, g with OptNone, StepNone => StepVar fresh | _, _ => g end /\
      ((exists x, OptStr s = OptObj x /\ New c r m = Given x) \/
       exists c0 m0 r0, New c r m = New c0 r0 m0 /\ schedule g' r0 /\
         ((OptStr s = OptNone /\ c0 = Adam /\ m0 = None) \/ exists s0, OptStr s = OptStr s0 /\ In (s0, (c0, m0)) documented))).
    { intros n c m -> Hi. split; auto. right. exists c, m, r. split; auto. split; auto. right. exists n. auto. }
    assert (G : g' = g) by (unfold g'; destruct g; auto).
    repeat match goal with |- context [String.eqb s ?n] => destruct (String.eqb_spec s n) as [E|?];
      [rewrite <- ?G; apply (K _ _ _ E); simpl; tauto|] end.
    exists s. split; auto. simpl. intros H. repeat (destruct H as [H|H]; [congruence|]). exact H.
  - split; [unfold g'; destruct g; auto|]. left. exists x. auto.
  - auto.
Qed.

Local Open Scope R_scope.

Lemma train_many : forall v n value r, rates r (StepVar v) value n =
  map (fun k => rate_at r (fun w => if Nat.eqb w v then (value v + k)%nat else value w)) (seq 0 n).
Proof.
  assert (X : forall (v : nat) r f g, (forall w, f w = g w) -> rate_at r f = rate_at r g).
  { intros v r f g H. destruct r; simpl; auto. rewrite H. auto. }
  intros v. induction n as [|n IH]; intros value r; [reflexivity|]. cbn [rates seq map]. f_equal.
  - apply (X v). intros w. destruct (Nat.eqb_spec w v); subst; auto.
  - rewrite IH. rewrite <- seq_shift, map_map. apply map_ext. intros k. apply (X v). intros w. cbn [train].
    destruct (Nat.eqb_spec w v); auto. subst. rewrite Nat.eqb_refl. lia.
Qed.

Lemma decay_shape : forall k, 0 < 0.1 * 0.9 ^ (k / 100) /\ 0.1 * 0.9 ^ (S k / 100) <= 0.1 * 0.9 ^ (k / 100) /\
  0.1 * 0.9 ^ ((k + 100) / 100) = 0.9 * (0.1 * 0.9 ^ (k / 100)).
Proof.
  intros k. assert (P : 0 < 0.9 ^ (k / 100)) by (apply pow_lt; lra). split; [lra|]. split.
  - pose proof (Nat.div_le_mono k (S k) 100 ltac:(lia) ltac:(lia)) as H.
    assert (M : forall a b, (a <= b)%nat -> 0.9 ^ b <= 0.9 ^ a).
    { intros a b Hab. induction Hab; [lra|]. simpl. assert (0 < 0.9 ^ m) by (apply pow_lt; lra). lra. }
    specialize (M _ _ H). lra.
  - replace ((k + 100) / 100)%nat with (S (k / 100)).
    + simpl. lra.
    + replace (k + 100)%nat with (k + 1 * 100)%nat by lia. rewrite Nat.div_add by lia. lia.
Qed.

(** Optimizer None: Adam with a decaying rate. *)
Lemma default_decays : forall fresh g value n, g = StepNone /\ value fresh = 0%nat \/ (exists v, g = StepVar v) ->
  exists v r, build_optimizer fresh OptNone g = inl (New Adam r None, StepVar v) /\
    (g = StepNone -> value v = 0%nat) /\
    (forall k, (k < n)%nat -> nth_error (rates r (StepVar v) value n) k = Some (0.1 * 0.9 ^ ((value v + k) / 100))).
Proof.
  intros fresh g value n Hg.
  assert (Hv : exists v, build_optimizer fresh OptNone g = inl (New Adam (Decay 0.1 v 100 0.9) None, StepVar v) /\ (g = StepNone -> value v = 0%nat)).
  { destruct Hg as [[-> H0]|(v & ->)]; [exists fresh; split; auto|]. exists v. split; [reflexivity|discriminate]. }
  destruct Hv as (v & E & H0). exists v, (Decay 0.1 v 100 0.9). split; auto. split; auto. intros k Hk. rewrite train_many.
  erewrite map_nth_error; [|rewrite (nth_error_nth' _ 0%nat) by (rewrite seq_length; auto); rewrite seq_nth by auto; reflexivity].
  cbn [rate_at]. rewrite Nat.eqb_refl. reflexivity.
Qed.
