(** * The names of what copy adds, with any flags (proofs). *)
From Coq Require Import Ascii String List Arith Bool Lia.
From Verif Require Import Copy CopySpec CopyProofs CopyStateProofs.
Import ListNotations.
Local Open Scope string_scope.

Lemma append_assoc : forall a b c : string, (a ++ b) ++ c = a ++ (b ++ c).
Proof. induction a as [|x a IH]; intros b c; simpl; [|rewrite IH]; reflexivity. Qed.

Lemma named_refl : forall s g, named_in s g g.
Proof. intros s g. exists [], []. simpl. now rewrite !app_nil_r. Qed.
Lemma named_trans : forall s a b c, named_in s a b -> named_in s b c -> named_in s a c.
Proof.
  intros s a b c [lo [lr [H1 H2]]] [lo' [lr' [H3 H4]]]. exists (lo ++ lo')%list, (lr ++ lr')%list.
  rewrite H3, H4, H1, H2, !map_app, !app_assoc. split; reflexivity.
Qed.
Lemma named_op : forall s g n k l, named_in s g (add_op g (mkop (s ++ n) k l)).
Proof.
  intros s g n k l. exists [n], []. simpl. rewrite map_app, app_nil_r. split; reflexivity.
Qed.
Lemma update_names : forall o t l,
  map oname (update_nth o (fun d => mkop (oname d) (okind d) (oins d ++ [t])%list) l) = map oname l.
Proof.
  induction o as [|o IH]; intros t [|d l]; simpl; auto. now rewrite IH.
Qed.
Lemma named_input : forall s g o t, named_in s g (add_input g o t).
Proof.
  intros s g o t. exists [], []. simpl. rewrite update_names, !app_nil_r. split; reflexivity.
Qed.
Lemma unique_named : forall s fuel g n, exists m, unique fuel g (s ++ n) = s ++ m.
Proof.
  intros s. induction fuel as [|f IH]; intros g n; simpl; [eauto|].
  destruct (op_named g (s ++ n)); [|eauto]. rewrite append_assoc. apply IH.
Qed.
Lemma build_named : forall s g cls args n g' r, build_rv g cls args (s ++ n) = (g', r) -> named_in s g g'.
Proof.
  intros s g cls args n g' r H. unfold build_rv in H. cbv zeta in H. rewrite append_assoc in H.
  destruct (unique_named s (S (length (ops g))) g (n ++ "sample")) as [m Em]. rewrite Em in H. clear Em.
  destruct (tensors_of g args) as [ts|]; injection H as <- _.
  - exists [m], [n]. unfold add_rv, add_op. cbn [ops rvs]. rewrite !map_app. split; reflexivity.
  - apply named_refl.
Qed.

Section Loops.
Variable s : string.
Variable c : graph -> elem -> graph * res elem.
Hypothesis Hc : forall g x g' r, c g x = (g', r) -> named_in s g g'.

Lemma copy_list_named : forall l g g' r, copy_list c g l = (g', r) -> named_in s g g'.
Proof.
  induction l as [|x l IH]; intros g g' r H; simpl in H.
  - injection H as <- _. apply named_refl.
  - destruct (c g x) as [g1 r1] eqn:E. pose proof (Hc _ _ _ _ E) as H1.
    destruct r1 as [y| |]; try (injection H as <- _; exact H1).
    destruct (copy_list c g1 l) as [g2 r2] eqn:E2. pose proof (named_trans _ _ _ _ H1 (IH _ _ _ E2)) as H2.
    destruct r2; injection H as <- _; exact H2.
Qed.
Lemma copy_inputs_named : forall o l g g' r, copy_inputs c g o l = (g', r) -> named_in s g g'.
Proof.
  intros o. induction l as [|i l IH]; intros g g' r H; simpl in H.
  - injection H as <- _. apply named_refl.
  - destruct (c g (XT i)) as [g1 r1] eqn:E. pose proof (Hc _ _ _ _ E) as H1.
    destruct r1 as [y| |]; try (injection H as <- _; exact H1).
    destruct (as_tensor g1 y) as [t|]; [|injection H as <- _; exact H1].
    eapply named_trans; [exact H1|]. eapply named_trans; [apply named_input|]. eapply IH; exact H.
Qed.
End Loops.

Lemma copy_named : forall s fuel pick sw ri cq cps g x g' r,
  copy fuel pick sw s ri cq cps g x = (g', r) -> named_in s g g'.
Proof.
  intros s. induction fuel as [|f IH]; intros pick sw ri cq cps g x g' r H; simpl in H.
  { injection H as <- _. apply named_refl. }
  destruct (front g sw ri cq x) as [y|y]; [injection H as <- _; apply named_refl|].
  destruct (find_copy g s y); [injection H as <- _; apply named_refl|].
  destruct (if cps && negb (is_op y) then _ else (g, Ok [])) as [g1 r1] eqn:Ep.
  assert (H1 : named_in s g g1).
  { destruct (cps && negb (is_op y)); [|injection Ep as <- _; apply named_refl].
    eapply copy_list_named; [|exact Ep]. intros ? ? ? ?. apply IH. }
  eapply named_trans; [exact H1|]. clear Ep H1.
  destruct r1; try (injection H as <- _; apply named_refl).
  destruct y as [q|t|t|o].
  - destruct (nth_error (rvs g1) q) as [d|]; [|injection H as <- _; apply named_refl].
    destruct (copy_list _ g1 (rargs d)) as [g2 r2] eqn:E.
    assert (E' : named_in s g1 g2) by (eapply copy_list_named; [|exact E]; intros ? ? ? ?; apply IH).
    destruct r2 as [args| |]; try (injection H as <- _; exact E').
    eapply named_trans; [exact E'|]. eapply build_named; exact H.
  - destruct (nth_error (ops g1) t) as [d|]; [|injection H as <- _; apply named_refl].
    destruct (okind d); [injection H as <- _; apply named_refl| | |];
      (destruct (copy f pick sw s true cq false g1 (XOp t)) as [g2 r2] eqn:E; apply IH in E;
       destruct r2 as [[]| |]; injection H as <- _; exact E).
  - injection H as <- _. apply named_refl.
  - destruct (nth_error (ops g1) o) as [d|]; [|injection H as <- _; apply named_refl].
    destruct (okind d) as [| | |ty] eqn:Ek; try (injection H as <- _; apply named_refl);
      (destruct (copy_inputs _ _ _ _) as [g3 r3] eqn:E;
       assert (E' : named_in s g1 g3) by
         (eapply named_trans; [apply named_op|]; eapply copy_inputs_named; [|exact E]; intros ? ? ? ?; apply IH);
       destruct r3; injection H as <- _; exact E').
Qed.

Lemma get_last : forall p c, get (String.length (p ++ String c "") - 1) (p ++ String c "") = Some c.
Proof.
  induction p as [|x p IH]; intros c; [reflexivity|]. specialize (IH c).
  replace (String.length (String x p ++ String c "") - 1) with (S (String.length (p ++ String c "") - 1)).
  - exact IH.
  - cbn [append String.length].
    assert (0 < String.length (p ++ String c "")) by (destruct p; simpl; lia). lia.
Qed.
Lemma last_char : forall s, s <> "" -> exists p c, s = p ++ String c "".
Proof.
  induction s as [|x s IH]; intros H; [congruence|]. destruct s as [|y s'].
  - exists "", x. reflexivity.
  - destruct IH as [p [c E]]; [discriminate|]. exists (String x p), c. simpl. now rewrite <- E.
Qed.
Lemma last_inj : forall p q a b, p ++ String a "" = q ++ String b "" -> a = b.
Proof. intros p q a b H. pose proof (get_last p a) as E. rewrite H, get_last in E. congruence. Qed.

Lemma with_slash_spec : forall scope s, slashed scope s <-> with_slash scope = Some s.
Proof.
  intros scope s. unfold with_slash, slashed.
  destruct (string_dec scope "") as [->|Hn].
  - simpl. split; [|discriminate]. intros [H _]. congruence.
  - destruct (last_char _ Hn) as [p [c ->]]. rewrite get_last.
    destruct (Ascii.eqb c "/") eqn:E.
    + apply Ascii.eqb_eq in E. subst c. split.
      * intros [_ [[_ ->]|[H _]]]; [reflexivity|]. exfalso. apply H. exists p. reflexivity.
      * intros [= <-]. split; auto. left. split; [exists p|]; reflexivity.
    + apply Ascii.eqb_neq in E. split.
      * intros [_ [[[q H] ->]|[_ ->]]]; [|reflexivity]. exfalso. apply E. eapply last_inj. exact H.
      * intros [= <-]. split; auto. right. split; [|reflexivity]. intros [q H]. apply E. eapply last_inj. exact H.
Qed.

Lemma call_named : forall c g s, slashed (c_scope c) s -> named_in s g (run_call g c).
Proof.
  intros c g s H. apply with_slash_spec in H. unfold run_call, ed_copy_at. rewrite H.
  destruct (copy _ _ _ _ _ _ _ _ _) as [g' r] eqn:E. simpl. eapply copy_named; exact E.
Qed.
Lemma call_empty : forall fuel pick sw ri cq cps g x,
  ed_copy_at fuel pick sw "" ri cq cps g x = (g, Exc).
Proof. reflexivity. Qed.
