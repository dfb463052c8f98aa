(** * Proofs for C74 *)
From Coq Require Import String List Arith Bool Lia.
From Verif Require Import CopyLoop CopyLoopSpec.
Import ListNotations.
Open Scope list_scope.

Section Proofs.
Variable g : graph.
Variable swap : tensor -> option tensor.
Variable scope : string.
Variables n m : nat.
Hypothesis B : built g swap n m.

Notation image := (image g swap).
Notation image_op := (image_op g).
Notation copy_tensor := (copy_tensor g swap scope).
Notation copy_op := (copy_op g swap scope).
Notation copy_context := (copy_context g swap scope).
Notation within := (within g).
Notation inside := (inside g).

(** ** Equations *)
Lemma copy_tensor_S : forall f t s, copy_tensor (S f) t s =
  match swap t with
  | Some t' => Some (Old t', s)
  | None =>
    if variable g t then Some (Old t, s)
    else match lookup (ops s) (fst t) with
    | Some _ => Some (New t, s)
    | None =>
      if placeholder g (fst t) then Some (Old t, s)
      else match copy_op f (fst t) s with
        | Some (Old o, s') => Some (Old (o, snd t), s')
        | Some (New o, s') => Some (New (o, snd t), s')
        | None => None
        end
    end
  end.
Proof. reflexivity. Qed.
Lemma copy_op_S : forall f o s, copy_op (S f) o s =
  match lookup (ops s) o with
  | Some _ => Some (New o, s)
  | None =>
    if queue g o then Some (Old o, s)
    else
      match each (copy_op f) (fun _ s => s) (controls g o) (put o (mkcopied [] [] None (option_map (fun n => (scope ++ n)%string) (frame g o))) s) with
      | None => None
      | Some (cs, s1) =>
        match each (copy_tensor f) (fun x => change o (add_input x)) (inputs g o) (change o (add_controls cs) s1) with
        | None => None
        | Some (_, s2) =>
          match copy_context f (context g o) s2 with
          | None => None
          | Some (c, s3) => Some (New o, change o (set_context c) s3)
          end
        end
      end
  end.
Proof. reflexivity. Qed.
Lemma copy_context_S : forall f c s, copy_context (S f) c s =
  match c with
  | None => Some (None, s)
  | Some c =>
    match each (copy_tensor f) (fun _ s => s) (values g c) s with
    | None => None
    | Some (_, s1) =>
      match context_copy g c s1 with
      | Some i => Some (Some i, s1)
      | None =>
        match copy_context f (outer g c) s1 with
        | None => None
        | Some (oc, s2) =>
          Some (Some (length (contexts s2)), mkstate (ops s2) (contexts s2 ++ [(c, oc)]) (if listed g c then kept s2 ++ [length (contexts s2)] else kept s2))
        end
      end
    end
  end.
Proof. reflexivity. Qed.

(** ** What a call leaves *)
Definition has (s : state) (o : nat) : Prop := lookup (ops s) o <> None.
(** The values of context [c] that are copied at all are there. *)
Definition has_values (s : state) (c : nat) : Prop := forall t, In t (values g c) -> image t = New t -> has s (fst t).

Definition complete (s : state) (o : nat) (r : copied) : Prop :=
  c_inputs r = map image (inputs g o) /\ c_controls r = map image_op (controls g o) /\
  c_frame r = option_map (fun f => (scope ++ f)%string) (frame g o) /\
  (forall t, In (New t) (c_inputs r) -> has s (fst t)) /\ (forall x, In (New x) (c_controls r) -> has s x) /\
  match context g o with None => c_context r = None | Some c => exists i b, c_context r = Some i /\ nth_error (contexts s) i = Some (c, b) end.

Record inv (s : state) : Prop := mkinv {
  i_kept : kept s = seq 0 (length (contexts s));
  i_once : forall i j c a b, nth_error (contexts s) i = Some (c, a) -> nth_error (contexts s) j = Some (c, b) -> i = j;
  i_outer : forall i c oc, nth_error (contexts s) i = Some (c, oc) ->
    match outer g c with None => oc = None | Some d => exists j b, oc = Some j /\ nth_error (contexts s) j = Some (d, b) end;
  i_values : forall i c oc, nth_error (contexts s) i = Some (c, oc) -> has_values s c
}.

Record post (x : option nat) (s s' : state) : Prop := mkpost {
  p_same : forall k r, x <> Some k -> lookup (ops s) k = Some r -> lookup (ops s') k = Some r;
  p_has : forall k, has s k -> has s' k;
  p_ctx : exists l, contexts s' = contexts s ++ l;
  p_new : forall k r, x <> Some k -> lookup (ops s) k = None -> lookup (ops s') k = Some r -> complete s' k r;
  p_inv : inv s'
}.

Lemma nth_ctx : forall (l l' : list (nat * option nat)) i v, nth_error l i = Some v -> nth_error (l ++ l') i = Some v.
Proof. intros l l' i v H. rewrite nth_error_app1; [exact H|]. apply nth_error_Some. congruence. Qed.

Lemma complete_mono : forall s s' o r, complete s o r -> (forall k, has s k -> has s' k) ->
  (exists l, contexts s' = contexts s ++ l) -> complete s' o r.
Proof.
  intros s s' o r (H1 & H2 & H3 & H4 & H5 & H6) Hh [l Hl]. repeat split; auto.
  destruct (context g o) as [c|]; [|exact H6]. destruct H6 as (i & b & E1 & E2). exists i, b. split; [exact E1|].
  rewrite Hl. apply nth_ctx. exact E2.
Qed.

Lemma post_refl : forall x s, inv s -> post x s s.
Proof. intros x s H. constructor; auto. - exists []. symmetry. apply app_nil_r. - intros k r _ E1 E2. congruence. Qed.

Lemma post_trans : forall x s s1 s2, post x s s1 -> post x s1 s2 -> post x s s2.
Proof.
  intros x s s1 s2 [A1 A2 [l1 A3] A4 A5] [C1 C2 [l2 C3] C4 C5]. constructor; auto.
  - exists (l1 ++ l2). rewrite C3, A3, app_assoc. reflexivity.
  - intros k r Hx E1 E2. destruct (lookup (ops s1) k) as [r1|] eqn:E.
    + rewrite (C1 k r1 Hx E) in E2. injection E2 as <-. apply (complete_mono s1); [apply A4; assumption|exact C2|exists l2; exact C3].
    + apply C4; assumption.
Qed.

Lemma post_weaken : forall o s s', post None s s' -> post (Some o) s s'.
Proof.
  intros o s s' [A1 A2 A3 A4 A5]. constructor; auto.
  - intros k r _. apply A1. discriminate.
  - intros k r _. apply A4. discriminate.
Qed.

(** ** Changing the operation under construction *)
Lemma lookup_put : forall o r s k, lookup (ops (put o r s)) k = if o =? k then Some r else lookup (ops s) k.
Proof. reflexivity. Qed.

Lemma inv_ops : forall s s', inv s -> contexts s' = contexts s -> kept s' = kept s -> (forall k, has s k -> has s' k) -> inv s'.
Proof.
  intros s s' [I1 I2 I3 I4] Hc Hk Hh. constructor.
  - rewrite Hk, Hc. exact I1.
  - rewrite Hc. exact I2.
  - rewrite Hc. exact I3.
  - intros i c oc E t Ht Hi. apply Hh. rewrite Hc in E. exact (I4 i c oc E t Ht Hi).
Qed.

Lemma post_put : forall o r s, inv s -> post (Some o) s (put o r s).
Proof.
  intros o r s I. assert (Hh : forall k, has s k -> has (put o r s) k).
  { intros k H. unfold has. rewrite lookup_put. destruct (o =? k); [discriminate|exact H]. }
  constructor.
  - intros k q Hk E. rewrite lookup_put. destruct (Nat.eqb_spec o k); [congruence|exact E].
  - exact Hh.
  - exists []. symmetry. apply app_nil_r.
  - intros k q Hk E1 E2. rewrite lookup_put in E2. destruct (Nat.eqb_spec o k); congruence.
  - apply (inv_ops s); auto.
Qed.

Lemma change_put : forall o f s r, lookup (ops s) o = Some r -> change o f s = put o (f r) s.
Proof. intros o f s r H. unfold change. rewrite H. reflexivity. Qed.

Lemma post_change : forall o f s, inv s -> post (Some o) s (change o f s).
Proof.
  intros o f s I. unfold change. destruct (lookup (ops s) o); [apply post_put; exact I|apply post_refl; exact I].
Qed.

(** ** The loops *)
(** States in which no placeholder or queue was copied: the images are what calls return. *)
Definition plain (s : state) : Prop := forall o, has s o -> placeholder g o = false /\ queue g o = false.

Lemma plain_put : forall o r s, plain s -> placeholder g o = false -> queue g o = false -> plain (put o r s).
Proof.
  intros o r s P H1 H2 k Hk. unfold has in Hk. rewrite lookup_put in Hk.
  destruct (Nat.eqb_spec o k) as [E|E]; [subst k; split; assumption|apply P; exact Hk].
Qed.

Lemma plain_change : forall o f s, plain s -> plain (change o f s).
Proof.
  intros o f s P. unfold change. destruct (lookup (ops s) o) eqn:E; [|exact P].
  destruct (P o) as [H1 H2]; [unfold has; congruence|]. apply plain_put; assumption.
Qed.

Definition T (f : nat) : Prop := forall t s r s', inv s -> plain s -> copy_tensor f t s = Some (r, s') ->
  post None s s' /\ plain s' /\ r = image t /\ (image t = New t -> has s' (fst t)).
Definition O (f : nat) : Prop := forall o s r s', inv s -> plain s -> placeholder g o = false -> copy_op f o s = Some (r, s') ->
  post None s s' /\ plain s' /\ r = image_op o /\ (image_op o = New o -> has s' o).
Definition X (f : nat) : Prop := forall c s r s', inv s -> plain s -> copy_context f c s = Some (r, s') ->
  post None s s' /\ plain s' /\
  match c with None => r = None | Some c => exists i b, r = Some i /\ nth_error (contexts s') i = Some (c, b) end.

Lemma each_controls : forall f l s bs s', O f -> inv s -> plain s -> (forall x, In x l -> placeholder g x = false) ->
  each (copy_op f) (fun _ s => s) l s = Some (bs, s') ->
  post None s s' /\ plain s' /\ bs = map image_op l /\ (forall x, In x l -> image_op x = New x -> has s' x).
Proof.
  intros f. induction l as [|x l IH]; intros s bs s' HO I P Hp E; cbn in E.
  - injection E as <- <-. split; [apply post_refl; exact I|]. split; [exact P|]. split; [reflexivity|intros x []].
  - destruct (copy_op f x s) as [[b s1]|] eqn:E1; [|discriminate].
    destruct (HO x s b s1 I P (Hp x (or_introl eq_refl)) E1) as (A1 & A2 & A3 & A4).
    destruct (each (copy_op f) (fun _ s => s) l s1) as [[bs2 s2]|] eqn:E2; [|discriminate]. injection E as <- <-.
    destruct (IH s1 bs2 s2 HO (p_inv _ _ _ A1) A2 (fun y Hy => Hp y (or_intror Hy)) E2) as (C1 & C2 & C3 & C4).
    split; [exact (post_trans _ _ _ _ A1 C1)|]. split; [exact C2|]. split; [cbn; congruence|].
    intros y [<-|Hy] Hi; [apply (p_has _ _ _ C1); apply A4; exact Hi|apply C4; assumption].
Qed.

Lemma each_values : forall f l s bs s', T f -> inv s -> plain s ->
  each (copy_tensor f) (fun _ s => s) l s = Some (bs, s') ->
  post None s s' /\ plain s' /\ (forall x, In x l -> image x = New x -> has s' (fst x)).
Proof.
  intros f. induction l as [|x l IH]; intros s bs s' HT I P E; cbn in E.
  - injection E as <- <-. split; [apply post_refl; exact I|]. split; [exact P|intros x []].
  - destruct (copy_tensor f x s) as [[b s1]|] eqn:E1; [|discriminate].
    destruct (HT x s b s1 I P E1) as (A1 & A2 & A3 & A4).
    destruct (each (copy_tensor f) (fun _ s => s) l s1) as [[bs2 s2]|] eqn:E2; [|discriminate]. injection E as <- <-.
    destruct (IH s1 bs2 s2 HT (p_inv _ _ _ A1) A2 E2) as (C1 & C2 & C4).
    split; [exact (post_trans _ _ _ _ A1 C1)|]. split; [exact C2|].
    intros y [<-|Hy] Hi; [apply (p_has _ _ _ C1); apply A4; exact Hi|apply C4; assumption].
Qed.

Lemma each_inputs : forall f o l s bs s' r, T f -> inv s -> plain s -> lookup (ops s) o = Some r ->
  each (copy_tensor f) (fun x => change o (add_input x)) l s = Some (bs, s') ->
  post (Some o) s s' /\ plain s' /\ (forall x, In x l -> image x = New x -> has s' (fst x)) /\
  lookup (ops s') o = Some (mkcopied (c_inputs r ++ map image l) (c_controls r) (c_context r) (c_frame r)).
Proof.
  intros f o. induction l as [|x l IH]; intros s bs s' r HT I P Hr E; cbn in E.
  - injection E as <- <-. split; [apply post_refl; exact I|]. split; [exact P|]. split; [intros x []|].
    cbn. rewrite app_nil_r. destruct r; exact Hr.
  - destruct (copy_tensor f x s) as [[b s1]|] eqn:E1; [|discriminate].
    destruct (HT x s b s1 I P E1) as (A1 & A2 & A3 & A4).
    pose proof (p_same _ _ _ A1 o r ltac:(discriminate) Hr) as Hr1.
    rewrite (change_put o _ s1 r Hr1) in E.
    pose proof (post_put o (add_input b r) s1 (p_inv _ _ _ A1)) as A5.
    destruct (each (copy_tensor f) _ l _) as [[bs2 s2]|] eqn:E2; [|discriminate]. injection E as <- <-.
    destruct (IH (put o (add_input b r) s1) bs2 s2 (add_input b r) HT (p_inv _ _ _ A5)) as (C1 & C2 & C3 & C4); [| |exact E2|].
    { rewrite <- (change_put o (add_input b) s1 r Hr1). apply plain_change. exact A2. }
    { rewrite lookup_put, Nat.eqb_refl. reflexivity. }
    split; [exact (post_trans _ _ _ _ (post_weaken _ _ _ A1) (post_trans _ _ _ _ A5 C1))|]. split; [exact C2|]. split.
    + intros y [<-|Hy] Hi; [apply (p_has _ _ _ C1), (p_has _ _ _ A5); apply A4; exact Hi|apply C3; assumption].
    + rewrite C4. cbn. rewrite <- app_assoc. rewrite A3. reflexivity.
Qed.

(** ** One more context *)
Lemma has_direct : forall s c, has_values s c -> forall o, context g o = Some c -> has s o.
Proof. intros s c H o Ho. destruct (b_own _ _ _ _ B o c Ho) as (i & H1 & H2). exact (H (o, i) H1 H2). Qed.

Lemma within_lt : forall c d, within c d -> c <= d.
Proof. intros c d H. induction H as [|d e E _ IH]; [lia|]. apply (b_outer _ _ _ _ B) in E. lia. Qed.

(** While the contexts around [c] are copied nothing in [c] is. *)
Definition untouched (c : nat) (s s' : state) : Prop :=
  forall i d a, length (contexts s) <= i -> nth_error (contexts s') i = Some (d, a) -> ~ within c d.

Definition direct (c : nat) (s : state) : Prop := forall o, context g o = Some c -> has s o.

Record mono (s s' : state) : Prop := mkmono { mo_has : forall k, has s k -> has s' k; mo_ctx : exists l, contexts s' = contexts s ++ l }.
Lemma mono_refl : forall s, mono s s.
Proof. intros s. constructor; auto. exists []. symmetry. apply app_nil_r. Qed.
Lemma mono_trans : forall s s1 s2, mono s s1 -> mono s1 s2 -> mono s s2.
Proof. intros s s1 s2 [A1 [l1 A2]] [C1 [l2 C2]]. constructor; auto. exists (l1 ++ l2). rewrite C2, A2, app_assoc. reflexivity. Qed.
Lemma mono_put : forall o r s, mono s (put o r s).
Proof.
  intros o r s. constructor; [|exists []; symmetry; apply app_nil_r].
  intros k H. unfold has. rewrite lookup_put. destruct (o =? k); [discriminate|exact H].
Qed.
Lemma mono_change : forall o f s, mono s (change o f s).
Proof. intros o f s. unfold change. destruct (lookup (ops s) o); [apply mono_put|apply mono_refl]. Qed.

Lemma untouched_trans : forall c s s1 s2, mono s s1 -> mono s1 s2 -> untouched c s s1 -> untouched c s1 s2 -> untouched c s s2.
Proof.
  intros c s s1 s2 _ [_ [l2 M2]] U1 U2 i d a Hi E.
  destruct (le_lt_dec (length (contexts s1)) i) as [L|L]; [exact (U2 i d a L E)|].
  apply (U1 i d a Hi). rewrite M2, nth_error_app1 in E by exact L. exact E.
Qed.
Lemma untouched_same : forall c s s', contexts s' = contexts s -> untouched c s s'.
Proof. intros c s s' H i d a L E. rewrite H in E. apply nth_error_None in L. congruence. Qed.
Lemma change_ctx : forall o f s, contexts (change o f s) = contexts s.
Proof. intros o f s. unfold change. destruct (lookup (ops s) o); reflexivity. Qed.

Definition grows (c : nat) (s s' : state) : Prop := mono s s' /\ untouched c s s'.
Lemma grows_refl : forall c s, grows c s s.
Proof. intros c s. split; [apply mono_refl|apply untouched_same; reflexivity]. Qed.
Lemma grows_trans : forall c s s1 s2, grows c s s1 -> grows c s1 s2 -> grows c s s2.
Proof. intros c s s1 s2 [A1 A2] [C1 C2]. split; [exact (mono_trans _ _ _ A1 C1)|exact (untouched_trans _ _ _ _ A1 C1 A2 C2)]. Qed.
Lemma grows_change : forall c o f s, grows c s (change o f s).
Proof. intros c o f s. split; [apply mono_change|apply untouched_same, change_ctx]. Qed.
Lemma direct_mono : forall c s s', mono s s' -> direct c s -> direct c s'.
Proof. intros c s s' M D o Ho. apply (mo_has _ _ M). exact (D o Ho). Qed.

Lemma each_grows : forall (A C : Type) (f : A -> state -> option (C * state)) act (ok : A -> Prop) c,
  (forall x s r s', ok x -> direct c s -> f x s = Some (r, s') -> grows c s s') -> (forall b s, grows c s (act b s)) ->
  forall l s bs s', (forall x, In x l -> ok x) -> direct c s -> each f act l s = Some (bs, s') -> grows c s s'.
Proof.
  intros A C f act ok c Hf Ha. induction l as [|x l IH]; intros s bs s' Hl D E; cbn in E.
  - injection E as _ <-. apply grows_refl.
  - destruct (f x s) as [[b s1]|] eqn:E1; [|discriminate E].
    assert (G1 : grows c s s1) by (eapply Hf; [apply Hl; left; reflexivity|exact D|exact E1]).
    destruct (each f act l (act b s1)) as [[bs2 s2]|] eqn:E2; [|discriminate E]. injection E as _ <-.
    assert (G2 : grows c s1 (act b s1)) by apply Ha.
    assert (G3 : grows c (act b s1) s2).
    { eapply IH; [intros y Hy; apply Hl; right; exact Hy| |exact E2]. eapply direct_mono; [exact (proj1 G2)|].
      eapply direct_mono; [exact (proj1 G1)|exact D]. }
    exact (grows_trans _ _ _ _ G1 (grows_trans _ _ _ _ G2 G3)).
Qed.

Definition allowed (c o : nat) : Prop := inside c o -> context g o = Some c.

Lemma window : forall c f,
  (forall t s r s', allowed c (fst t) -> direct c s -> copy_tensor f t s = Some (r, s') -> grows c s s') /\
  (forall o s r s', allowed c o -> direct c s -> copy_op f o s = Some (r, s') -> grows c s s') /\
  (forall x s r s', (forall d, x = Some d -> ~ within c d) -> direct c s -> copy_context f x s = Some (r, s') -> grows c s s').
Proof.
  intros c. induction f as [|f (IT & IO & IX)]; [split; [|split]; intros; match goal with E : _ = Some _ |- _ => discriminate E end|]. split; [|split].
  - intros t s r s' Ha D E. rewrite copy_tensor_S in E. destruct (swap t); [injection E as _ <-; apply grows_refl|].
    destruct (variable g t); [injection E as _ <-; apply grows_refl|].
    destruct (lookup (ops s) (fst t)); [injection E as _ <-; apply grows_refl|].
    destruct (placeholder g (fst t)); [injection E as _ <-; apply grows_refl|].
    destruct (copy_op f (fst t) s) as [[[o|o] s1]|] eqn:E1; [| |discriminate E]; injection E as _ <-; eapply IO; eassumption.
  - intros o s r s' Ha D E. rewrite copy_op_S in E. destruct (lookup (ops s) o) as [q|] eqn:Eo; [injection E as _ <-; apply grows_refl|].
    destruct (queue g o); [injection E as _ <-; apply grows_refl|].
    assert (No : ~ inside c o). { intros Hi. apply (D o (Ha Hi)). exact Eo. }
    set (s0 := put o _ s) in E.
    assert (G0 : grows c s s0) by (split; [apply mono_put|apply untouched_same; reflexivity]).
    assert (D0 : direct c s0) by (eapply direct_mono; [exact (proj1 G0)|exact D]).
    destruct (each (copy_op f) _ (controls g o) s0) as [[cs s1]|] eqn:E1; [|discriminate E].
    assert (G1 : grows c s0 s1).
    { eapply (each_grows _ _ (copy_op f) _ (allowed c) c); [intros; eapply IO; eassumption|intros; apply grows_refl| |exact D0|exact E1].
      intros x Hx Hi. exact (b_level_controls _ _ _ _ B c o x No Hx Hi). }
    assert (D1 : direct c s1) by (eapply direct_mono; [exact (proj1 G1)|exact D0]).
    pose proof (grows_change c o (add_controls cs) s1) as G1'.
    assert (D1' : direct c (change o (add_controls cs) s1)) by (eapply direct_mono; [exact (proj1 G1')|exact D1]).
    destruct (each (copy_tensor f) _ (inputs g o) _) as [[bs s2]|] eqn:E2; [|discriminate E].
    assert (G2 : grows c (change o (add_controls cs) s1) s2).
    { eapply (each_grows _ _ (copy_tensor f) _ (fun t => allowed c (fst t)) c);
        [intros; eapply IT; eassumption|intros; apply grows_change| |exact D1'|exact E2].
      intros x Hx Hi. exact (b_level_inputs _ _ _ _ B c o x No Hx Hi). }
    assert (D2 : direct c s2) by (eapply direct_mono; [exact (proj1 G2)|exact D1']).
    destruct (copy_context f (context g o) s2) as [[cx s3]|] eqn:E3; [|discriminate E]. injection E as _ <-.
    assert (G3 : grows c s2 s3).
    { eapply IX; [|exact D2|exact E3]. intros d Hd Hw. apply No. exists d. split; assumption. }
    eapply grows_trans; [exact G0|]. eapply grows_trans; [exact G1|]. eapply grows_trans; [exact G1'|].
    eapply grows_trans; [exact G2|]. eapply grows_trans; [exact G3|]. apply grows_change.
  - intros x s r s' Hx D E. rewrite copy_context_S in E. destruct x as [d|]; [|injection E as _ <-; apply grows_refl].
    specialize (Hx d eq_refl).
    destruct (each (copy_tensor f) _ (values g d) s) as [[bs s1]|] eqn:E1; [|discriminate E].
    assert (G1 : grows c s s1).
    { eapply (each_grows _ _ (copy_tensor f) _ (fun t => allowed c (fst t)) c);
        [intros; eapply IT; eassumption|intros; apply grows_refl| |exact D|exact E1].
      intros t Ht Hi. exact (b_level_values _ _ _ _ B c d t Hx Ht Hi). }
    assert (D1 : direct c s1) by (eapply direct_mono; [exact (proj1 G1)|exact D]).
    destruct (context_copy g d s1); [injection E as _ <-; exact G1|].
    destruct (copy_context f (outer g d) s1) as [[oc s2]|] eqn:E2; [|discriminate E]. injection E as _ <-.
    assert (G2 : grows c s1 s2).
    { eapply IX; [|exact D1|exact E2]. intros e He Hw. apply Hx. eapply w_up; eassumption. }
    eapply grows_trans; [exact G1|]. eapply grows_trans; [exact G2|]. split.
    + constructor; [auto|]. eexists. reflexivity.
    + intros i k a Hi Ei. cbn in Ei. rewrite nth_error_app2 in Ei by exact Hi.
      destruct (i - length (contexts s2)) as [|j]; cbn in Ei; [|destruct j; discriminate]. injection Ei as <- _. exact Hx.
Qed.

Lemma context_copy_none : forall s c, inv s -> context_copy g c s = None -> forall i b, nth_error (contexts s) i <> Some (c, b).
Proof.
  intros s c I E i b Hi. unfold context_copy in E. rewrite (b_listed _ _ _ _ B) in E.
  assert (L : i < length (contexts s)) by (apply nth_error_Some; congruence).
  pose proof (find_none _ _ E i) as F. rewrite (i_kept _ I) in F. specialize (F ltac:(apply in_seq; lia)).
  cbn in F. rewrite Hi, Nat.eqb_refl in F. discriminate.
Qed.

Lemma context_copy_some : forall s c i, inv s -> context_copy g c s = Some i -> exists b, nth_error (contexts s) i = Some (c, b).
Proof.
  intros s c i I E. unfold context_copy in E. rewrite (b_listed _ _ _ _ B) in E. apply find_some in E. destruct E as [_ E].
  destruct (nth_error (contexts s) i) as [[k b]|]; [|discriminate]. apply Nat.eqb_eq in E. subst. exists b. reflexivity.
Qed.

(** ** All three together *)
Lemma all_ok : forall f, T f /\ O f /\ X f.
Proof.
  induction f as [|f (IT & IO & IX)]; [split; [|split]; unfold T, O, X; intros; match goal with E : _ = Some _ |- _ => discriminate E end|]. split; [|split].
  - intros t s r s' I P E. rewrite copy_tensor_S in E. unfold CopyLoopSpec.image.
    destruct (swap t) as [t'|] eqn:Es.
    { injection E as <- <-. split; [apply post_refl; exact I|]. split; [exact P|]. split; [reflexivity|discriminate]. }
    destruct (variable g t) eqn:Ev.
    { injection E as <- <-. cbn [orb]. split; [apply post_refl; exact I|]. split; [exact P|]. split; [reflexivity|discriminate]. }
    destruct (lookup (ops s) (fst t)) as [q|] eqn:El.
    { injection E as <- <-. destruct (P (fst t)) as [H1 H2]; [unfold has; congruence|]. rewrite H1, H2. cbn [orb].
      split; [apply post_refl; exact I|]. split; [exact P|]. split; [reflexivity|]. intros _. unfold has. congruence. }
    destruct (placeholder g (fst t)) eqn:Ep.
    { injection E as <- <-. cbn [orb]. split; [apply post_refl; exact I|]. split; [exact P|]. split; [reflexivity|discriminate]. }
    cbn [orb]. destruct (copy_op f (fst t) s) as [[o s1]|] eqn:E1; [|discriminate].
    destruct (IO (fst t) s o s1 I P Ep E1) as (A1 & A2 & A3 & A4). unfold CopyLoopSpec.image_op in *.
    destruct t as [k j]. cbn [fst snd] in *.
    destruct (queue g k); subst o; injection E as <- <-; (split; [exact A1|]); (split; [exact A2|]); (split; [reflexivity|]).
    + discriminate.
    + intros _. apply A4. reflexivity.
  - intros o s r s' I P Hp E. rewrite copy_op_S in E. unfold CopyLoopSpec.image_op.
    destruct (lookup (ops s) o) as [q|] eqn:El.
    { injection E as <- <-. destruct (P o) as [H1 H2]; [unfold has; congruence|]. rewrite H2.
      split; [apply post_refl; exact I|]. split; [exact P|]. split; [reflexivity|]. intros _. unfold has. congruence. }
    destruct (queue g o) eqn:Eq.
    { injection E as <- <-. split; [apply post_refl; exact I|]. split; [exact P|]. split; [reflexivity|discriminate]. }
    set (r0 := mkcopied [] [] None (option_map (fun n => (scope ++ n)%string) (frame g o))) in E.
    pose proof (post_put o r0 s I) as G0. set (s0 := put o r0 s) in *.
    assert (P0 : plain s0) by (apply plain_put; assumption).
    destruct (each (copy_op f) _ (controls g o) s0) as [[cs s1]|] eqn:E1; [|discriminate].
    destruct (each_controls f _ _ _ _ IO (p_inv _ _ _ G0) P0 (b_no_placeholder _ _ _ _ B o) E1) as (G1 & P1 & Hcs & H1).
    assert (L1 : lookup (ops s1) o = Some r0).
    { apply (p_same _ _ _ G1); [discriminate|]. unfold s0. rewrite lookup_put, Nat.eqb_refl. reflexivity. }
    pose proof (post_change o (add_controls cs) s1 (p_inv _ _ _ G1)) as G1'.
    pose proof (plain_change o (add_controls cs) s1 P1) as P1'.
    rewrite (change_put o _ s1 r0 L1) in E, G1', P1'. set (s1' := put o (add_controls cs r0) s1) in *.
    assert (L1' : lookup (ops s1') o = Some (add_controls cs r0)) by (unfold s1'; rewrite lookup_put, Nat.eqb_refl; reflexivity).
    destruct (each (copy_tensor f) _ (inputs g o) s1') as [[bs s2]|] eqn:E2; [|discriminate].
    destruct (each_inputs f o _ _ _ _ _ IT (p_inv _ _ _ G1') P1' L1' E2) as (G2 & P2 & H2 & L2).
    destruct (copy_context f (context g o) s2) as [[cx s3]|] eqn:E3; [|discriminate]. injection E as <- <-.
    destruct (IX _ _ _ _ (p_inv _ _ _ G2) P2 E3) as (G3 & P3 & H3).
    pose proof (p_same _ _ _ G3 o _ ltac:(discriminate) L2) as L3.
    pose proof (post_change o (set_context cx) s3 (p_inv _ _ _ G3)) as G4.
    pose proof (plain_change o (set_context cx) s3 P3) as P4.
    rewrite (change_put o _ s3 _ L3) in *.
    match goal with |- post None s ?x /\ _ => set (s4 := x) in * end.
    assert (L4 : lookup (ops s4) o = Some (mkcopied (map image (inputs g o)) (map image_op (controls g o)) cx (option_map (fun f => (scope ++ f)%string) (frame g o)))).
    { unfold s4. rewrite lookup_put, Nat.eqb_refl. cbn. rewrite Hcs. reflexivity. }
    assert (G : post (Some o) s s4).
    { eapply post_trans; [exact G0|]. eapply post_trans; [exact (post_weaken _ _ _ G1)|]. eapply post_trans; [exact G1'|].
      eapply post_trans; [exact G2|]. eapply post_trans; [exact (post_weaken _ _ _ G3)|]. exact G4. }
    split; [|split; [exact P4|split; [reflexivity|intros _; unfold has; congruence]]].
    destruct G as [A1 A2 A3 A4 A5]. constructor; auto.
    + intros k q _ Ek. apply A1; [|exact Ek]. intros Z. injection Z as <-. congruence.
    + intros k q _ Ek Ek'. destruct (Nat.eq_dec k o) as [->|Nk]; [|apply A4; [congruence|exact Ek|exact Ek']].
      rewrite L4 in Ek'. injection Ek' as <-. unfold complete. cbn [c_inputs c_controls c_context c_frame].
      split; [reflexivity|]. split; [reflexivity|]. split; [reflexivity|]. split; [|split].
      * intros t Ht. apply in_map_iff in Ht. destruct Ht as (t0 & Ht0 & Hin).
        assert (t0 = t). { unfold CopyLoopSpec.image in Ht0. destruct (swap t0); [discriminate|]. destruct (_ || _ || _); congruence. }
        subst t0. apply (p_has _ _ _ G4), (p_has _ _ _ G3). apply H2; assumption.
      * intros x Hx. apply in_map_iff in Hx. destruct Hx as (x0 & Hx0 & Hin).
        assert (x0 = x). { unfold CopyLoopSpec.image_op in Hx0. destruct (queue g x0); congruence. }
        subst x0. apply (p_has _ _ _ G4), (p_has _ _ _ G3), (p_has _ _ _ G2), (p_has _ _ _ G1'). apply H1; assumption.
      * destruct (context g o) as [c|]; [|exact H3]. destruct H3 as (i & b & H3 & H4). exists i, b. split; [exact H3|exact H4].
  - intros c s r s' I P E. rewrite copy_context_S in E. destruct c as [c|].
    2: { injection E as <- <-. split; [apply post_refl; exact I|]. split; [exact P|reflexivity]. }
    destruct (each (copy_tensor f) _ (values g c) s) as [[bs s1]|] eqn:E1; [|discriminate].
    destruct (each_values f _ _ _ _ IT I P E1) as (G1 & P1 & H1).
    destruct (context_copy g c s1) as [i|] eqn:Ec.
    { injection E as <- <-. split; [exact G1|]. split; [exact P1|].
      destruct (context_copy_some s1 c i (p_inv _ _ _ G1) Ec) as [b Hb]. exists i, b. split; [reflexivity|exact Hb]. }
    pose proof (context_copy_none s1 c (p_inv _ _ _ G1) Ec) as Hn.
    destruct (copy_context f (outer g c) s1) as [[oc s2]|] eqn:E2; [|discriminate]. injection E as <- <-.
    destruct (IX _ _ _ _ (p_inv _ _ _ G1) P1 E2) as (G2 & P2 & H2).
    destruct (window c f) as (_ & _ & W).
    assert (U : grows c s1 s2).
    { eapply W; [|exact (has_direct s1 c H1)|exact E2]. intros d Hd Hw. apply within_lt in Hw. apply (b_outer _ _ _ _ B) in Hd. lia. }
    assert (Hn2 : forall i b, nth_error (contexts s2) i <> Some (c, b)).
    { intros i b Hi. destruct (le_lt_dec (length (contexts s1)) i) as [L|L].
      - exact (proj2 U i c b L Hi (w_self g c)).
      - destruct U as [[_ [l Hl]] _]. rewrite Hl, nth_error_app1 in Hi by exact L. exact (Hn i b Hi). }
    rewrite (b_listed _ _ _ _ B). set (i := length (contexts s2)) in *.
    set (s3 := mkstate (ops s2) (contexts s2 ++ [(c, oc)]) (kept s2 ++ [i])).
    assert (Hh : forall k, has s2 k -> has s3 k) by (intros k Hk; exact Hk).
    assert (Ni : nth_error (contexts s3) i = Some (c, oc)).
    { cbn. rewrite nth_error_app2 by (unfold i; lia). unfold i. rewrite Nat.sub_diag. reflexivity. }
    assert (Inv : forall j v, nth_error (contexts s3) j = Some v -> nth_error (contexts s2) j = Some v \/ (j = i /\ v = (c, oc))).
    { intros j v Ej. cbn in Ej. destruct (le_lt_dec i j) as [L|L].
      - rewrite nth_error_app2 in Ej by exact L. right. destruct (j - length (contexts s2)) as [|k] eqn:Z; cbn in Ej.
        + injection Ej as <-. split; [unfold i in *; lia|reflexivity].
        + destruct k; discriminate.
      - rewrite nth_error_app1 in Ej by exact L. left. exact Ej. }
    destruct (p_inv _ _ _ G2) as [I1 I2 I3 I4].
    assert (G3 : post None s2 s3).
    { constructor; auto.
      - exists [(c, oc)]. reflexivity.
      - intros k q _ Ek Ek'. cbn in Ek'. congruence.
      - constructor.
        + cbn. rewrite I1, app_length. cbn. rewrite seq_app. cbn. reflexivity.
        + intros j k d a b Ej Ek. apply Inv in Ej. apply Inv in Ek. destruct Ej as [Ej|[-> Ej]], Ek as [Ek|[-> Ek]].
          * exact (I2 j k d a b Ej Ek).
          * injection Ek as -> ->. destruct (Hn2 j a Ej).
          * injection Ej as -> ->. destruct (Hn2 k b Ek).
          * reflexivity.
        + intros j d a Ej. apply Inv in Ej. destruct Ej as [Ej|[-> Ej]].
          * specialize (I3 j d a Ej). destruct (outer g d); [|exact I3]. destruct I3 as (k & b & H3 & H4). exists k, b.
            split; [exact H3|]. apply nth_ctx. exact H4.
          * injection Ej as -> ->. destruct (outer g c); [|exact H2]. destruct H2 as (k & b & H3 & H4). exists k, b.
            split; [exact H3|]. apply nth_ctx. exact H4.
        + intros j d a Ej. apply Inv in Ej. destruct Ej as [Ej|[-> Ej]].
          * exact (I4 j d a Ej).
          * injection Ej as -> ->. intros t Ht Hi. apply Hh, (p_has _ _ _ G2). apply H1; assumption. }
    split; [exact (post_trans _ _ _ _ G1 (post_trans _ _ _ _ G2 G3))|]. split; [exact P2|].
    exists i, oc. split; [reflexivity|exact Ni].
Qed.

Lemma inv_empty : inv empty.
Proof. constructor; [reflexivity| | |]; intros; destruct i; discriminate. Qed.

(** The copy of a context at the end. *)
Definition copy_of (s : state) (c : nat) : option nat := context_copy g c s.

Lemma mirror_of : forall s, inv s -> (forall o r, lookup (ops s) o = Some r -> complete s o r) -> mirror g swap scope s (copy_of s).
Proof.
  intros s I H.
  assert (F : forall i c b, nth_error (contexts s) i = Some (c, b) -> copy_of s c = Some i).
  { intros i c b E. unfold copy_of. destruct (context_copy g c s) as [j|] eqn:Ec.
    - destruct (context_copy_some s c j I Ec) as [b' Hb]. f_equal. exact (i_once _ I _ _ _ _ _ Hb E).
    - destruct (context_copy_none s c I Ec i b E). }
  constructor.
  - intros o r E. apply H in E. apply E.
  - intros o r E. apply H in E. apply E.
  - intros o r E. apply H in E. apply E.
  - intros o r E. apply H in E. destruct E as (_ & _ & _ & _ & _ & E). destruct (context g o) as [c|]; [|exact E].
    destruct E as (i & b & E1 & E2). exists i. split; [exact E1|]. exact (F i c b E2).
  - intros o r t E. apply H in E. apply E.
  - intros o r t E. apply H in E. apply E.
  - intros c i E. destruct (context_copy_some s c i I E) as [b Hb]. exists b. split; [exact Hb|].
    pose proof (i_outer _ I i c b Hb) as Ho. destruct (outer g c) as [d|]; [|exact Ho].
    destruct Ho as (j & b' & H1 & H2). exists j. split; [exact H1|]. exact (F j d b' H2).
  - exact F.
  - intros c i t E Ht Hi. destruct (context_copy_some s c i I E) as [b Hb]. exact (i_values _ I i c b Hb t Ht Hi).
Qed.

Lemma copy_mirrors : forall f t r s, copy_tensor f t empty = Some (r, s) ->
  r = image t /\ (image t = New t -> exists_copy s (fst t)) /\ mirror g swap scope s (copy_of s).
Proof.
  intros f t r s E. destruct (all_ok f) as (HT & _ & _).
  destruct (HT t empty r s inv_empty ltac:(intros o Ho; destruct Ho; reflexivity) E) as (G & _ & Hr & Hh).
  split; [exact Hr|]. split; [exact Hh|]. apply mirror_of; [exact (p_inv _ _ _ G)|].
  intros o q Eo. apply (p_new _ _ _ G); [discriminate|reflexivity|exact Eo].
Qed.

(** ** Termination *)
(** How many operations are not copied yet. *)
Definition left (s : state) : nat := length (filter (fun o => match lookup (ops s) o with None => true | Some _ => false end) (seq 0 n)).

Lemma filter_le : forall (A : Type) (p q : A -> bool) l, (forall x, p x = true -> q x = true) -> length (filter p l) <= length (filter q l).
Proof.
  intros A p q l H. induction l as [|x l IH]; [apply le_n|]. cbn. specialize (H x).
  destruct (p x), (q x); cbn; try lia; specialize (H eq_refl); discriminate H.
Qed.
Lemma filter_lt : forall (A : Type) (p q : A -> bool) l y, (forall x, p x = true -> q x = true) -> In y l -> p y = false -> q y = true ->
  length (filter p l) < length (filter q l).
Proof.
  intros A p q l y H. induction l as [|x l IH]; [intros []|]. intros [->|Hy] Hp Hq.
  - cbn. rewrite Hp, Hq. cbn. pose proof (filter_le A p q l H). lia.
  - specialize (IH Hy Hp Hq). cbn. specialize (H x). destruct (p x), (q x); cbn; try lia; specialize (H eq_refl); discriminate H.
Qed.

Lemma left_mono : forall s s', (forall k, has s k -> has s' k) -> left s' <= left s.
Proof.
  intros s s' H. apply filter_le. intros x E. specialize (H x). unfold has in H.
  destruct (lookup (ops s') x); [discriminate|]. destruct (lookup (ops s) x); [exfalso; apply H; [discriminate|reflexivity]|reflexivity].
Qed.
Lemma left_put : forall s o r, lookup (ops s) o = None -> o < n -> left (put o r s) < left s.
Proof.
  intros s o r E Ho. apply (filter_lt _ _ _ _ o).
  - intros x Hx. rewrite lookup_put in Hx. destruct (o =? x); [discriminate|exact Hx].
  - apply in_seq. lia.
  - rewrite lookup_put, Nat.eqb_refl. reflexivity.
  - rewrite E. reflexivity.
Qed.

Definition ready (k : nat) (s : state) : Prop := inv s /\ plain s /\ left s <= k.

Lemma each_total : forall (A C : Type) (f : A -> state -> option (C * state)) act k l,
  (forall x s, In x l -> ready k s -> exists r s', f x s = Some (r, s') /\ ready k s') ->
  (forall b s, ready k s -> ready k (act b s)) ->
  forall s, ready k s -> exists bs s', each f act l s = Some (bs, s') /\ ready k s'.
Proof.
  intros A C f act k. induction l as [|x l IH]; intros Hf Ha s R.
  - exists [], s. split; [reflexivity|exact R].
  - destruct (Hf x s (or_introl eq_refl) R) as (b & s1 & E1 & R1).
    destruct (IH (fun y s Hy => Hf y s (or_intror Hy)) Ha (act b s1) (Ha b s1 R1)) as (bs & s2 & E2 & R2).
    exists (b :: bs), s2. cbn. rewrite E1, E2. split; [reflexivity|exact R2].
Qed.

Lemma ready_change : forall k o f s, ready k s -> ready k (change o f s).
Proof.
  intros k o f s (I & P & L). pose proof (post_change o f s I) as G. split; [exact (p_inv _ _ _ G)|].
  split; [apply plain_change; exact P|]. pose proof (left_mono s _ (p_has _ _ _ G)). lia.
Qed.
Lemma ready_post : forall k x s s', ready k s -> post x s s' -> plain s' -> ready k s'.
Proof.
  intros k x s s' (I & P & L) G P'. split; [exact (p_inv _ _ _ G)|]. split; [exact P'|].
  pose proof (left_mono s s' (p_has _ _ _ G)). lia.
Qed.

Lemma total : forall f,
  (forall k t s, fst t < n -> ready k s -> 2 + k * (m + 3) <= f -> exists r s', copy_tensor f t s = Some (r, s') /\ ready k s') /\
  (forall k o s, o < n -> placeholder g o = false -> ready k s -> 1 + k * (m + 3) <= f -> exists r s', copy_op f o s = Some (r, s') /\ ready k s') /\
  (forall k c s, (forall d, c = Some d -> d < m) -> ready k s -> match c with Some d => 3 + d | None => 1 end + k * (m + 3) <= f ->
     exists r s', copy_context f c s = Some (r, s') /\ ready k s').
Proof.
  induction f as [|f (IT & IO & IX)]; [split; [|split]; intros; try (destruct c as [c|]); lia|]. split; [|split].
  - intros k t s Ht R Hf. rewrite copy_tensor_S.
    destruct (swap t); [eexists; eexists; split; [reflexivity|exact R]|].
    destruct (variable g t); [eexists; eexists; split; [reflexivity|exact R]|].
    destruct (lookup (ops s) (fst t)); [eexists; eexists; split; [reflexivity|exact R]|].
    destruct (placeholder g (fst t)) eqn:Ep; [eexists; eexists; split; [reflexivity|exact R]|].
    destruct (IO k (fst t) s Ht Ep R ltac:(lia)) as (r & s1 & E1 & R1). rewrite E1.
    destruct r; eexists; eexists; (split; [reflexivity|exact R1]).
  - intros k o s Ho Hp R Hf. rewrite copy_op_S.
    destruct (lookup (ops s) o) as [q|] eqn:El; [eexists; eexists; split; [reflexivity|exact R]|].
    destruct (queue g o) eqn:Eq; [eexists; eexists; split; [reflexivity|exact R]|].
    set (s0 := put o _ s). destruct R as (I & P & L).
    assert (Lt : left s0 < left s) by (apply left_put; assumption).
    destruct k as [|k]; [lia|].
    assert (R0 : ready k s0).
    { split; [exact (p_inv _ _ _ (post_put o _ s I))|]. split; [apply plain_put; assumption|lia]. }
    assert (Hk : 2 + m + k * (m + 3) <= f) by (cbn in Hf; lia).
    destruct (each_total _ _ (copy_op f) (fun _ s => s) k (controls g o)) with (s := s0) as (cs & s1 & E1 & R1); [| |exact R0|].
    { intros x s' Hx R'. apply IO; [exact (b_controls _ _ _ _ B o x Hx)|exact (b_no_placeholder _ _ _ _ B o x Hx)|exact R'|lia]. }
    { intros b s' R'. exact R'. }
    rewrite E1.
    destruct (each_total _ _ (copy_tensor f) (fun x => change o (add_input x)) k (inputs g o)) with (s := change o (add_controls cs) s1) as (bs & s2 & E2 & R2).
    { intros x s' Hx R'. apply IT; [exact (b_inputs _ _ _ _ B o x Hx)|exact R'|lia]. }
    { intros b s' R'. apply ready_change. exact R'. }
    { apply ready_change. exact R1. }
    rewrite E2.
    destruct (IX k (context g o) s2) as (cx & s3 & E3 & R3); [intros d Hd; exact (b_context _ _ _ _ B o d Hd)|exact R2| |].
    { destruct (context g o) as [d|] eqn:Ec; [|lia]. pose proof (b_context _ _ _ _ B o d Ec). lia. }
    rewrite E3. eexists; eexists; split; [reflexivity|]. apply ready_change.
    destruct R3 as (I3 & P3 & L3). split; [exact I3|]. split; [exact P3|lia].
  - intros k c s Hc R Hf. rewrite copy_context_S. destruct c as [c|]; [|eexists; eexists; split; [reflexivity|exact R]].
    specialize (Hc c eq_refl).
    destruct (each_total _ _ (copy_tensor f) (fun _ s => s) k (values g c)) with (s := s) as (bs & s1 & E1 & R1); [| |exact R|].
    { intros x s' Hx R'. apply IT; [exact (b_values _ _ _ _ B c x Hx)|exact R'|lia]. }
    { intros b s' R'. exact R'. }
    rewrite E1. destruct (context_copy g c s1) as [i|] eqn:Ec; [eexists; eexists; split; [reflexivity|exact R1]|].
    destruct (IX k (outer g c) s1) as (oc & s2 & E2 & R2).
    { intros d Hd. apply (b_outer _ _ _ _ B) in Hd. lia. }
    { exact R1. }
    { destruct (outer g c) as [d|] eqn:Eo; [apply (b_outer _ _ _ _ B) in Eo; lia|lia]. }
    rewrite E2. eexists; eexists; split; [reflexivity|].
    destruct (all_ok (S f)) as (_ & _ & HX). destruct R as (I & P & L).
    destruct (HX (Some c) s (Some (length (contexts s2))) (mkstate (ops s2) (contexts s2 ++ [(c, oc)]) (if listed g c then kept s2 ++ [length (contexts s2)] else kept s2)) I P) as (G & P' & _).
    { rewrite copy_context_S, E1, Ec, E2. reflexivity. }
    apply (ready_post k None s); [split; [exact I|split; [exact P|exact L]]|exact G|exact P'].
Qed.

Lemma plain_empty : plain empty.
Proof. intros o Ho. destruct Ho. reflexivity. Qed.

Lemma copy_total : forall f t, fst t < n -> 2 + n * (m + 3) <= f -> exists r s, copy_tensor f t empty = Some (r, s).
Proof.
  intros f t Ht Hf. destruct (total f) as (HT & _ & _).
  destruct (HT n t empty Ht) as (r & s & E & _); [|exact Hf|exists r, s; exact E].
  split; [exact inv_empty|]. split; [exact plain_empty|]. unfold left.
  assert (F : forall (p : nat -> bool) l, length (filter p l) <= length l).
  { intros p l. induction l as [|x l IH]; [apply le_n|]. cbn. destruct (p x); cbn; lia. }
  etransitivity; [apply F|]. rewrite seq_length. apply le_n.
Qed.

(** ** Nothing else is copied *)
Definition only (P : nat -> Prop) (s s' : state) : Prop := forall k, has s' k -> has s k \/ P k.

Lemma only_trans : forall P s s1 s2, only P s s1 -> only P s1 s2 -> only P s s2.
Proof. intros P s s1 s2 A C k Hk. destruct (C k Hk) as [H|H]; [exact (A k H)|right; exact H]. Qed.
Lemma only_refl : forall P s, only P s s.
Proof. intros P s k Hk. left. exact Hk. Qed.
Lemma only_change : forall P o f s, only P s (change o f s).
Proof.
  intros P o f s k Hk. left. unfold change in Hk. destruct (lookup (ops s) o) eqn:E; [|exact Hk].
  unfold has in *. rewrite lookup_put in Hk. destruct (Nat.eqb_spec o k) as [Q|Q]; [subst; congruence|exact Hk].
Qed.

Lemma each_only : forall (A C : Type) (f : A -> state -> option (C * state)) act P l,
  (forall x s r s', In x l -> f x s = Some (r, s') -> only P s s') -> (forall b s, only P s (act b s)) ->
  forall s bs s', each f act l s = Some (bs, s') -> only P s s'.
Proof.
  intros A C f act P. induction l as [|x l IH]; intros Hf Ha s bs s' E; cbn in E.
  - injection E as _ <-. apply only_refl.
  - destruct (f x s) as [[b s1]|] eqn:E1; [|discriminate E].
    destruct (each f act l (act b s1)) as [[bs2 s2]|] eqn:E2; [|discriminate E]. injection E as _ <-.
    eapply only_trans; [eapply Hf; [left; reflexivity|exact E1]|]. eapply only_trans; [apply Ha|].
    eapply IH; [|exact Ha|exact E2]. intros y s0 r0 s0' Hy. apply Hf. right. exact Hy.
Qed.

Lemma minimal : forall root f,
  (forall t s r s', (image t = New t -> needed g swap root (fst t)) -> copy_tensor f t s = Some (r, s') -> only (needed g swap root) s s') /\
  (forall o s r s', (image_op o = New o -> needed g swap root o) -> copy_op f o s = Some (r, s') -> only (needed g swap root) s s') /\
  (forall c s r s', (forall d e, c = Some d -> within e d -> forall t, In t (values g e) -> image t = New t -> needed g swap root (fst t)) ->
     copy_context f c s = Some (r, s') -> only (needed g swap root) s s').
Proof.
  intros root. induction f as [|f (IT & IO & IX)]; [split; [|split]; intros; match goal with E : _ = Some _ |- _ => discriminate E end|].
  split; [|split].
  - intros t s r s' Hn E. rewrite copy_tensor_S in E. unfold CopyLoopSpec.image in Hn.
    destruct (swap t); [injection E as _ <-; apply only_refl|].
    destruct (variable g t); [injection E as _ <-; apply only_refl|].
    destruct (lookup (ops s) (fst t)); [injection E as _ <-; apply only_refl|].
    destruct (placeholder g (fst t)); [injection E as _ <-; apply only_refl|]. cbn [orb] in Hn.
    destruct (copy_op f (fst t) s) as [[o s1]|] eqn:E1; [|discriminate E].
    assert (s1 = s') by (destruct o; congruence). subst s1.
    eapply IO; [|exact E1]. unfold CopyLoopSpec.image_op. intros Q. apply Hn. destruct (queue g (fst t)); congruence.
  - intros o s r s' Hn E. rewrite copy_op_S in E.
    destruct (lookup (ops s) o) as [q|] eqn:El; [injection E as _ <-; apply only_refl|].
    unfold CopyLoopSpec.image_op in Hn.
    destruct (queue g o); [injection E as _ <-; apply only_refl|]. specialize (Hn eq_refl).
    set (s0 := put o _ s) in E.
    assert (G0 : only (needed g swap root) s s0).
    { intros k Hk. unfold s0, has in Hk. rewrite lookup_put in Hk. destruct (Nat.eqb_spec o k) as [Q|Q]; [right; subst; exact Hn|left; exact Hk]. }
    destruct (each (copy_op f) _ (controls g o) s0) as [[cs s1]|] eqn:E1; [|discriminate E].
    destruct (each (copy_tensor f) _ (inputs g o) _) as [[bs s2]|] eqn:E2; [|discriminate E].
    destruct (copy_context f (context g o) s2) as [[cx s3]|] eqn:E3; [|discriminate E]. injection E as _ <-.
    eapply only_trans; [exact G0|]. eapply only_trans.
    { eapply each_only; [|intros; apply only_refl|exact E1]. intros x s4 r4 s4' Hx. apply IO. intros Q. exact (n_control g swap root o x Hn Hx Q). }
    eapply only_trans; [apply only_change|]. eapply only_trans.
    { eapply each_only; [|intros; apply only_change|exact E2]. intros x s4 r4 s4' Hx. apply IT. intros Q. exact (n_input g swap root o x Hn Hx Q). }
    eapply only_trans; [|apply only_change]. eapply IX; [|exact E3].
    intros d e Hd Hw t Ht Hi. exact (n_value g swap root o d e t Hn Hd Hw Ht Hi).
  - intros c s r s' Hn E. rewrite copy_context_S in E. destruct c as [c|]; [|injection E as _ <-; apply only_refl].
    destruct (each (copy_tensor f) _ (values g c) s) as [[bs s1]|] eqn:E1; [|discriminate E].
    assert (G1 : only (needed g swap root) s s1).
    { eapply each_only; [|intros; apply only_refl|exact E1]. intros x s4 r4 s4' Hx. apply IT. intros Q.
      exact (Hn c c eq_refl (w_self g c) x Hx Q). }
    destruct (context_copy g c s1); [injection E as _ <-; exact G1|].
    destruct (copy_context f (outer g c) s1) as [[oc s2]|] eqn:E2; [|discriminate E]. injection E as _ <-.
    eapply only_trans; [exact G1|]. assert (G2 : only (needed g swap root) s1 s2); [|exact G2].
    eapply IX; [|exact E2]. intros d e Hd Hw t Ht Hi. eapply (Hn c e eq_refl); [|exact Ht|exact Hi]. eapply w_up; eassumption.
Qed.

Lemma mirror_needed : forall root s cp, mirror g swap scope s cp -> (image root = New root -> exists_copy s (fst root)) ->
  forall o, needed g swap root o -> exists_copy s o.
Proof.
  intros root s cp M Hr o H. induction H as [H|o x _ IH Hx Hi|o x _ IH Hx Hi|o c d x _ IH Hc Hw Hx Hi].
  - exact (Hr H).
  - unfold exists_copy in IH. destruct (lookup (ops s) o) as [r|] eqn:E; [|congruence].
    apply (m_there _ _ _ _ _ M o r x E). rewrite (m_inputs _ _ _ _ _ M o r E). rewrite <- Hi. apply in_map. exact Hx.
  - unfold exists_copy in IH. destruct (lookup (ops s) o) as [r|] eqn:E; [|congruence].
    apply (m_there_control _ _ _ _ _ M o r x E). rewrite (m_controls _ _ _ _ _ M o r E). rewrite <- Hi. apply in_map. exact Hx.
  - unfold exists_copy in IH. destruct (lookup (ops s) o) as [r|] eqn:E; [|congruence].
    pose proof (m_context _ _ _ _ _ M o r E) as C. rewrite Hc in C. destruct C as (i & _ & Hi').
    assert (exists j, cp d = Some j) as [j Hj].
    { clear Hx Hi Hc. revert i Hi'. induction Hw as [|c e Eo _ IHw]; intros i Hi'; [exists i; exact Hi'|].
      destruct (m_outer _ _ _ _ _ M c i Hi') as (oc & _ & C). rewrite Eo in C. destruct C as (j & _ & Hj). exact (IHw j Hj). }
    exact (m_values _ _ _ _ _ M d j x Hj Hx Hi).
Qed.

Lemma copy_loops : forall f t, fst t < n -> 2 + n * (m + 3) <= f ->
  exists s cp, copy_tensor f t empty = Some (image t, s) /\ mirror g swap scope s cp /\ forall o, exists_copy s o <-> needed g swap t o.
Proof.
  intros f t Ht Hf. destruct (copy_total f t Ht Hf) as (r & s & E).
  destruct (copy_mirrors f t r s E) as (-> & Hh & M). exists s, (copy_of s). split; [exact E|]. split; [exact M|].
  intros o. split.
  - intros Ho. destruct (minimal t f) as (H & _ & _).
    destruct (H t empty _ s (n_root g swap t) E o Ho) as [Q|Q]; [destruct Q; reflexivity|exact Q].
  - apply (mirror_needed t s (copy_of s) M Hh).
Qed.
End Proofs.

(** ** A context in no collection *)
Definition gradient_loop : graph :=
  mkgraph (fun _ => false) (fun _ => false) (fun o => match o with 1 => [(0, 0)] | _ => [] end) (fun _ => [])
    (fun o => match o with 0 | 1 => Some 0 | _ => None end) (fun _ => None) (fun _ => false)
    (fun _ => [(0, 0); (1, 0)]) (fun _ => None) (fun _ => false).

Lemma gradient_loop_copied : forall scope, exists s r0 r1,
  copy_tensor gradient_loop (fun _ => None) scope 10 (1, 0) empty = Some (New (1, 0), s) /\
  lookup (ops s) 0 = Some r0 /\ lookup (ops s) 1 = Some r1 /\
  context gradient_loop 0 = context gradient_loop 1 /\ c_context r0 <> c_context r1.
Proof.
  intros scope. eexists. eexists. eexists. split; [reflexivity|]. split; [reflexivity|]. split; [reflexivity|].
  split; [reflexivity|]. discriminate.
Qed.
