From Coq Require Import String List Arith ZArith Bool Lia.
From Verif Require Import Session SessionSpec.
Import ListNotations.
Local Open Scope string_scope.

Lemma set_seed_spec : forall x p,
  (fst (set_seed x p) = SRuntimeError <-> ~ seedable (p_nodes p)) /\
  (seedable (p_nodes p) -> set_seed x p = match x with
    | SFloat _ => (STypeError, p)
    | SInt z => if Z.leb 0 z && Z.ltb z 4294967296 then (SOk, mkprocess (p_nodes p) (Some z) (Some z) (p_default p) (p_created p) (p_ed p) (p_keras p)) else (SValueError, p)
    end) /\
  (fst (set_seed x p) <> SOk -> snd (set_seed x p) = p).
Proof.
  intros x p. unfold set_seed, seedable. destruct (p_nodes p) as [|a l].
  - cbn. split; [|split]; auto.
    + split; [destruct x as [z|z]; [destruct (_ && _)|]; discriminate|tauto].
    + destruct x as [z|z]; auto. destruct (_ && _); cbn; congruence.
  - cbn [negb andb]. destruct (list_eq_dec string_dec (a :: l) ["keras_learning_phase"]) as [E|N]; cbn [negb].
    + rewrite E. split; [|split]; auto.
      * split; [destruct x as [z|z]; [destruct (_ && _)|]; discriminate|tauto].
      * destruct x as [z|z]; auto. destruct (_ && _); cbn; congruence.
    + split; [|split]; auto.
      * split; auto. intros _ [Q|Q]; [discriminate|contradiction].
      * intros [Q|Q]; [discriminate|contradiction].
Qed.

Lemma get_default : forall k p, exists rest, p_default (snd (get_session k p)) = fst (get_session k p) :: rest.
Proof. intros k p. unfold get_session. destruct (p_default p) as [|s r] eqn:E; cbn; eauto. Qed.

Lemma get_again : forall k p s r, p_default p = s :: r -> fst (get_session k p) = s /\ p_default (snd (get_session k p)) = s :: r.
Proof. intros k p s r E. unfold get_session. rewrite E. cbn. auto. Qed.

Lemma seed_default : forall x p, p_default (snd (set_seed x p)) = p_default p.
Proof. intros x p. unfold set_seed. destruct (_ && _); auto. destruct x as [z|z]; auto. destruct (_ && _); auto. Qed.

Lemma balanced_default : forall h, balanced h -> forall p s r, p_default p = s :: r -> p_default (run_steps h p) = s :: r.
Proof.
  assert (A : forall a b p, run_steps (a ++ b) p = run_steps b (run_steps a p)) by (intros; apply fold_left_app).
  induction 1 as [|n h H IH|k h H IH|x h H IH|i h g H IH G IG|h g H IH G IG]; intros p s r E; auto.
  - cbn. apply IH. exact E.
  - cbn. apply IH. now apply get_again.
  - cbn. apply IH. now rewrite seed_default.
  - change (Enter i :: h ++ Leave :: g)%list with ([Enter i] ++ h ++ [Leave] ++ g)%list. rewrite !A. apply IG. cbn.
    rewrite (IH _ i (s :: r)); auto. cbn. now rewrite E.
  - change (NewSession :: h ++ Leave :: g)%list with ([NewSession] ++ h ++ [Leave] ++ g)%list. rewrite !A. apply IG. cbn.
    rewrite (IH _ (p_created p) (s :: r)); auto. cbn. now rewrite E.
Qed.

Lemma get_stable : forall k k' h p, balanced h -> fst (get_session k' (run_steps h (snd (get_session k p)))) = fst (get_session k p).
Proof.
  intros k k' h p B. destruct (get_default k p) as [r E]. apply (get_again k' _ _ r). now apply balanced_default.
Qed.

Lemma get_innermost : forall k p s r, p_default p = s :: r -> fst (get_session k p) = s /\ p_created (snd (get_session k p)) = p_created p /\ p_ed (snd (get_session k p)) = Some s.
Proof. intros k p s r E. unfold get_session. rewrite E. auto. Qed.

Lemma get_fresh : forall k p, p_default p = [] -> fst (get_session k p) = p_created p /\ p_default (snd (get_session k p)) = [p_created p] /\
  p_created (snd (get_session k p)) = S (p_created p) /\ p_ed (snd (get_session k p)) = Some (p_created p).
Proof. intros k p E. unfold get_session. rewrite E. auto. Qed.

Lemma keras_same : forall p, p_keras (snd (get_session true p)) = Some (fst (get_session true p)).
Proof. intro p. unfold get_session. destruct (p_default p); reflexivity. Qed.

(** Seeds are the last successfully set one, and once the graph has a node they never change. *)
Lemma nodes_grow : forall h p, exists more, p_nodes (run_steps h p) = (p_nodes p ++ more)%list.
Proof.
  assert (S1 : forall e p, exists more, p_nodes (run_step e p) = (p_nodes p ++ more)%list).
  { intros e p. destruct e; cbn; try (exists []; now rewrite app_nil_r).
    - now exists [name].
    - exists []. rewrite app_nil_r. unfold get_session. destruct (p_default p); reflexivity.
    - exists []. rewrite app_nil_r. unfold set_seed. destruct (_ && _); auto. destruct x as [z|z]; auto. destruct (_ && _); auto. }
  induction h as [|e h IH]; intro p; cbn; [exists []; now rewrite app_nil_r|].
  destruct (IH (run_step e p)) as [m E]. destruct (S1 e p) as [m' E']. fold (run_steps h (run_step e p)). rewrite E, E', <- app_assoc. eauto.
Qed.

Lemma not_seedable_grow : forall l more, ~ seedable l -> ~ seedable (l ++ more)%list.
Proof.
  intros l more H [E|E]; apply H.
  - left. apply app_eq_nil in E. tauto.
  - destruct l as [|a [|b l]]; [left; auto| |discriminate]. cbn in E. injection E as -> E. now right.
Qed.

Lemma seeds_fixed : forall h p, ~ seedable (p_nodes p) -> p_np_seed (run_steps h p) = p_np_seed p /\ p_tf_seed (run_steps h p) = p_tf_seed p.
Proof.
  induction h as [|e h IH]; intros p H; [split; reflexivity|]. cbn. fold (run_steps h (run_step e p)).
  assert (N : ~ seedable (p_nodes (run_step e p))).
  { destruct (nodes_grow [e] p) as [m E]. cbn in E. rewrite E. now apply not_seedable_grow. }
  destruct (IH _ N) as [-> ->].
  destruct e; cbn; auto.
  - unfold get_session. destruct (p_default p); auto.
  - destruct (set_seed_spec x p) as (A & _ & C). rewrite C; auto. apply A in H. rewrite H. discriminate.
Qed.

Lemma seeds_agree : forall h p, p_np_seed p = p_tf_seed p -> p_np_seed (run_steps h p) = p_tf_seed (run_steps h p).
Proof.
  induction h as [|e h IH]; intros p H; auto. cbn. apply IH. destruct e; cbn; auto.
  - unfold get_session. destruct (p_default p); auto.
  - unfold set_seed. destruct (_ && _); auto. destruct x as [z|z]; auto. destruct (_ && _); auto.
Qed.
