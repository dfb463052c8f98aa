(** * Examples for C78. *)
From Coquelicot Require Import Coquelicot.
From Coq Require Import Reals List Arith Bool Lra Lia Permutation.
From Verif Require Import SimplifySpec ConjLogProb ConjSpec Conjugacy ConjugacyProofs ConjProofs.
From Verif Require Import TConj TConjSpec TConjProofs.
Import ListNotations.
Local Open Scope R_scope.

Definition constant (s : list nat) (c : R) : ten := mkten s (fun _ => c).
Definition leaf (t : nat) : graph := GT t OIdentity [].
Definition sq : op := OElem (fun l => hd 0 l * hd 0 l).

(** mu = Normal(0., 1.); x = Normal(tf.ones(2) * mu, 1.), observed to be [1., 1.];
    tensor 0 is mu, 1 the ones, 2 the observed x, 3 the constant -1/2. *)
Definition ones_graph : graph :=
  GT 13 OAdd [
    GT 5 OSumAll [GT 6 OMul [leaf 3; GT 4 sq [leaf 0]]];
    GT 9 OSumAll [GT 10 OAdd [GT 11 OMul [leaf 3; GT 8 sq [GT 7 OMul [leaf 1; leaf 0]]];
                              GT 12 OMul [leaf 2; GT 7 OMul [leaf 1; leaf 0]]]]].
Definition ones_en (t : nat) : ten :=
  match t with 1%nat | 2%nat => constant [2%nat] 1 | 3%nat => constant [] (-1/2) | _ => constant [] 0 end.
Definition ones_nsh (t : nat) : list nat := match t with 8%nat => [2%nat] | _ => [] end.
Definition ones_found : found :=
  [(4%nat, (StSquare, constant [] 1)); (8%nat, (StSquare, constant [2%nat] 1)); (0%nat, (StX, constant [] 1))].
Definition ones_found' : found :=
  [(8%nat, (StSquare, constant [2%nat] 1)); (4%nat, (StSquare, constant [] 1)); (0%nat, (StX, constant [] 1))].

Fixpoint parts (g : graph) : list graph := match g with GT t o ins => g :: flat_map parts ins end.
Lemma part_parts : forall n g, part n g -> In n (parts g).
Proof.
  intros n g H. induction H; [destruct g; cbn; auto|]. cbn [parts]. right. apply in_flat_map. eauto.
Qed.

Ltac each H := repeat (destruct H as [H|H]; [try (rewrite <- H in *; clear H)|]); try contradiction.

Lemma ones_definition : one_definition 0 ones_graph.
Proof.
  split.
  - intros m n Hm Hn. apply part_parts in Hm. apply part_parts in Hn. cbn in Hm, Hn.
    repeat (destruct Hm as [<-|Hm]; [repeat (destruct Hn as [<-|Hn]; [cbn; intros E; try reflexivity; discriminate|]); contradiction|]).
    contradiction.
  - intros o ins H. apply part_parts in H. cbn in H. 
    repeat (destruct H as [H|H]; [inversion H; auto|]). contradiction.
Qed.
Lemma one_dependent_check : forall base g,
  forallb (fun n => match n with GT _ OMul ins => Nat.leb (length (filter (depends base) ins)) 1 | _ => true end) (parts g) = true ->
  one_dependent base g.
Proof.
  intros base g H t ins l1 i l2 j l3 Hp Ei Di Dj. rewrite forallb_forall in H. specialize (H _ (part_parts _ _ Hp)). cbn in H.
  apply Nat.leb_le in H. subst ins. rewrite filter_app in H. cbn in H. rewrite Di, app_length in H. cbn in H. rewrite filter_app in H. cbn in H.
  rewrite Dj, app_length in H. cbn in H. lia.
Qed.
Lemma ones_dependent : one_dependent 0 ones_graph.
Proof. apply one_dependent_check. reflexivity. Qed.
Lemma ones_nodes : lists_nodes 0 ones_graph ones_found.
Proof.
  split; [repeat constructor; cbn; intuition congruence|]. intros t. cbn. intuition.
Qed.
Lemma ones_right : found_right (possible SupReal []) ones_en 0 ones_graph ones_nsh ones_found.
Proof.
  intros t k m H. cbn in H. destruct H as [E|[E|[E|[]]]]; inversion E; subst.
  - exists (GT 4 sq [leaf 0]), (fun _ => 0). split; [|split; auto].
    { econstructor; [left; reflexivity|]. econstructor; [left; reflexivity|]. econstructor; [right; left; reflexivity|constructor]. }
    intros [sx ax] [Sx _]. cbn in Sx. subst sx. eexists. eexists. split; [reflexivity|]. split; [reflexivity|]. split; [reflexivity|]. split; [reflexivity|].
    intros idx [<-|[]]. cbn. ring.
  - exists (GT 8 sq [GT 7 OMul [leaf 1; leaf 0]]), (fun _ => 0). split; [|split; auto].
    { econstructor; [right; left; reflexivity|]. econstructor; [left; reflexivity|]. econstructor; [left; reflexivity|]. econstructor; [right; left; reflexivity|constructor]. }
    intros [sx ax] [Sx _]. cbn in Sx. subst sx. eexists. eexists. split; [reflexivity|]. split; [reflexivity|]. split; [reflexivity|]. split; [reflexivity|].
    intros idx Hi. cbn. ring.
  - exists (leaf 0), (fun _ => 0). split; [|split; auto].
    { econstructor; [left; reflexivity|]. econstructor; [left; reflexivity|]. econstructor; [right; left; reflexivity|]. econstructor; [left; reflexivity|constructor]. }
    intros [sx ax] [Sx _]. cbn in Sx. subst sx. eexists. eexists. split; [reflexivity|]. split; [reflexivity|]. split; [reflexivity|]. split; [reflexivity|].
    intros idx [<-|[]]. cbn. ring.
Qed.
Lemma ones_value : forall y, exists v, value ones_en 0 ones_graph (constant [] y) = Some v /\ sh v = [] /\ at_ v [] = -3/2 * (y * y) + 2 * y.
Proof. intros y. eexists. split; [reflexivity|]. split; [reflexivity|]. cbn. field. Qed.

Lemma Derive_line : forall f a b x, (forall r, f r = a + b * r) -> Derive f x = b.
Proof. intros f a b x H. rewrite (Derive_ext f (fun r => a + b * r)) by auto. apply is_derive_unique. auto_derive; auto. ring. Qed.

Lemma ones_first : exists D, complete_conditional SupReal ones_nsh ones_en ones_found ones_graph (constant [] 0) = Some ([], D) /\
  D [] = Some (normal_from_natural_params (-3/2) 2).
Proof.
  eexists. split; [reflexivity|]. cbn. do 2 f_equal.
  - apply (Derive_line _ 0). intros; field.
  - apply (Derive_line _ 0). intros; field.
Qed.
Lemma ones_second : exists D, complete_conditional SupReal ones_nsh ones_en ones_found' ones_graph (constant [] 0) = Some ([2%nat], D) /\
  D [0%nat] = Some (normal_from_natural_params (-1) 2) /\ D [1%nat] = Some (normal_from_natural_params (-1) 2).
Proof.
  eexists. split; [reflexivity|]. cbn. split; do 2 f_equal.
  - apply (Derive_line _ 0). intros; field.
  - apply (Derive_line _ 0). intros; field.
  - apply (Derive_line _ 0). intros; field.
  - apply (Derive_line _ 0). intros; field.
Qed.
Lemma ones_first_shape : first_have_shape [] ones_nsh ones_found.
Proof.
  intros l1 t k m l2 E H. destruct l1 as [|e1 [|e2 [|e3 l1]]]; inversion E; subst; auto.
  - exfalso. apply (H (4%nat, (StSquare, constant [] 1))); cbn; auto.
  - destruct l1; discriminate.
Qed.

Lemma ln_normal : forall m s x, 0 < s -> ln (normal_pdf m s x) = - ((x - m) * (x - m)) / (2 * (s * s)) - ln (s * sqrt (2 * PI)).
Proof.
  intros m s x Hs. unfold normal_pdf. assert (0 < sqrt (2 * PI)) by (apply sqrt_lt_R0; pose proof PI_RGT_0; lra).
  assert (0 < s * sqrt (2 * PI)) by (apply Rmult_lt_0_compat; auto).
  rewrite ln_mult by (auto using Rinv_0_lt_compat, exp_pos). rewrite ln_exp, ln_Rinv by auto. ring.
Qed.

Ltac posinv := apply Rmult_lt_0_compat; apply Rinv_0_lt_compat; lra.

Lemma order_refuted : exists sup nsh en l l' g base x0 D D',
  one_definition base g /\ one_dependent base g /\ lists_nodes base g l /\ Permutation l l' /\
  possible sup (sh x0) x0 /\ found_right (possible sup (sh x0)) en base g nsh l /\
  (exists v, value en base g x0 = Some v /\ sh v = []) /\
  complete_conditional sup nsh en l g x0 = Some ([], D) /\ complete_conditional sup nsh en l' g x0 = Some ([2%nat], D') /\
  sh x0 = [] /\ all_proper [] D /\ all_proper [2%nat] D' /\
  forall G, gamma_function G ->
    is_conditional G sup [] D (value en base g) /\
    forall idx, In idx (indices [2%nat]) -> ~ exists c d, D' idx = Some d /\
      is_log_density G d (fun y => scalar (value en base g (constant [] y)) + c).
Proof.
  destruct ones_first as (D & E & ED). destruct ones_second as (D' & E' & ED0 & ED1).
  exists SupReal, ones_nsh, ones_en, ones_found, ones_found', ones_graph, 0%nat, (constant [] 0), D, D'.
  assert (Hpos : possible SupReal (sh (constant [] 0)) (constant [] 0)) by (split; [auto|cbn; auto]).
  assert (Hval : exists v, value ones_en 0 ones_graph (constant [] 0) = Some v /\ sh v = [])
    by (destruct (ones_value 0) as (v & ? & ? & _); eauto).
  assert (Hp : all_proper [] D).
  { intros idx d Hi Hd. destruct Hi as [<-|[]]. rewrite ED in Hd. inversion Hd; subst. split; [|auto].
    cbn. apply sqrt_lt_R0. posinv. }
  split; [apply ones_definition|]. split; [apply ones_dependent|]. split; [apply ones_nodes|]. split; [apply perm_swap|].
  split; [exact Hpos|]. split; [apply ones_right|]. split; [exact Hval|].
  split; [exact E|]. split; [exact E'|]. split; [auto|]. split; [exact Hp|]. split; [|intros G HG; split].
  - intros idx d Hi Hd. destruct Hi as [<-|[<-|[]]]; rewrite ?ED0, ?ED1 in Hd; inversion Hd; subst; (split; [cbn; apply sqrt_lt_R0; posinv|auto]).
  - apply (conditional_right G SupReal ones_nsh ones_en ones_found ones_graph 0 (constant [] 0) [] D HG ones_definition ones_dependent ones_nodes Hpos ones_right ones_first_shape Hval E). exact Hp.
  - intros idx Hi (c & d & Hd & Hl).
    assert (d = normal_from_natural_params (-1) 2) by (destruct Hi as [<-|[<-|[]]]; rewrite ?ED0, ?ED1 in Hd; congruence). subst d.
    unfold normal_from_natural_params in Hl. cbn [is_log_density] in Hl. destruct Hl as [Hs Hl].
    set (sg := sqrt (/ 2 * / - (-1))) in *.
    assert (Esg : sg * sg = / 2) by (unfold sg; rewrite sqrt_sqrt by (left; posinv); field).
    pose proof (Hl 0) as H0. pose proof (Hl 1) as H1. pose proof (Hl (-1)) as H2. clear Hl.
    rewrite ln_normal, Esg in H0, H1, H2 by auto.
    destruct (ones_value 0) as (v0 & V0 & _ & A0). destruct (ones_value 1) as (v1 & V1 & _ & A1). destruct (ones_value (-1)) as (v2 & V2 & _ & A2).
    rewrite V0 in H0. rewrite V1 in H1. rewrite V2 in H2. cbn [scalar] in H0, H1, H2. rewrite A0 in H0. rewrite A1 in H1. rewrite A2 in H2. lra.
Qed.

(** mu = Normal(tf.zeros(2), 1.); x = Normal(mu, 1., sample_shape=3), observed. *)
Definition rows_graph : graph :=
  GT 13 OAdd [
    GT 5 OSumAll [GT 6 OMul [leaf 3; GT 4 sq [leaf 0]]];
    GT 9 OSumAll [GT 10 OAdd [GT 11 OMul [leaf 3; GT 8 sq [leaf 0]]; GT 12 OMul [leaf 2; leaf 0]]]].
Definition rows_x (idx : list nat) : R := match idx with [0%nat; _] => 1 | _ => -2 end.
Definition rows_en (t : nat) : ten :=
  match t with 2%nat => mkten [2%nat; 3%nat] rows_x | 3%nat => constant [] (-1/2) | _ => constant [2%nat] 0 end.
Definition rows_nsh (t : nat) : list nat := [2%nat].
Definition rows_found : found :=
  [(8%nat, (StSquare, constant [] 1)); (0%nat, (StX, constant [] 1)); (4%nat, (StSquare, constant [] 1))].

Lemma rows_ok :
  one_definition 0 rows_graph /\ one_dependent 0 rows_graph /\ lists_nodes 0 rows_graph rows_found /\
  possible SupReal [2%nat] (constant [2%nat] 0) /\ found_right (possible SupReal [2%nat]) rows_en 0 rows_graph rows_nsh rows_found /\
  first_have_shape [2%nat] rows_nsh rows_found /\
  (exists v, value rows_en 0 rows_graph (constant [2%nat] 0) = Some v /\ sh v = []) /\
  exists D, complete_conditional SupReal rows_nsh rows_en rows_found rows_graph (constant [2%nat] 0) = Some ([2%nat], D) /\
  D [0%nat] = Some (normal_from_natural_params (-2) 3) /\ D [1%nat] = Some (normal_from_natural_params (-2) (-6)) /\
  all_proper [2%nat] D.
Proof.
  split; [split|].
  { intros m n Hm Hn. apply part_parts in Hm. apply part_parts in Hn. cbn in Hm, Hn.
    repeat (destruct Hm as [<-|Hm]; [repeat (destruct Hn as [<-|Hn]; [cbn; intros E; try reflexivity; discriminate|]); contradiction|]).
    contradiction. }
  { intros o ins H. apply part_parts in H. cbn in H. 
    repeat (destruct H as [H|H]; [inversion H; auto|]). contradiction. }
  split; [apply one_dependent_check; reflexivity|].
  split; [split; [repeat constructor; cbn; intuition congruence|intros t; cbn; intuition]|].
  split; [split; [auto|cbn; auto]|].
  split.
  { intros t k m H. cbn in H. destruct H as [E|[E|[E|[]]]]; inversion E; subst.
    - exists (GT 8 sq [leaf 0]), (fun _ => 0). split; [|split; auto].
      { econstructor; [right; left; reflexivity|]. econstructor; [left; reflexivity|]. econstructor; [left; reflexivity|]. econstructor; [right; left; reflexivity|constructor]. }
      intros [sx ax] [Sx _]. cbn in Sx. subst sx. eexists. eexists. split; [reflexivity|]. split; [reflexivity|]. split; [reflexivity|]. split; [reflexivity|].
      intros idx Hi. cbn. ring.
    - exists (leaf 0), (fun _ => 0). split; [|split; auto].
      { econstructor; [left; reflexivity|]. econstructor; [left; reflexivity|]. econstructor; [right; left; reflexivity|]. econstructor; [left; reflexivity|constructor]. }
      intros [sx ax] [Sx _]. cbn in Sx. subst sx. eexists. eexists. split; [reflexivity|]. split; [reflexivity|]. split; [reflexivity|]. split; [reflexivity|].
      intros idx Hi. cbn. cbn in Hi. destruct Hi as [<-|[<-|[]]]; cbn; ring.
    - exists (GT 4 sq [leaf 0]), (fun _ => 0). split; [|split; auto].
      { econstructor; [left; reflexivity|]. econstructor; [left; reflexivity|]. econstructor; [right; left; reflexivity|constructor]. }
      intros [sx ax] [Sx _]. cbn in Sx. subst sx. eexists. eexists. split; [reflexivity|]. split; [reflexivity|]. split; [reflexivity|]. split; [reflexivity|].
      intros idx Hi. cbn. ring. }
  split; [intros l1 t k m l2 _ _; reflexivity|].
  split; [eexists; split; reflexivity|].
  assert (H : exists D, complete_conditional SupReal rows_nsh rows_en rows_found rows_graph (constant [2%nat] 0) = Some ([2%nat], D) /\
    D [0%nat] = Some (normal_from_natural_params (-2) 3) /\ D [1%nat] = Some (normal_from_natural_params (-2) (-6))).
  { eexists. split; [reflexivity|]. cbn. split; do 2 f_equal; apply (Derive_line _ 0); intros; field. }
  destruct H as (D & E & E0 & E1). exists D. split; auto. split; auto. split; auto.
  intros idx d Hi Hd. destruct Hi as [<-|[<-|[]]]; rewrite ?E0, ?E1 in Hd; inversion Hd; subst; (split; [cbn; apply sqrt_lt_R0; posinv|auto]).
Qed.
