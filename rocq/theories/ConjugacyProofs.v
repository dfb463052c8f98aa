(** * complete_conditional (proofs). *)
From Coq Require Import List Arith ZArith QArith Qreals Reals Bool Lra Lia Permutation.
From Verif Require Import Simplify SimplifySpec SimplifyTermProofs SimplifyProofs
  SimplifyExtractProofs SimplifyTensProofs.
From Verif Require Import ConjLogProb ConjSpec ConjProofs Conjugacy ConjugacySpec.
Import ListNotations.
Local Open Scope R_scope.

Lemma rsum_zero : forall A (f : A -> R) l, (forall a, In a l -> f a = 0) -> rsum (map f l) = 0.
Proof.
  intros A f l H. induction l as [|a l IH]; auto. cbn [map]. rewrite rsum_cons, H by now left.
  rewrite IH; [lra|]. intros. apply H. now right.
Qed.
Lemma rsum_plus : forall A (f g : A -> R) l,
  rsum (map (fun a => f a + g a) l) = rsum (map f l) + rsum (map g l).
Proof. intros A f g l. induction l as [|a l IH]; [simpl; lra|]. cbn [map]. rewrite !rsum_cons, IH. lra. Qed.
Lemma rsum_scal : forall A c (f : A -> R) l, rsum (map (fun a => c * f a) l) = c * rsum (map f l).
Proof. intros A c f l. induction l as [|a l IH]; [simpl; lra|]. cbn [map]. rewrite !rsum_cons, IH. lra. Qed.
Lemma rsum_ext : forall A (f g : A -> R) l, (forall a, In a l -> f a = g a) -> rsum (map f l) = rsum (map g l).
Proof. intros A f g l H. f_equal. apply map_ext_in. auto. Qed.
Lemma rsum_perm : forall l l', Permutation l l' -> rsum l = rsum l'.
Proof. intros l l' H. induction H; rewrite ?rsum_cons; lra. Qed.

Section Graph.
Variable en : env.
Variable lty : nat -> lin.
Variable base : nat.
Variable stop : list nat.
Hypothesis Hlin : linear_ops lty en.

Notation ssn := (suff_stat_nodes lty base stop).
Notation child := (is_child base stop).
Notation val := (tval en base stop).

Lemma tval_const : forall s, child s = false -> forall x y, val x s = val y s.
Proof.
  induction s as [t ty ins IH] using tgraph_ind'. intros H x y. simpl in *.
  destruct (Nat.eqb t base); [discriminate|]. unfold mem in H.
  destruct (existsb (Nat.eqb t) stop); auto.
  assert (E : map (val x) ins = map (val y) ins).
  { induction IH as [|i l Hi Hl IHl]; auto. simpl in *. apply orb_false_iff in H. destruct H.
    f_equal; auto. }
  rewrite E. destruct ty; auto.
Qed.

Lemma ssn_child : forall s n, In n (ssn s) -> child n = true.
Proof.
  induction s as [t ty ins IH] using tgraph_ind'. intros n H. simpl in H.
  destruct (Nat.eqb t base) eqn:E; [destruct H as [<-|[]]; simpl; now rewrite E|].
  destruct (mem t stop) eqn:Em; [destruct H|]. rewrite Forall_forall in IH.
  assert (Hf : In n (flat_map ssn ins) -> child n = true).
  { intros Hi. apply in_flat_map in Hi. destruct Hi as [i [Hi Hn]]. eauto. }
  destruct (kind_of lty t ty); auto.
  - destruct ins as [|i ins]; [destruct H|]. eapply IH; eauto. now left.
  - destruct (existsb child ins) eqn:Ec; [|destruct H]. destruct H as [<-|[]]. simpl. now rewrite E, Em.
Qed.

Lemma ssn_subgraph : forall s n, In n (ssn s) -> subgraph base stop n s.
Proof.
  induction s as [t ty ins IH] using tgraph_ind'. intros n H. simpl in H.
  destruct (Nat.eqb t base) eqn:E; [destruct H as [<-|[]]; constructor|].
  apply Nat.eqb_neq in E.
  destruct (mem t stop) eqn:Em; [destruct H|]. rewrite Forall_forall in IH.
  assert (Hf : In n (flat_map ssn ins) -> subgraph base stop n (TG t ty ins)).
  { intros Hi. apply in_flat_map in Hi. destruct Hi as [i [Hi Hn]]. econstructor; eauto. }
  destruct (kind_of lty t ty); auto.
  - destruct ins as [|i ins]; [destruct H|]. econstructor; eauto; [now left|]. apply IH; auto. now left.
  - destruct (existsb child ins) eqn:Ec; [|destruct H]. destruct H as [<-|[]]. constructor.
Qed.

Lemma subgraph_trans : forall a b c, subgraph base stop a b -> subgraph base stop b c -> subgraph base stop a c.
Proof. intros a b c H1 H2. induction H2; auto. econstructor; eauto. Qed.

(** ** Decomposition of the log joint *)

Variable g : tgraph.
Hypothesis Hunf : unfolding base stop g.
Hypothesis Har : arity_ok lty base stop g.
Hypothesis Hone : one_dependent_factor lty base stop g.
Variable own : nat -> R.
Variable p : plan.
Variable x0 : R.
Variable A : R -> Prop.

Notation ks := (map fst p).
Hypothesis Hnd : NoDup ks.
Hypothesis Hnoother : ~ In StOther ks.
Hypothesis Hswap : forall n, In n (ssn g) -> exists k b, swapped p (root n) = Some (k, b).
Hypothesis Hconv : forall t k b, swapped p t = Some (k, b) ->
  exists n, In n (ssn g) /\ root n = t /\ In k ks /\
    exists c, forall x, A x -> val x n = bval en own b * stat_val k x + c.

Notation gr := (fun k s => grad en own lty base stop p k x0 s).

Lemma swapped_node : forall s k b, subgraph base stop s g -> swapped p (root s) = Some (k, b) ->
  In s (ssn g) /\ In k ks /\ exists c, forall x, A x -> val x s = bval en own b * stat_val k x + c.
Proof.
  intros s k b Hs H. destruct (Hconv _ _ _ H) as [n [Hn [Hr [Hk Hc]]]].
  assert (E : n = s) by (apply Hunf; auto; now apply ssn_subgraph). subst. auto.
Qed.

Lemma grad_const : forall s, subgraph base stop s g -> child s = false -> forall k, gr k s = 0.
Proof.
  induction s as [t ty ins IH] using tgraph_ind'. intros Hs Hc k.
  simpl. destruct (swapped p t) as [[k' b]|] eqn:E.
  { destruct (swapped_node (TG t ty ins) k' b Hs E) as [Hin _]. apply ssn_child in Hin. congruence. }
  simpl in Hc. destruct (Nat.eqb t base) eqn:Eb; [discriminate|]. apply Nat.eqb_neq in Eb.
  destruct (mem t stop) eqn:Em; auto.
  assert (Hz : forall i, In i ins -> gr k i = 0).
  { intros i Hi. rewrite Forall_forall in IH. apply IH; auto.
    - eapply subgraph_trans; [|exact Hs]. econstructor; eauto. constructor.
    - destruct (child i) eqn:Ei; auto. rewrite <- Hc. symmetry. apply existsb_exists. eauto. }
  destruct (kind_of lty t ty); auto.
  - now apply rsum_zero.
  - destruct ins as [|a [|b ins]]; simpl.
    + ring.
    + rewrite (Hz a) by now left. ring.
    + rewrite (Hz a) by now left. rewrite (Hz b) by (right; now left). ring.
  - clear - Hz. induction ins as [|i ins IHi]; auto. simpl. rewrite (Hz i) by now left.
    rewrite IHi by (intros; apply Hz; now right). ring.
  - destruct ins as [|a ins]; simpl; [ring|]. rewrite (Hz a) by now left. ring.
  - destruct ins as [|a ins]; simpl; auto. apply Hz. now left.
  - destruct ins as [|a ins]; simpl; auto. apply Hz. now left.
Qed.

Definition lincomb (s : tgraph) (x : R) : R := rsum (map (fun k => gr k s * stat_val k x) ks).

Lemma lincomb_swap : forall (f : stat -> tgraph -> R) ins x (l : list stat),
  rsum (map (fun k => rsum (map (f k) ins) * stat_val k x) l) =
  rsum (map (fun i => rsum (map (fun k => f k i * stat_val k x) l)) ins).
Proof.
  intros f ins x l. induction ins as [|i ins IH].
  - simpl. rewrite rsum_zero; auto. intros. simpl. ring.
  - cbn [map]. rewrite rsum_cons, <- IH.
    rewrite <- rsum_plus. apply rsum_ext. intros k _. rewrite rsum_cons. ring.
Qed.

Lemma stat_eqb_spec : forall a b, b <> StOther -> (stat_eqb a b = true <-> a = b).
Proof. intros [] [] H; simpl; split; intros; try congruence; auto. Qed.

Lemma lincomb_one : forall k b x, In k ks ->
  rsum (map (fun k' => (if stat_eqb k' k then b else 0) * stat_val k' x) ks) = b * stat_val k x.
Proof.
  intros k b x Hin.
  assert (Hk : k <> StOther) by (intros ->; auto).
  revert Hin Hnd. generalize ks. induction l as [|a l IH]; intros Hin Hn; [destruct Hin|].
  inversion Hn; subst. cbn [map]. rewrite rsum_cons. destruct Hin as [->|Hin].
  - rewrite (proj2 (stat_eqb_spec k k Hk) eq_refl).
    rewrite rsum_zero; [ring|]. intros a Ha. destruct (stat_eqb a k) eqn:E; [|ring].
    apply stat_eqb_spec in E; auto. subst. contradiction.
  - destruct (stat_eqb a k) eqn:E.
    + apply stat_eqb_spec in E; auto. subst. contradiction.
    + rewrite IH by auto. ring.
Qed.

Lemma node_val : forall x t ty ins, t <> base -> mem t stop = false ->
  val x (TG t ty ins) = op_val en x (match ty with Some s => HSym s | None => HTens t end) (map (val x) ins).
Proof.
  intros x t ty ins Hb Hm. simpl. apply Nat.eqb_neq in Hb. rewrite Hb. unfold mem in Hm. now rewrite Hm.
Qed.

Lemma kind_val : forall x t ty ins, t <> base -> mem t stop = false ->
  val x (TG t ty ins) =
  match kind_of lty t ty with
  | KAdd => rsum (map (val x) ins)
  | KSub => hd 0 (map (val x) ins) - hd 0 (tl (map (val x) ins))
  | KMul => rprod (map (val x) ins)
  | KNeg => match ins with [] => val x (TG t ty ins) | _ => - hd 0 (map (val x) ins) end
  | KSum | KFirst => match ins with [] => val x (TG t ty ins) | _ => hd 0 (map (val x) ins) end
  | KOther => val x (TG t ty ins)
  end.
Proof.
  intros x t ty ins Hb Hm. rewrite node_val by auto. destruct Hlin as [H1 [H2 H3]].
  destruct ty as [s|]; simpl.
  - destruct s; auto. destruct ins; auto.
  - destruct (lty t) eqn:E; auto.
    + destruct ins as [|i ins]; auto. simpl. now rewrite H2.
    + destruct ins as [|i ins]; auto. simpl. rewrite H3; auto.
    + destruct ins as [|i ins]; auto. simpl. rewrite H3; auto.
Qed.

Lemma decompose : forall s, subgraph base stop s g -> incl (ssn s) (ssn g) ->
  exists c, forall x, A x -> val x s = lincomb s x + c.
Proof.
  induction s as [t ty ins IH] using tgraph_ind'. intros Hs Hincl.
  destruct (swapped p t) as [[k b]|] eqn:E.
  { destruct (swapped_node (TG t ty ins) k b Hs E) as [_ [Hk [c Hc]]]. exists c. intros x Hx.
    rewrite Hc by auto. f_equal. unfold lincomb. symmetry.
    rewrite <- (lincomb_one k (bval en own b) x Hk). apply rsum_ext. intros k' _. simpl. now rewrite E. }
  destruct (Nat.eqb t base) eqn:Eb.
  { exfalso. assert (Hin : In (TG t ty ins) (ssn g)) by (apply Hincl; simpl; rewrite Eb; now left).
    destruct (Hswap _ Hin) as [k [b Hk]]. simpl in Hk. congruence. }
  pose proof Eb as Eb'. apply Nat.eqb_neq in Eb.
  destruct (mem t stop) eqn:Em.
  { exists (opq en t []). intros x _. unfold lincomb. rewrite rsum_zero.
    - simpl. rewrite Eb'. unfold mem in Em. rewrite Em. ring.
    - intros k _. simpl. rewrite E, Em. ring. }
  assert (Hsub : forall i, In i ins -> subgraph base stop i g).
  { intros i Hi. eapply subgraph_trans; [|exact Hs]. econstructor; eauto. constructor. }
  assert (Hgr : forall k, gr k (TG t ty ins) =
    let ds := map (gr k) ins in
        match kind_of lty t ty with
        | KAdd => rsum ds
        | KSub => hd 0 ds - hd 0 (tl ds)
        | KMul => dmul (combine (map (val x0) ins) ds)
        | KNeg => - hd 0 ds
        | KSum | KFirst => hd 0 ds
        | KOther => 0
        end) by (intros k; simpl; now rewrite E, Em).
  pose proof (Har t ty ins Hs Eb Em) as Ha.
  pose proof (fun x => kind_val x t ty ins Eb Em) as Hv.
  pose proof (Hone t ty ins Hs Eb Em) as Ho.
  assert (Hss : ssn (TG t ty ins) = match kind_of lty t ty with
         | KOther => if child (TG t ty ins) then [TG t ty ins] else []
         | KSum => match ins with i :: _ => ssn i | [] => [] end
         | _ => flat_map ssn ins
         end) by (simpl; rewrite Eb', Em; reflexivity).
  rewrite Hss in Hincl.
  assert (Hflat : incl (flat_map ssn ins) (ssn g) -> forall i, In i ins -> incl (ssn i) (ssn g)).
  { intros H i Hi n Hn. apply H. apply in_flat_map. eauto. }
  rewrite Forall_forall in IH. unfold lincomb.
  destruct (kind_of lty t ty) eqn:Ek.
  - (* sum *)
    assert (Hex : exists c, forall x, A x -> rsum (map (val x) ins) = rsum (map (fun i => lincomb i x) ins) + c).
    { specialize (Hflat Hincl). clear - IH Hsub Hflat.
      induction ins as [|i ins IHi]; [exists 0; intros; simpl; lra|].
      destruct IHi as [c Hc]; [intros; apply IH; auto; now right|intros; apply Hsub; now right|
        intros; apply Hflat; now right|].
      destruct (IH i) as [c' Hc']; [now left|apply Hsub; now left|apply Hflat; now left|].
      exists (c' + c). intros x Hx. cbn [map]. rewrite !rsum_cons, Hc, Hc' by auto. lra. }
    destruct Hex as [c Hc]. exists c. intros x Hx. rewrite Hv, Hc by auto. f_equal.
    unfold lincomb. rewrite <- (lincomb_swap (fun k i => gr k i)). apply rsum_ext. intros k _. now rewrite Hgr.
  - (* difference *)
    destruct ins as [|a [|b [|]]]; try discriminate.
    destruct (IH a) as [ca Ca]; [now left|apply Hsub; now left|apply Hflat; auto; now left|].
    destruct (IH b) as [cb Cb]; [right; now left|apply Hsub; right; now left|apply Hflat; auto; right; now left|].
    exists (ca - cb). intros x Hx. rewrite Hv. cbn [map hd tl]. rewrite Ca, Cb by auto.
    assert (El : rsum (map (fun k => gr k (TG t ty [a; b]) * stat_val k x) ks) = lincomb a x - lincomb b x).
    { unfold lincomb. replace (rsum (map (fun k => gr k a * stat_val k x) ks) - rsum (map (fun k => gr k b * stat_val k x) ks))
        with (rsum (map (fun k => gr k a * stat_val k x) ks) + (-1) * rsum (map (fun k => gr k b * stat_val k x) ks)) by ring.
      rewrite <- rsum_scal, <- rsum_plus. apply rsum_ext. intros k _. rewrite Hgr. cbn [map hd tl]. ring. }
    rewrite El. lra.
  - (* product *)
    destruct (Ho eq_refl) as [l1 [m [l2 [-> Hc]]]]. apply Forall_app in Hc. destruct Hc as [Hc1 Hc2].
    assert (Hm : In m (l1 ++ m :: l2)) by (apply in_or_app; right; now left).
    destruct (IH m Hm (Hsub m Hm) (Hflat Hincl m Hm)) as [c Cm].
    set (K := rprod (map (val x0) l1) * rprod (map (val x0) l2)).
    assert (Hcst : forall l x, Forall (fun i => child i = false) l -> map (val x) l = map (val x0) l).
    { intros l x Hl. apply map_ext_in. intros i Hi. rewrite Forall_forall in Hl. apply tval_const. auto. }
    assert (Hg1 : forall k i, In i l1 -> gr k i = 0).
    { intros k i Hi. apply grad_const; [apply Hsub; apply in_or_app; auto|]. rewrite Forall_forall in Hc1. auto. }
    assert (Hg2 : forall k i, In i l2 -> gr k i = 0).
    { intros k i Hi. apply grad_const; [apply Hsub; apply in_or_app; right; now right|].
      rewrite Forall_forall in Hc2. auto. }
    assert (Hgk : forall k, gr k (TG t ty (l1 ++ m :: l2)) = gr k m * K).
    { intros k. rewrite Hgr. cbv zeta. unfold K. specialize (Hg1 k). specialize (Hg2 k).
      assert (H2 : dmul (combine (map (val x0) l2) (map (gr k) l2)) = 0).
      { clear - Hg2. induction l2 as [|i l IHl]; auto. cbn [map combine dmul].
        rewrite Hg2 by now left. rewrite IHl by (intros; apply Hg2; now right). ring. }
      assert (Hf : forall l, map fst (combine (map (val x0) l) (map (gr k) l)) = map (val x0) l).
      { induction l as [|i l IHl]; auto. simpl. now rewrite IHl. }
      clear - Hg1 H2 Hf. induction l1 as [|i l IHl].
      - cbn [app map combine dmul]. rewrite H2, Hf. unfold rprod. simpl. ring.
      - cbn [app map combine dmul]. rewrite Hg1 by now left.
        rewrite IHl by (intros; apply Hg1; now right). rewrite rprod_cons. ring. }
    exists (K * c). intros x Hx. rewrite Hv, map_app, rprod_app. cbn [map]. rewrite rprod_cons.
    rewrite (Hcst l1 x Hc1), (Hcst l2 x Hc2), Cm by auto.
    assert (El : rsum (map (fun k => gr k (TG t ty (l1 ++ m :: l2)) * stat_val k x) ks) = K * lincomb m x).
    { unfold lincomb. rewrite <- rsum_scal. apply rsum_ext. intros k _. rewrite Hgk. ring. }
    rewrite El. unfold K. ring.
  - (* negation *)
    destruct ins as [|a ins]; [congruence|].
    destruct (IH a) as [ca Ca]; [now left|apply Hsub; now left|apply Hflat; auto; now left|].
    exists (- ca). intros x Hx. rewrite Hv. cbn [map hd]. rewrite Ca by auto. unfold lincomb.
    replace (- (rsum (map (fun k => gr k a * stat_val k x) ks) + ca)) with
      ((-1) * rsum (map (fun k => gr k a * stat_val k x) ks) + - ca) by ring.
    f_equal. rewrite <- rsum_scal. apply rsum_ext. intros k _. rewrite Hgr. cbn [map hd]. ring.
  - (* sum over entries *)
    destruct ins as [|a ins]; [congruence|].
    destruct (IH a) as [ca Ca]; [now left|apply Hsub; now left|auto|].
    exists ca. intros x Hx. rewrite Hv. cbn [map hd]. rewrite Ca by auto. unfold lincomb.
    f_equal. apply rsum_ext. intros k _. rewrite Hgr. reflexivity.
  - (* rearrangement *)
    destruct ins as [|a ins]; [congruence|].
    destruct (IH a) as [ca Ca]; [now left|apply Hsub; now left|apply Hflat; auto; now left|].
    exists ca. intros x Hx. rewrite Hv. cbn [map hd]. rewrite Ca by auto. unfold lincomb.
    f_equal. apply rsum_ext. intros k _. rewrite Hgr. reflexivity.
  - (* other *)
    destruct (child (TG t ty ins)) eqn:Ec.
    + exfalso. assert (Hin : In (TG t ty ins) (ssn g)) by (apply Hincl; now left).
      destruct (Hswap _ Hin) as [k [b Hk]]. simpl in Hk. congruence.
    + exists (val x0 (TG t ty ins)). intros x Hx. rewrite rsum_zero.
      * rewrite (tval_const _ Ec x x0). ring.
      * intros k _. rewrite Hgr. cbv zeta. ring.
Qed.
End Graph.

(** ** The plan *)

Lemma classify_val : forall en items k, classify items = k -> k <> StOther -> k <> StOneHot ->
  exists e, items = items_of e /\ forall x, den en x e = stat_val k x.
Proof.
  intros en items k H Ho Hh. unfold classify in H.
  repeat match goal with
  | H : match ?l with _ => _ end = _ |- _ => destruct l eqn:?; try (subst; congruence)
  end; subst; try congruence.
  - exists (Node HX []). auto.
  - exists (Node (HSym SLog) [Node HX []]). auto.
  - exists (Node (HSym SLog) [Node (HSym SOneMinus) [Node HX []]]). auto.
  - exists (Node (HCPow q) [Node HX []]). split; auto. intros x. simpl.
    apply Qeq_bool_eq in Heqb. rewrite (cpow_eq q (-1) x Heqb). change (-1)%Q with (inject_Z (-1)). rewrite cpow_int. simpl. now rewrite Rmult_1_r.
  - exists (Node (HCPow q) [Node HX []]). split; auto. intros x. simpl.
    apply Qeq_bool_eq in Heqb0. rewrite (cpow_eq q 2 x Heqb0). change 2%Q with (inject_Z 2). rewrite cpow_int. simpl. ring.
Qed.

Lemma own_symbolic : forall ti en own base stop x0 s,
  (forall r, subgraph base stop r s -> own (root r) = tval en base stop x0 r) ->
  tens_ok ti en own x0 (symbolic_suff_stat base stop s).
Proof.
  intros ti en own base stop x0. induction s as [t ty ins IH] using tgraph_ind'. intros H.
  pose proof (H _ (sg_refl _ _ _)) as Ht. rewrite <- symbolic_den in Ht. simpl root in Ht.
  simpl symbolic_suff_stat in *. destruct (Nat.eqb t base) eqn:Eb.
  { apply alln_args. split; [exact I|constructor]. }
  destruct (existsb (Nat.eqb t) stop) eqn:Em.
  { apply alln_args. split; [right; exact Ht|constructor]. }
  apply alln_args. split.
  - destruct ty; [exact I|right; exact Ht].
  - apply Nat.eqb_neq in Eb. rewrite Forall_forall in *. intros e He. apply in_map_iff in He.
    destruct He as [i [<- Hi]]. apply IH; auto. intros r Hr. apply H. econstructor; eauto.
Qed.

Section Plan.
Variable ti : tinfo.
Variable en : env.
Hypothesis Hen : env_ok ti en.
Variable own : nat -> R.
Variable base : nat.
Variable stop : list nat.
Variable x0 : R.
Variable A : R -> Prop.
Hypothesis Hx0 : A x0.

Definition represents (n : tgraph) (k : stat) (b : built) : Prop :=
  k <> StOther -> k <> StOneHot ->
  exists c, forall x, A x -> tval en base stop x n = bval en own b * stat_val k x + c.

Lemma node_represents : forall fuel n e ms items b,
  simplifies_exactly ti en A (symbolic_suff_stat base stop n) ->
  (forall r, subgraph base stop r n -> own (root r) = tval en base stop x0 r) ->
  full_simplify ti fuel (symbolic_suff_stat base stop n) = Some (Ret e) ->
  extract_s_stat_multipliers e = (ms, items) ->
  reconstruct_multiplier ms = Ret b ->
  represents n (classify items) b.
Proof.
  intros fuel n e ms items b [L [P D]] Ho Hf He Hr Hk1 Hk2.
  destruct (classify_val en items _ eq_refl Hk1 Hk2) as [k [-> Hk]].
  destruct (extract_exact _ _ _ He) as [Hfree Hv].
  assert (Hown : own_values en own x0 e).
  { eapply simplified_own; eauto. now apply own_symbolic. }
  assert (Hb : bval en own b = rprod (map (den en x0) ms)).
  { eapply reconstruct_multiplier_val; eauto. apply Forall_forall. intros m Hm t args Hs.
    apply Hown. eapply subexpr_trans; [exact Hs|]. apply multiplier_sub. rewrite He. exact Hm. }
  destruct (full_simplify_sound ti en _ _ fuel A Hen L P D Hf) as [c Hc].
  exists c. intros x Hx. rewrite <- symbolic_den, (Hc x Hx), Hv, Hk, Hb. f_equal. f_equal. f_equal.
  apply map_ext_in. intros m Hm. rewrite Forall_forall in Hfree. apply den_xfree. apply Hfree. exact Hm.
Qed.

Definition entry (p : plan) (k : stat) (t : nat) (b : built) : Prop :=
  exists vs, In (k, vs) p /\ In (t, b) vs.

Lemma stat_eqb_eq : forall a b, stat_eqb a b = true -> a = b.
Proof. intros [] []; simpl; congruence. Qed.

Lemma append_entry : forall k v p k' t b,
  entry (append_to k v p) k' t b <-> (k' = k /\ v = (t, b)) \/ entry p k' t b.
Proof.
  intros k v p k' t b. induction p as [|[k1 vs] p IH].
  - simpl. split.
    + intros [ws [[E|[]] Hb]]. inversion E; subst. destruct Hb as [->|[]]. auto.
    + intros [[-> ->]|[ws [[] _]]]. exists [(t, b)]. split; now left.
  - simpl. destruct (stat_eqb k k1) eqn:E.
    + apply stat_eqb_eq in E. subst k1. split.
      * intros [ws [[E|Hi] Hb]].
        -- inversion E; subst. apply in_app_or in Hb. destruct Hb as [Hb|[->|[]]]; auto.
           right. exists vs. split; auto. now left.
        -- right. exists ws. split; auto. now right.
      * intros [[-> ->]|[ws [[E|Hi] Hb]]].
        -- exists (vs ++ [(t, b)]). split; [now left|]. apply in_or_app. right. now left.
        -- inversion E; subst. exists (ws ++ [v]). split; [now left|]. apply in_or_app. now left.
        -- exists ws. split; auto. now right.
    + assert (Hs : forall p', entry ((k1, vs) :: p') k' t b <-> (k1 = k' /\ In (t, b) vs) \/ entry p' k' t b).
      { intros p'. split.
        - intros [ws [[E'|Hi] Hb]]; [inversion E'; subst; auto|]. right. exists ws. auto.
        - intros [[-> Hb]|[ws [Hi Hb]]]; [exists vs|exists ws]; split; auto; simpl; auto. }
      rewrite !Hs, IH. tauto.
Qed.

Lemma collect_spec : forall fuel nodes p p',
  (forall n, In n nodes -> simplifies_exactly ti en A (symbolic_suff_stat base stop n) /\
     (forall r, subgraph base stop r n -> own (root r) = tval en base stop x0 r)) ->
  collect ti fuel base stop nodes p = Some (Ret p') ->
  (forall k t b, entry p' k t b -> entry p k t b \/ exists n, In n nodes /\ root n = t /\ represents n k b) /\
  (forall n, In n nodes -> exists k b, entry p' k (root n) b) /\
  (forall k t b, entry p k t b -> entry p' k t b).
Proof.
  intros fuel. induction nodes as [|n nodes IH]; intros p p' Hn H.
  - simpl in H. inversion H; subst. split; [auto|]. split; [intros n []|auto].
  - simpl in H.
    destruct (full_simplify ti fuel (symbolic_suff_stat base stop n)) as [[e|]|] eqn:E1; try discriminate.
    destruct (extract_s_stat_multipliers e) as [ms items] eqn:E2.
    destruct (reconstruct_multiplier ms) as [b|] eqn:E3; [|discriminate].
    destruct (Hn n (or_introl eq_refl)) as [Hx Ho].
    pose proof (node_represents _ _ _ _ _ _ Hx Ho E1 E2 E3) as Hrep.
    destruct (IH _ _ (fun m Hm => Hn m (or_intror Hm)) H) as [Ha [Hb Hc]].
    split; [|split].
    + intros k t b' He. destruct (Ha _ _ _ He) as [He'|[m [Hm [Hr Hrp]]]].
      * apply append_entry in He'. destruct He' as [[-> Ev]|He']; auto.
        inversion Ev; subst. right. exists n. split; [now left|auto].
      * right. exists m. split; [now right|auto].
    + intros m [<-|Hm]; auto. exists (classify items), b. apply Hc. apply append_entry. auto.
    + intros k t b' He. apply Hc. apply append_entry. auto.
Qed.
End Plan.

Lemma swapped_entry : forall p t k b, swapped p t = Some (k, b) -> entry p k t b.
Proof.
  intros p t k b H. unfold swapped in H.
  destruct (flat_map _ p) as [|a l] eqn:E; [discriminate|]. inversion H; subst.
  assert (Hi : In (k, b) (flat_map (fun kv => map (fun v => (fst kv, snd v))
     (filter (fun v => Nat.eqb t (fst v)) (snd kv))) p)) by (rewrite E; now left).
  apply in_flat_map in Hi. destruct Hi as [[k' vs] [Hp Hi]]. apply in_map_iff in Hi.
  destruct Hi as [[t' b'] [Ev Hi]]. apply filter_In in Hi. simpl in *. destruct Hi as [Hi Et].
  apply Nat.eqb_eq in Et. inversion Ev; subst. exists vs. auto.
Qed.

Lemma entry_swapped : forall p t k b, entry p k t b -> exists k' b', swapped p t = Some (k', b').
Proof.
  intros p t k b [vs [Hp Hv]]. unfold swapped.
  assert (Hi : In (k, b) (flat_map (fun kv => map (fun v => (fst kv, snd v))
     (filter (fun v => Nat.eqb t (fst v)) (snd kv))) p)).
  { apply in_flat_map. exists (k, vs). split; auto. apply in_map_iff. exists (t, b). split; auto.
    apply filter_In. split; auto. simpl. apply Nat.eqb_refl. }
  destruct (flat_map _ p) as [|[k' b'] l]; [destruct Hi|]. eauto.
Qed.

Lemma insert_perm : forall x p, Permutation (insert_key x p) (x :: p).
Proof.
  intros x p. induction p as [|y p IH]; auto. simpl. destruct (String.leb _ _); auto.
  rewrite IH. constructor.
Qed.
Lemma sort_perm : forall p, Permutation (sort_keys p) p.
Proof. induction p as [|x p IH]; auto. simpl. rewrite insert_perm. now constructor. Qed.

Lemma dot_rsum : forall (f : stat -> R) key x,
  dot (map f key) (stats key x) = rsum (map (fun k => f k * stat_val k x) key).
Proof. intros f key x. induction key as [|k key IH]; auto. simpl. rewrite IH. reflexivity. Qed.

Lemma table_keys : forall s key eta d, scalar_table s key eta = Some d ->
  NoDup key /\ ~ In StOther key /\ ~ In StOneHot key.
Proof.
  intros s key eta d H. unfold scalar_table in H.
  repeat match goal with
  | H : match ?l with _ => _ end = _ |- _ => destruct l; try discriminate
  end; (split; [repeat constructor; simpl; intuition congruence|]; simpl; intuition congruence).
Qed.

Lemma density_ext : forall G s key eta d f h, scalar_table s key eta = Some d ->
  (forall x, in_support s x -> f x = h x) -> is_log_density G d f -> is_log_density G d h.
Proof.
  intros G s key eta d f h H E D. unfold scalar_table in H.
  repeat match goal with
  | H : match ?l with _ => _ end = _ |- _ => destruct l; try discriminate
  end; inversion H; subst; simpl in *; unfold normal_from_natural_params in *; simpl in *;
  intuition; rewrite <- E; eauto; simpl; eauto.
Qed.

Theorem conditional_sound : forall G ti fuel en own lty base stop sup nodes g x0 d,
  gamma_function G -> env_ok ti en -> linear_ops lty en ->
  unfolding base stop g -> arity_ok lty base stop g -> one_dependent_factor lty base stop g ->
  (forall n, In n nodes <-> In n (suff_stat_nodes lty base stop g)) ->
  (forall n, In n nodes -> simplifies_exactly ti en (in_support sup) (symbolic_suff_stat base stop n)) ->
  in_support sup x0 -> true_values en own base stop x0 g ->
  complete_conditional ti fuel en own lty base stop sup nodes g x0 = Some (Ret d) ->
  proper d -> ~ wrong_entry d ->
  exists c, is_log_density G d (fun x => tval en base stop x g + c).
Proof.
  intros G ti fuel en own lty base stop sup nodes g x0 d HG Hen Hlin Hunf Har Hone Hnodes Hsimp Hx0 Htv H Hp Hw.
  unfold complete_conditional in H.
  destruct (collect ti fuel base stop nodes []) as [[p|]|] eqn:Ec; try discriminate.
  destruct (scalar_table sup _ _) as [d'|] eqn:Et; inversion H; subst d'. clear H.
  destruct (table_keys _ _ _ _ Et) as [Hnd [Hno Hnh]].
  assert (Hperm : Permutation (map fst (sort_keys p)) (map fst p)) by (apply Permutation_map, sort_perm).
  assert (Hno' : ~ In StOther (map fst p)) by (intros Hi; apply Hno; eapply Permutation_in; [symmetry; exact Hperm|auto]).
  assert (Hnh' : ~ In StOneHot (map fst p)) by (intros Hi; apply Hnh; eapply Permutation_in; [symmetry; exact Hperm|auto]).
  destruct (collect_spec ti en Hen own base stop x0 (in_support sup) Hx0 fuel nodes [] p) as [Ha [Hb _]]; auto.
  { intros n Hn. split; auto. intros r Hr. apply Htv. eapply subgraph_trans; eauto.
    apply (ssn_subgraph lty). now apply Hnodes. }
  assert (Hkeys : forall k t b, entry p k t b -> In k (map fst p)).
  { intros k t b [vs [Hi _]]. apply in_map_iff. exists (k, vs). auto. }
  destruct (decompose en lty base stop Hlin g Hunf Har Hone own p x0 (in_support sup)) with (s := g) as [c Hc].
  - eapply Permutation_NoDup; eauto.
  - auto.
  - intros n Hn. apply Hnodes in Hn. destruct (Hb n Hn) as [k [b He]]. eapply entry_swapped; eauto.
  - intros t k b Hs. apply swapped_entry in Hs. destruct (Ha _ _ _ Hs) as [[vs [[] _]]|[n [Hn [Hr Hrep]]]].
    exists n. split; [now apply Hnodes|]. split; auto. split; [eauto|].
    apply Hrep; intros ->; [apply Hno'|apply Hnh']; eauto.
  - constructor.
  - apply incl_refl.
  - destruct (scalar_table_ok G (fun z => ln (G z)) HG (fun z _ => eq_refl) sup _ _ d Et Hp Hw) as [c' Hd].
    exists (c' - c). eapply density_ext; eauto. intros x Hx. rewrite Hc by auto.
    rewrite <- (map_map fst (fun k => grad en own lty base stop p k x0 g)), dot_rsum.
    unfold lincomb. rewrite (rsum_perm _ _ (Permutation_map _ Hperm)). simpl. lra.
Qed.

(** ** Counterexamples *)

Fixpoint subs (base : nat) (stop : list nat) (g : tgraph) : list tgraph :=
  match g with
  | TG t ty ins => g :: if Nat.eqb t base then [] else if mem t stop then [] else flat_map (subs base stop) ins
  end.

Lemma subs_spec : forall base stop s g, subgraph base stop s g -> In s (subs base stop g).
Proof.
  intros base stop s g H. induction H as [|t ty ins i Hb Hm Hi H IH].
  - destruct s; now left.
  - simpl. right. apply Nat.eqb_neq in Hb. rewrite Hb, Hm. apply in_flat_map. eauto.
Qed.

Ltac each H := repeat (destruct H as [<-|H]; [|]); [..|destruct H].

(** log (x + 1) - x, for a positive variable. *)
Definition bad1 : tgraph :=
  TG 9 (Some SSub) [TG 5 (Some SLog) [TG 4 (Some SAdd) [TG 0 None []; TG 2 None []]]; TG 0 None []].
Definition bad1_nodes : list tgraph :=
  [TG 5 (Some SLog) [TG 4 (Some SAdd) [TG 0 None []; TG 2 None []]]; TG 0 None []].
Definition bad_lty (t : nat) : lin := LNot.
Definition bad_own (x : R) (t : nat) : R :=
  match t with 0%nat => x | 4%nat => x + 1 | 5%nat => ln (x + 1) | 9%nat => ln (x + 1) - x | _ => 1 end.
Definition bad_ti : tinfo := mktinfo (fun _ => false) (fun _ => CUnknown).
Definition bad_en : env := mkenv (fun _ _ => 1) (fun _ => 0).

Lemma bad_en_ok : env_ok bad_ti bad_en.
Proof. repeat split; simpl; intros; auto; discriminate. Qed.
Lemma bad_lin : linear_ops bad_lty bad_en.
Proof. repeat split; intros; unfold bad_lty in *; intuition discriminate. Qed.

Lemma bad1_conditional : exists a b, a = 2 /\ b = 1 /\
  complete_conditional bad_ti 20 bad_en (bad_own 1) bad_lty 0 [2%nat] SupNonnegative bad1_nodes bad1 1 =
  Some (Ret (DGamma a b)).
Proof.
  exists (1 + 1), 1. split; [ring|]. split; auto.
  unfold complete_conditional.
  replace (collect bad_ti 20 0 [2%nat] bad1_nodes []) with
    (Some (Ret [(StLog, [(5%nat, BNum 1)]); (StX, [(0%nat, BNum 1)])])) by (vm_compute; reflexivity).
  cbn -[Rplus Rminus Q2R]. 
  replace (Q2R 1) with 1 by (unfold Q2R; simpl; lra). do 3 f_equal; ring.
Qed.

Ltac cases H := simpl in H; repeat (destruct H as [H|H]; [inversion H; subst; clear H|]); [..|contradiction H].

Lemma gamma_log : forall G a b x, gamma_function G -> 0 < a -> 0 < b -> 0 < x ->
  ln (gamma_pdf G a b x) = (a - 1) * ln x - b * x - ln (G a) + a * ln b.
Proof.
  intros G a b x HG Ha Hb Hx. rewrite <- (gamma_ok G (fun z => ln (G z)) HG (fun z _ => eq_refl)) by auto.
  unfold gamma_log_prob. ring.
Qed.

Lemma bad1_refuted : forall G, gamma_function G ->
  exists ti fuel en own lty base stop sup nodes g x0 d,
  env_ok ti en /\ linear_ops lty en /\
  unfolding base stop g /\ arity_ok lty base stop g /\ one_dependent_factor lty base stop g /\
  nodes = suff_stat_nodes lty base stop g /\
  in_support sup x0 /\ true_values en own base stop x0 g /\
  complete_conditional ti fuel en own lty base stop sup nodes g x0 = Some (Ret d) /\
  proper d /\ ~ wrong_entry d /\
  ~ exists c, is_log_density G d (fun x => tval en base stop x g + c).
Proof.
  intros G HG. destruct bad1_conditional as [a [b [-> [-> Hc]]]].
  exists bad_ti, 20%nat, bad_en, (bad_own 1), bad_lty, 0%nat, [2%nat], SupNonnegative, bad1_nodes, bad1, 1, (DGamma 2 1).
  split; [exact bad_en_ok|]. split; [exact bad_lin|].
  split; [|split; [|split; [|split; [reflexivity|split; [simpl; lra|split; [|split; [exact Hc|split; [simpl; lra|split; [simpl; tauto|]]]]]]]]].
  - intros s r Hs Hr. apply subs_spec in Hs. apply subs_spec in Hr. cases Hs; cases Hr; simpl; congruence.
  - intros t ty ins Hs _ _. apply subs_spec in Hs. cases Hs; simpl; auto.
  - intros t ty ins Hs Hb Hm Hk. apply subs_spec in Hs. cases Hs; simpl in Hk; try discriminate; congruence.
  - intros s Hs. apply subs_spec in Hs. cases Hs; simpl; try reflexivity; rewrite ?Rplus_0_r; reflexivity.
  - intros [c [_ [_ H]]].
    pose proof (H 1 ltac:(lra)) as H1. pose proof (H 2 ltac:(lra)) as H2.
    rewrite gamma_log in H1, H2 by (auto; lra). simpl in H1, H2. rewrite ?Rplus_0_r in *.
    rewrite ln_1 in *. replace (1 + 1) with 2 in H1 by ring. replace (2 + 1) with 3 in H2 by ring.
    assert (E : ln 3 = ln (2 * 2)) by (rewrite ln_mult; lra). apply ln_inv in E; lra.
Qed.

(** x * log x, for a positive variable with current value 1/2. *)
Definition bad2 : tgraph := TG 9 (Some SMul) [TG 0 None []; TG 5 (Some SLog) [TG 0 None []]].
Definition bad2_nodes : list tgraph := [TG 0 None []; TG 5 (Some SLog) [TG 0 None []]].
Definition bad2_own (x : R) (t : nat) : R :=
  match t with 0%nat => x | 5%nat => ln x | 9%nat => x * ln x | _ => 1 end.

Lemma bad2_conditional : exists a b, a = / 2 + 1 /\ b = ln 2 /\
  complete_conditional bad_ti 20 bad_en (bad2_own (/ 2)) bad_lty 0 [] SupNonnegative bad2_nodes bad2 (/ 2) =
  Some (Ret (DGamma a b)).
Proof.
  exists (/ 2 + 1), (ln 2). split; [ring|]. split; auto.
  unfold complete_conditional.
  replace (collect bad_ti 20 0 [] bad2_nodes []) with
    (Some (Ret [(StX, [(0%nat, BNum 1)]); (StLog, [(5%nat, BNum 1)])])) by (vm_compute; reflexivity).
  cbn -[Rplus Rminus Q2R ln Rinv].
  replace (Q2R 1) with 1 by (unfold Q2R; simpl; lra). rewrite ln_Rinv by lra. do 3 f_equal; ring.
Qed.

Lemma bad2_refuted : forall G, gamma_function G ->
  exists ti fuel en own lty base stop sup nodes g x0 d,
  env_ok ti en /\ linear_ops lty en /\
  unfolding base stop g /\ arity_ok lty base stop g /\
  nodes = suff_stat_nodes lty base stop g /\
  (forall n, In n nodes -> simplifies_exactly ti en (in_support sup) (symbolic_suff_stat base stop n)) /\
  in_support sup x0 /\ true_values en own base stop x0 g /\
  complete_conditional ti fuel en own lty base stop sup nodes g x0 = Some (Ret d) /\
  proper d /\ ~ wrong_entry d /\
  ~ exists c, is_log_density G d (fun x => tval en base stop x g + c).
Proof.
  intros G HG. destruct bad2_conditional as [a [b [-> [-> Hc]]]].
  exists bad_ti, 20%nat, bad_en, (bad2_own (/ 2)), bad_lty, 0%nat, [], SupNonnegative, bad2_nodes, bad2, (/ 2),
    (DGamma (/ 2 + 1) (ln 2)).
  assert (L2 : 0 < ln 2) by (rewrite <- ln_1; apply ln_increasing; lra).
  split; [exact bad_en_ok|]. split; [exact bad_lin|].
  split; [|split; [|split; [reflexivity|split; [|split; [simpl; lra|split; [|split; [exact Hc|split; [simpl; lra|split; [simpl; tauto|]]]]]]]]].
  - intros s r Hs Hr. apply subs_spec in Hs. apply subs_spec in Hr. cases Hs; cases Hr; simpl; congruence.
  - intros t ty ins Hs _ _. apply subs_spec in Hs. cases Hs; simpl; auto.
  - intros n Hn. cases Hn.
    + split; [apply lf_mono; cbv; tauto|]. split; [cbv; tauto|]. intros x Hx. cbv; tauto.
    + split; [apply lf_log; cbv; tauto|]. split; [cbn; repeat split|]. intros x Hx. simpl in Hx. cbn. repeat split; auto.
  - intros s Hs. apply subs_spec in Hs. cases Hs; simpl; try reflexivity; rewrite ?Rmult_1_r; reflexivity.
  - intros [c [_ [_ H]]].
    pose proof (H 1 ltac:(lra)) as H1. pose proof (H 2 ltac:(lra)) as H2. pose proof (H 4 ltac:(lra)) as H4.
    rewrite gamma_log in H1, H2, H4 by (auto; lra). simpl in H1, H2, H4. rewrite ?Rplus_0_r, ?Rmult_1_r in *.
    rewrite ln_1 in *. replace 4 with (2 * 2) in H4 by ring. rewrite (ln_mult 2 2) in H4 by lra. nra.
Qed.

(** A log joint that is treated correctly: c x^2 + y x, for c = -1/2, y = 3. *)
Definition good : tgraph :=
  TG 9 (Some SAdd) [TG 8 (Some SMul) [TG 2 None []; TG 5 (Some SSquare) [TG 0 None []]];
                    TG 7 (Some SMul) [TG 0 None []; TG 3 None []]].
Definition good_en : env := mkenv (fun t _ => if Nat.eqb t 2 then - / 2 else 3) (fun _ => 0).
Definition good_nodes : list tgraph := [TG 5 (Some SSquare) [TG 0 None []]; TG 0 None []].
Definition good_own (x : R) (t : nat) : R :=
  match t with
  | 0%nat => x | 2%nat => - / 2 | 3%nat => 3 | 5%nat => x * x | 7%nat => x * 3
  | 8%nat => - / 2 * (x * x) | 9%nat => - / 2 * (x * x) + x * 3 | _ => 0 end.

Lemma good_ok :
  env_ok bad_ti good_en /\ linear_ops bad_lty good_en /\
  unfolding 0 [2; 3]%nat good /\ arity_ok bad_lty 0 [2; 3]%nat good /\
  one_dependent_factor bad_lty 0 [2; 3]%nat good /\
  good_nodes = suff_stat_nodes bad_lty 0 [2; 3]%nat good /\
  (forall n, In n good_nodes ->
     simplifies_exactly bad_ti good_en (in_support SupReal) (symbolic_suff_stat 0 [2; 3]%nat n)) /\
  in_support SupReal 7 /\ true_values good_en (good_own 7) 0 [2; 3]%nat 7 good /\
  exists d, complete_conditional bad_ti 20 good_en (good_own 7) bad_lty 0 [2; 3]%nat SupReal good_nodes good 7
            = Some (Ret d) /\ proper d /\ ~ wrong_entry d.
Proof.
  split; [repeat split; simpl; intros; auto; discriminate|].
  split; [repeat split; intros; unfold bad_lty in *; intuition discriminate|].
  split; [|split; [|split; [|split; [reflexivity|split; [|split; [exact I|split]]]]]].
  - intros s r Hs Hr. apply subs_spec in Hs. apply subs_spec in Hr. cases Hs; cases Hr; simpl; congruence.
  - intros t ty ins Hs _ _. apply subs_spec in Hs. cases Hs; simpl; auto.
  - intros t ty ins Hs Hb Hm Hk. apply subs_spec in Hs. cases Hs; simpl in Hk; try discriminate; try congruence.
    + exists [TG 2 None []], (TG 5 (Some SSquare) [TG 0 None []]), []. split; auto.
      repeat constructor.
    + exists [], (TG 0 None []), [TG 3 None []]. split; auto. repeat constructor.
  - intros n Hn. cases Hn.
    + split; [apply lf_mono; cbv; tauto|]. split; [cbv; repeat split; lia|]. intros x Hx. cbn. repeat split; auto.
    + split; [apply lf_mono; cbv; tauto|]. split; [cbv; tauto|]. intros x Hx. cbn. repeat split; auto.
  - intros s Hs. apply subs_spec in Hs. cases Hs; simpl; try reflexivity; rewrite ?Rmult_1_r, ?Rplus_0_r; reflexivity.
  - eexists. split.
    + unfold complete_conditional.
      replace (collect bad_ti 20 0 [2; 3]%nat good_nodes []) with
        (Some (Ret [(StSquare, [(5%nat, BNum 1)]); (StX, [(0%nat, BNum 1)])])) by (vm_compute; reflexivity).
      cbn -[Rplus Rminus Q2R ln Rinv normal_from_natural_params]. reflexivity.
    + replace (Q2R 1) with 1 by (unfold Q2R; simpl; lra). split; [|simpl; tauto].
      unfold normal_from_natural_params, proper. cbv zeta. apply sqrt_lt_R0.
      match goal with |- 0 < / 2 * / - ?e => replace e with (- / 2) by field end. apply Rmult_lt_0_compat; [lra|apply Rinv_0_lt_compat; lra].
Qed.
