(** * Proofs for C78. *)
From Coquelicot Require Import Coquelicot.
From Coq Require Import Reals List Arith Bool Lra Lia Permutation.
From Verif Require Import SimplifySpec ConjLogProb ConjSpec Conjugacy ConjugacyProofs ConjProofs.
From Verif Require Import TConj TConjSpec.
Import ListNotations.
Local Open Scope R_scope.

(** ** Shapes *)

Lemma in_indices_cons : forall n s i idx, In (i :: idx) (indices (n :: s)) <-> (i < n)%nat /\ In idx (indices s).
Proof.
  intros n s i idx. cbn [indices]. rewrite in_flat_map. split.
  - intros (k & Hk & H). apply in_map_iff in H. destruct H as (y & Hy & H). inversion Hy; subst.
    apply in_seq in Hk. split; [lia|auto].
  - intros [Hi H]. exists i. split; [apply in_seq; lia|]. apply in_map_iff. eauto.
Qed.
Lemma in_indices_nil : forall n s, ~ In [] (indices (n :: s)).
Proof. intros n s H. cbn [indices] in H. apply in_flat_map in H. destruct H as (k & _ & H). apply in_map_iff in H. destruct H as (y & Hy & _). discriminate. Qed.
Lemma in_indices_one : forall idx, In idx (indices []) <-> idx = [].
Proof. intros. cbn. intuition congruence. Qed.

Lemma NoDup_app_sep : forall (a b : list (list nat)), NoDup a -> NoDup b -> (forall x, In x a -> ~ In x b) -> NoDup (a ++ b).
Proof.
  induction a as [|x a IHa]; intros b Ha Hb Hs; auto. inversion Ha; subst. cbn. constructor.
  - rewrite in_app_iff. intros [H|H]; [auto|]. apply (Hs x); cbn; auto.
  - apply IHa; auto. intros y Hy. apply Hs. cbn. auto.
Qed.
Lemma NoDup_indices : forall s, NoDup (indices s).
Proof.
  induction s as [|n s IH]; [repeat constructor; auto|]. cbn [indices].
  generalize (seq_NoDup n 0). generalize (seq 0 n). induction l as [|i l IHl]; intros Hl; [constructor|].
  cbn [flat_map]. inversion Hl; subst. apply NoDup_app_sep; auto.
  - apply FinFun.Injective_map_NoDup; [intros a b E; now inversion E|auto].
  - intros x Hx Hy. apply in_map_iff in Hx. destruct Hx as (y & <- & _). apply in_flat_map in Hy.
    destruct Hy as (k & Hk & Hy). apply in_map_iff in Hy. destruct Hy as (z & E & _). inversion E; subst. auto.
Qed.

Lemma proj_same : forall s idx, In idx (indices s) -> proj s idx = idx.
Proof.
  induction s as [|n s IH]; intros idx H; [apply in_indices_one in H; subst; auto|].
  destruct idx as [|i idx]; [exfalso; eapply in_indices_nil; eauto|]. apply in_indices_cons in H. destruct H as [Hi H].
  cbn [proj]. rewrite IH by auto. destruct (Nat.eqb_spec n 1); [|auto]. f_equal. lia.
Qed.
Lemma bshape_same : forall s, bshape s s = Some s.
Proof. induction s as [|n s IH]; auto. cbn [bshape]. rewrite IH, Nat.eqb_refl. auto. Qed.


(** [a] broadcasts to [s]. *)
Inductive fits : list nat -> list nat -> Prop :=
| fits_nil : forall s, fits [] s
| fits_cons : forall m a k s, m = k \/ m = 1%nat -> fits a s -> fits (m :: a) (k :: s).
Lemma fits_refl : forall s, fits s s.
Proof. induction s; constructor; auto. Qed.
Lemma fits_trans : forall a b c, fits a b -> fits b c -> fits a c.
Proof.
  intros a b c H. revert c. induction H; intros c Hc; [constructor|]. inversion Hc; subst. constructor; auto.
  destruct H; [|auto]. subst. auto.
Qed.
Lemma bshape_fits : forall a b s, bshape a b = Some s -> fits a s /\ fits b s.
Proof.
  induction a as [|m a IH]; intros b s H.
  - cbn in H. inversion H; subst. split; [constructor|apply fits_refl].
  - destruct b as [|n b]; [cbn in H; inversion H; subst; split; [apply fits_refl|constructor]|].
    cbn [bshape] in H. destruct (bshape a b) as [r|] eqn:E; [|discriminate]. destruct (IH _ _ E).
    destruct (Nat.eqb_spec m n); [|destruct (Nat.eqb_spec m 1); [|destruct (Nat.eqb_spec n 1); [|discriminate]]];
      inversion H; subst; split; constructor; auto.
Qed.
Lemma bshapes_fits : forall l s, bshapes l = Some s -> forall a, In a l -> fits a s.
Proof.
  induction l as [|b l IH]; intros s H a Ha; [destruct Ha|]. cbn in H. destruct (bshapes l) as [r|] eqn:E; [|discriminate].
  destruct (bshape_fits _ _ _ H) as [A B]. destruct Ha as [->|Ha]; auto. eapply fits_trans; eauto.
Qed.
Lemma fits_proj : forall a s, fits a s -> forall idx, In idx (indices s) -> In (proj a idx) (indices a).
Proof.
  intros a s H. induction H; intros idx Hi; [cbn; auto|].
  destruct idx as [|i idx]; [exfalso; eapply in_indices_nil; eauto|]. apply in_indices_cons in Hi. destruct Hi as [Hi Hidx].
  cbn [proj]. apply in_indices_cons. split; auto. destruct (Nat.eqb_spec m 1); lia.
Qed.
Lemma bshapes_repeat : forall s (A : Type) (l : list A), l <> [] -> bshapes (map (fun _ => s) l) = Some s.
Proof.
  intros s A l H. destruct l as [|a l]; [congruence|]. clear H. cbn [map bshapes].
  assert (E : bshapes (map (fun _ => s) l) = Some s \/ bshapes (map (fun _ => s) l) = Some []).
  { induction l as [|b l IH]; [right; auto|left]. cbn [map bshapes]. destruct IH as [->| ->].
    - apply bshape_same.
    - destruct s; auto. }
  destruct E as [-> | ->]; [apply bshape_same|destruct s; auto].
Qed.

(** ** Entries *)

Definition entry (o : option ten) (idx : list nat) : R := match o with Some t => at_ t idx | None => 0 end.

Lemma sequence_some : forall A B (f : A -> option B) l ts, sequence (map f l) = Some ts -> Forall2 (fun a t => f a = Some t) l ts.
Proof.
  intros A B f l. induction l as [|a l IH]; intros ts H; cbn in H; [inversion H; constructor|].
  destruct (f a) eqn:E; [|discriminate]. destruct (sequence (map f l)) eqn:E'; [|discriminate]. inversion H; subst. constructor; auto.
Qed.
Lemma some_sequence : forall A B (f : A -> option B) l ts, Forall2 (fun a t => f a = Some t) l ts -> sequence (map f l) = Some ts.
Proof. intros A B f l ts H. induction H; auto. cbn. rewrite H, IHForall2. auto. Qed.

Lemma Forall2_one : forall A B (Q : A -> B -> Prop) a l, Forall2 Q [a] l -> exists b, l = [b] /\ Q a b.
Proof. intros A B Q a l H. inversion H as [|? b ? l' H1 H2]; subst. inversion H2; subst. eauto. Qed.

Lemma entries_at : forall A (ev : A -> option ten) ins ts idx, Forall2 (fun a t => ev a = Some t) ins ts ->
  map (fun t => at_ t (proj (sh t) idx)) ts = map (fun q => entry (ev (fst q)) (proj (snd q) idx)) (combine ins (map sh ts)).
Proof. intros A ev ins ts idx H. induction H; auto. cbn. rewrite IHForall2, H. auto. Qed.

Lemma elementwise_shape : forall f ts ts' v, map sh ts = map sh ts' -> elementwise f ts = Some v ->
  exists v', elementwise f ts' = Some v' /\ sh v' = sh v.
Proof. intros f ts ts' v E H. unfold elementwise in *. rewrite <- E. destruct (bshapes (map sh ts)); [|discriminate]. inversion H; subst. eexists. split; eauto. Qed.
Lemma apply_shape : forall o ts ts' v, map sh ts = map sh ts' -> apply o ts = Some v ->
  exists v', apply o ts' = Some v' /\ sh v' = sh v.
Proof.
  intros o ts ts' v E H.
  destruct o; cbn [apply] in *; try (eapply elementwise_shape; eauto; fail).
  - destruct ts as [|a [|b [|]]]; try discriminate. destruct ts' as [|a' [|b' [|]]]; try discriminate. eapply elementwise_shape; eauto.
  - destruct ts as [|a [|]]; try discriminate. destruct ts' as [|a' [|]]; try discriminate. eapply elementwise_shape; eauto.
  - destruct ts as [|a [|]]; try discriminate. destruct ts' as [|a' [|]]; try discriminate. inversion H; inversion E; subst. eauto.
  - destruct ts as [|a [|]]; try discriminate. destruct ts' as [|a' [|]]; try discriminate. inversion H; inversion E; subst. eexists. split; eauto.
  - destruct ts as [|a [|]]; try discriminate. destruct ts' as [|a' [|]]; try discriminate. inversion E as [E']. cbv iota beta in *.
    destruct (sh a); [discriminate|]. inversion H; subst. eexists. split; eauto.
Qed.

Section graph_ind.
  Variable P : graph -> Prop.
  Hypothesis H : forall t o ins, (forall i, In i ins -> P i) -> P (GT t o ins).
  Fixpoint graph_ind' (g : graph) : P g :=
    match g with
    | GT t o ins => H t o ins ((fix go (l : list graph) : forall i, In i l -> P i :=
        match l with
        | [] => fun i f => match f with end
        | a :: l' => fun i h => match h with or_introl e => eq_ind a P (graph_ind' a) i e | or_intror h' => go l' i h' end
        end) ins)
    end.
End graph_ind.

Lemma part_trans : forall a b c, part a b -> part b c -> part a c.
Proof. intros a b c H1 H2. revert H1. induction H2; intros; auto. econstructor; eauto. Qed.
Lemma depends_part : forall base n g, part n g -> depends base n = true -> depends base g = true.
Proof.
  intros base n g H. induction H; intros D; auto. cbn [depends]. apply orb_true_iff. right. apply existsb_exists. exists i. auto.
Qed.
Lemma stat_nodes_depend : forall base g t, In t (stat_nodes base g) -> exists n, part n g /\ top n = t /\ depends base n = true.
Proof.
  intros base g. induction g as [t o ins IH] using graph_ind'. intros t' Ht. cbn [stat_nodes] in Ht.
  destruct (Nat.eqb_spec t base) as [->|Hb].
  - destruct Ht as [<-|[]]. exists (GT base o ins). split; [constructor|]. split; auto. cbn. rewrite Nat.eqb_refl. auto.
  - destruct ins as [|i0 ins0] eqn:Ei; [destruct Ht|]. rewrite <- Ei in *. clear Ei.
    destruct (linear o).
    + apply in_flat_map in Ht. destruct Ht as (i & Hi & Ht). destruct (IH i Hi _ Ht) as (n & A & B & C).
      exists n. split; auto. econstructor; eauto.
    + destruct (depends base (GT t o ins)) eqn:E; [|destruct Ht]. destruct Ht as [<-|[]].
      exists (GT t o ins). split; [constructor|]. auto.
Qed.

(** ** Grouping *)

Definition pairs (p : groups) : found := flat_map (fun kv => map (fun v => (fst v, (fst kv, snd v))) (snd kv)) p.
Lemma add_to_pairs : forall k v p, Permutation (pairs (add_to k v p)) ((fst v, (k, snd v)) :: pairs p).
Proof.
  intros k v p. induction p as [|[k' vs] p IH]; [cbn; auto|]. cbn [add_to]. destruct (stat_eqb k k') eqn:E.
  - apply stat_eqb_eq in E. subst k'. unfold pairs. cbn [flat_map fst snd]. rewrite map_app. cbn [map]. rewrite <- app_assoc.
    symmetry. apply Permutation_middle.
  - unfold pairs in *. cbn [flat_map fst snd]. rewrite IH. symmetry. apply Permutation_middle.
Qed.
Lemma fold_pairs : forall l p, Permutation (pairs (fold_left (fun p e => add_to (fst (snd e)) (fst e, snd (snd e)) p) l p)) (l ++ pairs p).
Proof.
  induction l as [|[t [k m]] l IH]; intros p; auto. cbn [fold_left]. rewrite IH. cbn [fst snd].
  rewrite add_to_pairs. cbn [fst snd]. symmetry. apply Permutation_middle.
Qed.
Lemma group_pairs : forall l, Permutation (pairs (group l)) l.
Proof. intros l. unfold group. rewrite fold_pairs. cbn. rewrite app_nil_r. auto. Qed.

Lemma swapped_list : forall p t k m,
  In (k, m) (flat_map (fun kv => map (fun v => (fst kv, snd v)) (filter (fun v : nat * ten => Nat.eqb t (fst v)) (snd kv))) p) <->
  In (t, (k, m)) (pairs p).
Proof.
  intros p t k m. unfold pairs. rewrite !in_flat_map. split; intros ([k' vs] & Hp & H); exists (k', vs); split; auto;
    cbn [fst snd] in *; apply in_map_iff in H; apply in_map_iff.
  - destruct H as ((t' & m') & E & H). apply filter_In in H. destruct H as [H Et]. apply Nat.eqb_eq in Et. inversion E; subst.
    exists (t', m). auto.
  - destruct H as ((t' & m') & E & H). inversion E; subst. exists (t, m). split; auto. apply filter_In. split; auto. cbn. apply Nat.eqb_refl.
Qed.
Lemma NoDup_fst_eq : forall A B (l : list (A * B)) a b c, NoDup (map fst l) -> In (a, b) l -> In (a, c) l -> b = c.
Proof.
  intros A B l a b c. induction l as [|[a' b'] l IH]; intros Hn H1 H2; [destruct H1|]. cbn in Hn. inversion Hn; subst.
  destruct H1 as [E1|H1]; destruct H2 as [E2|H2].
  - congruence.
  - inversion E1; subst. exfalso. apply H3. apply in_map_iff. exists (a, c). auto.
  - inversion E2; subst. exfalso. apply H3. apply in_map_iff. exists (a, b). auto.
  - auto.
Qed.
Lemma swapped_in : forall l ph t k m, NoDup (map fst l) -> In (t, (k, m)) l ->
  swapped (group l) ph t = Some (elementwise rprod [ph k; m]).
Proof.
  intros l ph t k m Hn Hi. unfold swapped.
  pose proof (swapped_list (group l) t) as S.
  destruct (flat_map _ (group l)) as [|[k' m'] r].
  - exfalso. apply (S k m). eapply Permutation_in; [symmetry; apply group_pairs|auto].
  - assert (H : In (t, (k', m')) l) by (eapply Permutation_in; [apply group_pairs|apply S; cbn; auto]).
    pose proof (NoDup_fst_eq _ _ _ _ _ _ Hn Hi H) as E. inversion E; subst. auto.
Qed.
Lemma swapped_out : forall l ph t, ~ In t (map fst l) -> swapped (group l) ph t = None.
Proof.
  intros l ph t Hn. unfold swapped. pose proof (swapped_list (group l) t) as S.
  destruct (flat_map _ (group l)) as [|[k' m'] r]; auto. exfalso. apply Hn.
  assert (H : In (t, (k', m')) l) by (eapply Permutation_in; [apply group_pairs|apply S; cbn; auto]).
  apply in_map_iff. exists (t, (k', m')). auto.
Qed.

Definition stat_dec : forall a b : stat, {a = b} + {a <> b}.
Proof. decide equality. Defined.

(** ** Decomposition *)

Section decompose.
  Variables (sup : support) (nsh : nat -> list nat) (en : nat -> ten) (l : found) (g : graph) (base : nat) (x0 : ten).
  Variable keys : list stat.
  Let s := sh x0.
  Let P := possible sup s.
  Let p := group l.
  Let swap (a : stat -> ten) := eval (swapped p a) en.
  Let val (x : ten) (n : graph) := value en base n x.
  Definition ok_ph (sx : list nat) (a : stat -> ten) : Prop := forall k, In k keys -> sh (a k) = sx.

  Hypothesis Hdef : one_definition base g.
  Hypothesis Hone : one_dependent base g.
  Hypothesis Hnodes : lists_nodes base g l.
  Hypothesis Hfound : found_right P en base g nsh l.
  Hypothesis Hx0 : P x0.
  Hypothesis Hkeys : NoDup keys.
  Hypothesis Hin : forall t k m, In (t, (k, m)) l -> In k keys.

  Definition comb (sx : list nat) (co : stat -> list nat -> R) (a : stat -> ten) : R :=
    rsum (map (fun k => rsum (map (fun j => co k j * at_ (a k) j) (indices sx))) keys).
  Definition lin (A : (stat -> ten) -> R) (B : ten -> R) : Prop :=
    exists co c0 c1, (forall a, ok_ph s a -> A a = c0 + comb s co a) /\
                     (forall x, P x -> B x = c1 + comb s co (fun k => statistic k x)).

  Lemma comb_add : forall c d a, comb s c a + comb s d a = comb s (fun k j => c k j + d k j) a.
  Proof.
    intros. unfold comb. rewrite <- rsum_plus. apply rsum_ext. intros k _. rewrite <- rsum_plus. apply rsum_ext. intros. ring.
  Qed.
  Lemma comb_scal : forall r c a, r * comb s c a = comb s (fun k j => r * c k j) a.
  Proof.
    intros. unfold comb. rewrite <- rsum_scal. apply rsum_ext. intros k _. rewrite <- rsum_scal. apply rsum_ext. intros. ring.
  Qed.
  Lemma comb_zero : forall a, comb s (fun _ _ => 0) a = 0.
  Proof. intros. unfold comb. apply rsum_zero. intros. apply rsum_zero. intros. ring. Qed.

  Lemma lin_const : forall A B c, (forall a, ok_ph s a -> A a = c) -> (forall x, P x -> B x = c) -> lin A B.
  Proof.
    intros A B c HA HB. exists (fun _ _ => 0), c, c. split; intros y Hy; rewrite comb_zero; rewrite ?HA, ?HB by auto; ring.
  Qed.
  Lemma lin_add : forall A B A' B', lin A B -> lin A' B' -> lin (fun a => A a + A' a) (fun x => B x + B' x).
  Proof.
    intros A B A' B' (co & c0 & c1 & Ha & Hb) (co' & c0' & c1' & Ha' & Hb').
    exists (fun k j => co k j + co' k j), (c0 + c0'), (c1 + c1').
    split; intros y Hy; [rewrite Ha, Ha' by auto|rewrite Hb, Hb' by auto]; rewrite <- comb_add; ring.
  Qed.
  Lemma lin_scal : forall A B r, lin A B -> lin (fun a => r * A a) (fun x => r * B x).
  Proof.
    intros A B r (co & c0 & c1 & Ha & Hb). exists (fun k j => r * co k j), (r * c0), (r * c1).
    split; intros y Hy; [rewrite Ha by auto|rewrite Hb by auto]; rewrite <- comb_scal; ring.
  Qed.
  Lemma lin_ext : forall A B A' B', lin A B -> (forall a, ok_ph s a -> A' a = A a) -> (forall x, P x -> B' x = B x) -> lin A' B'.
  Proof.
    intros A B A' B' (co & c0 & c1 & Ha & Hb) HA HB. exists co, c0, c1.
    split; intros; [rewrite HA|rewrite HB]; auto.
  Qed.
  Lemma lin_sum : forall T (A : T -> (stat -> ten) -> R) (B : T -> ten -> R) ts,
    (forall t, In t ts -> lin (A t) (B t)) ->
    lin (fun a => rsum (map (fun t => A t a) ts)) (fun x => rsum (map (fun t => B t x) ts)).
  Proof.
    intros T A B ts. induction ts as [|t ts IH]; intros H.
    - apply (lin_const _ _ 0); auto.
    - cbn. apply (lin_add (A t) (B t)); [apply H; cbn; auto|]. apply IH. intros. apply H. cbn. auto.
  Qed.

  (** A tensor that does not depend on the variable has the same value in both. *)
  Lemma swap_const : forall n, part n g -> depends base n = false -> forall a x, swap a n = val x n.
  Proof.
    induction n as [t o ins IH] using graph_ind'. intros Hp Hd a x. unfold swap, val, value. cbn [eval].
    assert (Ht : ~ In t (map fst l)).
    { intros Ht. apply Hnodes in Ht. apply stat_nodes_depend in Ht. destruct Ht as (n & Hn & Htop & Hdep).
      assert (n = GT t o ins) by (apply Hdef; auto). subst. congruence. }
    unfold p. rewrite swapped_out by auto.
    cbn [depends] in Hd. apply orb_false_iff in Hd. destruct Hd as [Hb Hd].
    destruct ins as [|i0 ins0] eqn:Ei; [unfold put; rewrite Hb; auto|]. rewrite <- Ei in *. clear Ei.
    assert (E : map (eval (swapped (group l) a) en) ins = map (eval (fun _ => None) (put base x en)) ins).
    { apply map_ext_in. intros i Hi. apply (IH i Hi).
      - eapply part_trans; [|exact Hp]. econstructor; [eauto|constructor].
      - destruct (depends base i) eqn:E; auto. rewrite <- Hd. symmetry. apply existsb_exists. eauto. }
    rewrite E. auto.
  Qed.

  Definition affine (n : graph) : Prop := forall v0, val x0 n = Some v0 ->
    (forall a, ok_ph s a -> exists v, swap a n = Some v /\ sh v = sh v0) /\
    (forall x, P x -> exists v, val x n = Some v /\ sh v = sh v0) /\
    forall idx, In idx (indices (sh v0)) -> lin (fun a => entry (swap a n) idx) (fun x => entry (val x n) idx).

  Lemma val_const : forall n, depends base n = false -> forall x y, val x n = val y n.
  Proof.
    induction n as [t o ins IH] using graph_ind'. intros Hd x y. unfold val, value. cbn [eval].
    cbn [depends] in Hd. apply orb_false_iff in Hd. destruct Hd as [Hb Hd].
    destruct ins as [|i0 ins0] eqn:Ei; [unfold put; rewrite Hb; auto|]. rewrite <- Ei in *. clear Ei.
    assert (E : map (eval (fun _ => None) (put base x en)) ins = map (eval (fun _ => None) (put base y en)) ins).
    { apply map_ext_in. intros i Hi. apply (IH i Hi).
      destruct (depends base i) eqn:E; auto. rewrite <- Hd. symmetry. apply existsb_exists. eauto. }
    rewrite E. auto.
  Qed.
  Lemma affine_const : forall n, part n g -> depends base n = false -> affine n.
  Proof.
    intros n Hp Hd v0 Hv0. split; [|split].
    - intros a _. exists v0. rewrite (swap_const n Hp Hd a x0). auto.
    - intros x _. exists v0. rewrite (val_const n Hd x x0). auto.
    - intros idx _. apply (lin_const _ _ (at_ v0 idx)).
      + intros a _. rewrite (swap_const n Hp Hd a x0), Hv0. auto.
      + intros x _. rewrite (val_const n Hd x x0), Hv0. auto.
  Qed.

  Lemma pick_j : forall (M : R) (f : list nat -> R) j0, In j0 (indices s) ->
    rsum (map (fun j => (if list_eq_dec Nat.eq_dec j j0 then M else 0) * f j) (indices s)) = M * f j0.
  Proof.
    intros M f j0. generalize (NoDup_indices s). generalize (indices s) as js0.
    induction js0 as [|j js IH]; intros Hn Hj; [destruct Hj|]. inversion Hn; subst. cbn [map rsum fold_right].
    destruct (list_eq_dec Nat.eq_dec j j0) as [->|Hne].
    - change (fold_right Rplus 0 ?l) with (rsum l). rewrite rsum_zero; [ring|].
      intros j Hj'. destruct (list_eq_dec Nat.eq_dec j j0); [subst; contradiction|ring].
    - destruct Hj as [->|Hj]; [congruence|]. unfold rsum in IH at 1. rewrite IH by auto. ring.
  Qed.
  Lemma comb_one : forall k0 j0 M a, In k0 keys -> In j0 (indices s) ->
    comb s (fun k j => if stat_dec k k0 then (if list_eq_dec Nat.eq_dec j j0 then M else 0) else 0) a = M * at_ (a k0) j0.
  Proof.
    intros k0 j0 M a Hk Hj. unfold comb. revert Hkeys Hk. generalize keys as ks0.
    induction ks0 as [|k ks IH]; intros Hn Hk; [destruct Hk|]. inversion Hn; subst. cbn [map rsum fold_right].
    change (fold_right Rplus 0 ?l) with (rsum l). destruct Hk as [->|Hk].
    - rewrite (rsum_zero _ _ ks).
      + destruct (stat_dec k0 k0) as [_|]; [|congruence].
        rewrite (pick_j M (at_ (a k0))) by auto. ring.
      + intros k Hk. destruct (stat_dec k k0); [subst; contradiction|]. apply rsum_zero. intros; ring.
    - rewrite IH by auto. rewrite rsum_zero; [ring|]. intros j _.
      destruct (stat_dec k k0); [subst; contradiction|ring].
  Qed.

  (** Statistic nodes. *)
  Lemma affine_node : forall n, part n g -> In (top n) (map fst l) -> affine n.
  Proof.
    intros n Hp Ht v0 Hv0. apply in_map_iff in Ht. destruct Ht as ([t [k m]] & Et & Hl). cbn in Et. subst t.
    destruct (Hfound _ _ _ Hl) as (n' & C & Hp' & Htop & Hx).
    assert (n' = n) by (apply Hdef; auto). subst n'. clear Hp' Htop.
    pose proof (Hin _ _ _ Hl) as Hk.
    destruct (Hx x0 Hx0) as (v & w & Hv & Hw & Sv & Sw & _). fold (val x0 n) in Hv. rewrite Hv0 in Hv. inversion Hv; subst v. clear Hv.
    assert (Hsw : forall a, ok_ph s a -> exists v, elementwise rprod [a k; m] = Some v /\ sh v = sh v0 /\
        forall idx, In idx (indices (sh v0)) -> at_ v idx = at_ m (proj (sh m) idx) * at_ (a k) (proj s idx)).
    { intros a Ha. destruct (elementwise_shape rprod [statistic k x0; m] [a k; m] w) as (v & E & S).
      - cbn. rewrite Ha by auto. auto.
      - auto.
      - exists v. split; auto. split; [congruence|]. intros idx _. unfold elementwise in E.
        destruct (bshapes _); [|discriminate]. inversion E; subst. cbn. rewrite (Ha k Hk). ring. }
    assert (Hev : forall a, swap a n = elementwise rprod [a k; m]).
    { intros a. destruct n as [t o ins]. unfold swap, p. cbn [eval top] in *.
      rewrite (swapped_in l a t k m) by (try apply Hnodes; auto). auto. }
    split; [|split].
    - intros a Ha. destruct (Hsw a Ha) as (v & E & S & _). exists v. rewrite Hev. auto.
    - intros x Px. destruct (Hx x Px) as (v & w' & Hv & _ & Sv' & _). exists v. split; auto. congruence.
    - intros idx Hi.
      assert (Hj : In (proj s idx) (indices s)).
      { unfold elementwise in Hw. destruct (bshapes _) as [r|] eqn:Eb; [|discriminate]. inversion Hw; subst w. cbn [sh] in Sw.
        apply fits_proj with r; [|congruence]. eapply bshapes_fits; eauto. cbn. auto. }
      exists (fun k' j => if stat_dec k' k then (if list_eq_dec Nat.eq_dec j (proj s idx) then at_ m (proj (sh m) idx) else 0) else 0), 0, (C idx).
      split.
      + intros a Ha. rewrite comb_one by auto. destruct (Hsw a Ha) as (v & E & _ & A). rewrite Hev, E. cbn [entry]. rewrite A by auto. ring.
      + intros x Px. rewrite comb_one by auto. destruct (Hx x Px) as (v & w' & Hv & Hw' & Sv' & Sw' & A).
        unfold val. rewrite Hv. cbn [entry]. rewrite A by congruence.
        unfold elementwise in Hw'. destruct (bshapes _); [|discriminate]. inversion Hw'; subst w'. cbn.
        destruct Px as [Px _]. rewrite Px. ring.
  Qed.

  (** Products. *)
  Lemma lin_prod_const : forall T (A : T -> (stat -> ten) -> R) (B : T -> ten -> R) qs,
    (forall q, In q qs -> exists c, (forall a, ok_ph s a -> A q a = c) /\ (forall x, P x -> B q x = c)) ->
    exists c, (forall a, ok_ph s a -> rprod (map (fun q => A q a) qs) = c) /\ (forall x, P x -> rprod (map (fun q => B q x) qs) = c).
  Proof.
    intros T A B qs. induction qs as [|q qs IH]; intros H; [exists 1; auto|].
    destruct (H q) as (c & Ha & Hb); [cbn; auto|]. destruct IH as (d & Ha' & Hb'); [intros; apply H; cbn; auto|].
    exists (c * d). cbn. split; intros y Hy; [rewrite Ha by auto|rewrite Hb by auto]; f_equal; auto.
  Qed.
  Lemma lin_prod : forall T (dep : T -> bool) (A : T -> (stat -> ten) -> R) (B : T -> ten -> R) qs,
    (forall q, In q qs -> lin (A q) (B q)) ->
    (forall q, In q qs -> dep q = false -> exists c, (forall a, ok_ph s a -> A q a = c) /\ (forall x, P x -> B q x = c)) ->
    (forall l1 i l2 j l3, qs = l1 ++ i :: l2 ++ j :: l3 -> dep i = true -> dep j = true -> False) ->
    lin (fun a => rprod (map (fun q => A q a) qs)) (fun x => rprod (map (fun q => B q x) qs)).
  Proof.
    intros T dep A B qs. induction qs as [|q qs IH]; intros Hl Hc H1.
    - apply (lin_const _ _ 1); auto.
    - destruct (dep q) eqn:E.
      + destruct (lin_prod_const T A B qs) as (c & Ha & Hb).
        { intros j Hj. apply Hc; [cbn; auto|]. destruct (dep j) eqn:Ej; auto. exfalso.
          apply in_split in Hj. destruct Hj as (l2 & l3 & ->). apply (H1 [] q l2 j l3); auto. }
        eapply lin_ext; [apply (lin_scal (A q) (B q) c); apply Hl; cbn; auto| |]; intros y Hy; cbn.
        * unfold rprod in Ha. rewrite Ha by auto. ring.
        * unfold rprod in Hb. rewrite Hb by auto. ring.
      + destruct (Hc q) as (c & Ha & Hb); [cbn; auto|auto|].
        eapply lin_ext; [apply (lin_scal (fun a => rprod (map (fun q => A q a) qs)) (fun x => rprod (map (fun q => B q x) qs)) c); apply IH| |].
        * intros; apply Hl; cbn; auto.
        * intros; apply Hc; cbn; auto.
        * intros l1 i l2 j l3 Eq. apply (H1 (q :: l1) i l2 j l3). cbn. congruence.
        * intros y Hy; cbn. rewrite Ha by auto. auto.
        * intros y Hy; cbn. rewrite Hb by auto. auto.
  Qed.

  Lemma inputs_swap : forall ins ts0, Forall affine ins -> Forall2 (fun i t => val x0 i = Some t) ins ts0 ->
    forall a, ok_ph s a -> exists ts, Forall2 (fun i t => swap a i = Some t) ins ts /\ map sh ts = map sh ts0.
  Proof.
    intros ins ts0 HA H a Ha. induction H; [exists []; split; constructor|]. inversion HA; subst.
    destruct (IHForall2 H4) as (ts & F & S). destruct (H3 _ H) as (A & _ & _). destruct (A a Ha) as (v & E & Sv).
    exists (v :: ts). split; [constructor; auto|]. cbn. congruence.
  Qed.
  Lemma inputs_val : forall ins ts0, Forall affine ins -> Forall2 (fun i t => val x0 i = Some t) ins ts0 ->
    forall x, P x -> exists ts, Forall2 (fun i t => val x i = Some t) ins ts /\ map sh ts = map sh ts0.
  Proof.
    intros ins ts0 HA H a Ha. induction H; [exists []; split; constructor|]. inversion HA; subst.
    destruct (IHForall2 H4) as (ts & F & S). destruct (H3 _ H) as (_ & A & _). destruct (A a Ha) as (v & E & Sv).
    exists (v :: ts). split; [constructor; auto|]. cbn. congruence.
  Qed.
  Lemma inputs_lin : forall ins ts0, Forall affine ins -> Forall2 (fun i t => val x0 i = Some t) ins ts0 ->
    forall q, In q (combine ins (map sh ts0)) -> forall idx, In idx (indices (snd q)) ->
    lin (fun a => entry (swap a (fst q)) idx) (fun x => entry (val x (fst q)) idx).
  Proof.
    intros ins ts0 HA H. induction H; intros q Hq idx Hi; [destruct Hq|]. inversion HA; subst. cbn [map combine] in Hq.
    destruct Hq as [<-|Hq]; [|eapply IHForall2; eauto]. cbn [fst snd] in *. destruct (H3 _ H) as (_ & _ & A). auto.
  Qed.

  Definition step (o : op) (ev : graph -> option ten) (ins : list graph) : option ten :=
    match sequence (map ev ins) with Some ts => apply o ts | None => None end.

  Lemma step_elementwise : forall f o ins ts0 v0, Forall affine ins -> Forall2 (fun i t => val x0 i = Some t) ins ts0 ->
    (forall ts, length ts = length ts0 -> apply o ts = elementwise f ts) ->
    apply o ts0 = Some v0 ->
    forall idx, In idx (indices (sh v0)) ->
    let qs := combine ins (map sh ts0) in
    (forall q, In q qs -> In (proj (snd q) idx) (indices (snd q))) /\
    (forall a, ok_ph s a -> entry (step o (swap a) ins) idx = f (map (fun q => entry (swap a (fst q)) (proj (snd q) idx)) qs)) /\
    (forall x, P x -> entry (step o (val x) ins) idx = f (map (fun q => entry (val x (fst q)) (proj (snd q) idx)) qs)).
  Proof.
    intros f o ins ts0 v0 HA H0 Ho Hv idx Hi qs. rewrite Ho in Hv by auto. unfold elementwise in Hv.
    destruct (bshapes (map sh ts0)) as [r|] eqn:Eb; [|discriminate]. inversion Hv; subst v0. cbn [sh] in Hi.
    assert (G : forall ev ts, Forall2 (fun i t => ev i = Some t) ins ts -> map sh ts = map sh ts0 ->
       entry (step o ev ins) idx = f (map (fun q => entry (ev (fst q)) (proj (snd q) idx)) qs)).
    { intros ev ts F S. unfold step. rewrite (some_sequence _ _ ev ins ts F).
      rewrite Ho by (rewrite <- (map_length sh ts), S, map_length; auto). unfold elementwise. rewrite S, Eb. cbn [entry at_].
      rewrite (entries_at _ ev ins ts idx F), S. auto. }
    split; [|split].
    - intros q Hq. eapply fits_proj; [|exact Hi]. eapply bshapes_fits; [exact Eb|]. destruct q as [i sq]. apply in_combine_r in Hq. auto.
    - intros a Ha. destruct (inputs_swap _ _ HA H0 a Ha) as (ts & F & S). eapply G; eauto.
    - intros x Px. destruct (inputs_val _ _ HA H0 x Px) as (ts & F & S). eapply G; eauto.
  Qed.

  Lemma affine_step : forall t o ins, part (GT t o ins) g -> ~ In t (map fst l) -> ins <> [] -> linear o = true ->
    Forall affine ins -> affine (GT t o ins).
  Proof.
    intros t o ins Hp Ht Hne Hlin HA v0 Hv0.
    assert (Es : forall a, swap a (GT t o ins) = step o (swap a) ins).
    { intros a. unfold swap, step, p. cbn [eval]. rewrite swapped_out by auto. destruct ins; [congruence|]. auto. }
    assert (Ev : forall x, val x (GT t o ins) = step o (val x) ins).
    { intros x. unfold val, step, value. cbn [eval]. destruct ins; [congruence|]. auto. }
    rewrite Ev in Hv0. unfold step in Hv0. destruct (sequence (map (val x0) ins)) as [ts0|] eqn:E0; [|discriminate].
    apply sequence_some in E0.
    split; [|split].
    - intros a Ha. rewrite Es. unfold step. destruct (inputs_swap _ _ HA E0 a Ha) as (ts & F & S).
      rewrite (some_sequence _ _ _ _ _ F). eapply apply_shape; [symmetry; exact S|exact Hv0].
    - intros x Px. rewrite Ev. unfold step. destruct (inputs_val _ _ HA E0 x Px) as (ts & F & S).
      rewrite (some_sequence _ _ _ _ _ F). eapply apply_shape; [symmetry; exact S|exact Hv0].
    - intros idx Hi.
      apply (lin_ext (fun a => entry (step o (swap a) ins) idx) (fun x => entry (step o (val x) ins) idx));
        [|intros; rewrite Es; auto|intros; rewrite Ev; auto].
      pose proof (inputs_lin _ _ HA E0) as HL.
      destruct o; try discriminate.
      + destruct (step_elementwise rsum OAdd ins ts0 v0 HA E0) with (idx := idx) as (Hq & Ha & Hx); auto.
        eapply lin_ext; [|exact Ha|exact Hx].
        apply (lin_sum _ (fun q a => entry (swap a (fst q)) (proj (snd q) idx)) (fun q x => entry (val x (fst q)) (proj (snd q) idx))). auto.
      + destruct ts0 as [|t1 [|t2 [|]]]; try discriminate.
        destruct (step_elementwise (fun l => hd 0 l - hd 0 (tl l)) OSub ins [t1; t2] v0 HA E0) with (idx := idx) as (Hq & Ha & Hx); auto.
        { intros ts Hts. destruct ts as [|? [|? [|]]]; try discriminate. auto. }
        destruct ins as [|i1 [|i2 [|]]]; try (inversion E0; subst; match goal with H : Forall2 _ _ _ |- _ => inversion H; subst end; fail).
        1: inversion E0. 1: inversion E0; inversion H4. 2: inversion E0; inversion H4; inversion H10.
        eapply lin_ext; [|exact Ha|exact Hx]. cbn [combine map hd tl fst snd] in *.
        eapply lin_ext; [apply (lin_add (fun a => entry (swap a i1) (proj (sh t1) idx)) (fun x => entry (val x i1) (proj (sh t1) idx))
            (fun a => (-1) * entry (swap a i2) (proj (sh t2) idx)) (fun x => (-1) * entry (val x i2) (proj (sh t2) idx)))| |].
        * apply (HL (i1, sh t1)); [cbn; auto|apply (Hq (i1, sh t1)); cbn; auto].
        * apply (lin_scal (fun a => entry (swap a i2) (proj (sh t2) idx)) (fun x => entry (val x i2) (proj (sh t2) idx)) (-1)).
          apply (HL (i2, sh t2)); [cbn; auto|apply (Hq (i2, sh t2)); cbn; auto].
        * intros; cbn; ring.
        * intros; cbn; ring.
      + destruct (step_elementwise rprod OMul ins ts0 v0 HA E0) with (idx := idx) as (Hq & Ha & Hx); auto.
        eapply lin_ext; [|exact Ha|exact Hx].
        apply (lin_prod _ (fun q => depends base (fst q)) (fun q a => entry (swap a (fst q)) (proj (snd q) idx)) (fun q x => entry (val x (fst q)) (proj (snd q) idx))).
        * auto.
        * intros [i sq] Hin' Hd. cbn [fst snd] in *. exists (entry (val x0 i) (proj sq idx)). split.
          -- intros a _. rewrite (swap_const i) with (x := x0); auto. eapply part_trans; [|exact Hp].
             apply in_combine_l in Hin'. econstructor; [eauto|constructor].
          -- intros x _. rewrite (val_const i Hd x x0). auto.
        * intros l1 i l2 j l3 Eq Di Dj.
          assert (Em : ins = map fst l1 ++ fst i :: map fst l2 ++ fst j :: map fst l3).
          { assert (Hlen : length ins = length (map sh ts0)) by (rewrite map_length; clear - E0; induction E0; cbn; auto).
            transitivity (map fst (combine ins (map sh ts0))).
            - clear - Hlen. revert Hlen. generalize (map sh ts0). induction ins; intros [|b bs] H; try discriminate; auto. cbn. f_equal. auto.
            - rewrite Eq. rewrite map_app. cbn. rewrite map_app. auto. }
          eapply Hone; [exact Hp|exact Em|exact Di|exact Dj].
      + destruct ts0 as [|t1 [|]]; try discriminate.
        destruct (step_elementwise (fun l => - hd 0 l) ONeg ins [t1] v0 HA E0) with (idx := idx) as (Hq & Ha & Hx); auto.
        { intros ts Hts. destruct ts as [|? [|]]; try discriminate. auto. }
        destruct ins as [|i1 [|]]. 1: inversion E0. 2: inversion E0; inversion H4.
        eapply lin_ext; [|exact Ha|exact Hx]. cbn [combine map hd tl fst snd] in *.
        eapply lin_ext; [apply (lin_scal (fun a => entry (swap a i1) (proj (sh t1) idx)) (fun x => entry (val x i1) (proj (sh t1) idx)) (-1))| |].
        * apply (HL (i1, sh t1)); [cbn; auto|apply (Hq (i1, sh t1)); cbn; auto].
        * intros; cbn; ring.
        * intros; cbn; ring.
      + destruct ts0 as [|t1 [|]]; try discriminate. destruct ins as [|i1 [|]]. 1: inversion E0. 2: inversion E0; inversion H4.
        cbn in Hv0. inversion Hv0; subst v0. eapply lin_ext; [apply (HL (i1, sh t1)); [cbn; auto|exact Hi]| |]; intros y Hy; unfold step; cbn [map sequence fst].
        * destruct (swap y i1); auto.
        * destruct (val y i1); auto.
      + destruct ts0 as [|t1 [|]]; try discriminate. destruct ins as [|i1 [|]]. 1: inversion E0. 2: inversion E0; inversion H4.
        cbn in Hv0. inversion Hv0; subst v0.
        eapply lin_ext; [apply (lin_sum _ (fun j a => entry (swap a i1) j) (fun j x => entry (val x i1) j) (indices (sh t1)))| |].
        * intros j Hj. apply (HL (i1, sh t1)); cbn; auto.
        * intros y Hy. destruct (inputs_swap _ _ HA E0 y Hy) as (ts & F & S). destruct (Forall2_one _ _ _ _ _ F) as (v & -> & Fv). cbn in S. inversion S as [Sv].
          unfold step. cbn [map sequence]. rewrite Fv. cbn. rewrite ?Sv. auto.
        * intros y Hy. destruct (inputs_val _ _ HA E0 y Hy) as (ts & F & S). destruct (Forall2_one _ _ _ _ _ F) as (v & -> & Fv). cbn in S. inversion S as [Sv].
          unfold step. cbn [map sequence]. rewrite Fv. cbn. rewrite ?Sv. auto.
      + destruct ts0 as [|t1 [|]]; try discriminate. destruct ins as [|i1 [|]]. 1: inversion E0. 2: inversion E0; inversion H4.
        cbn in Hv0. destruct (sh t1) as [|n r] eqn:S1; [discriminate|]. inversion Hv0; subst v0. cbn [sh] in Hi.
        eapply lin_ext; [apply (lin_sum _ (fun j a => entry (swap a i1) (j :: idx)) (fun j x => entry (val x i1) (j :: idx)) (seq 0 n))| |].
        * intros j Hj. apply (HL (i1, n :: r)); [cbn; rewrite S1; auto|]. cbn [snd]. apply in_indices_cons. apply in_seq in Hj. split; [lia|auto].
        * intros y Hy. destruct (inputs_swap _ _ HA E0 y Hy) as (ts & F & S). destruct (Forall2_one _ _ _ _ _ F) as (v & -> & Fv). cbn in S. inversion S as [Sv].
          unfold step. cbn [map sequence]. rewrite Fv. cbn. rewrite ?Sv, ?S1. auto.
        * intros y Hy. destruct (inputs_val _ _ HA E0 y Hy) as (ts & F & S). destruct (Forall2_one _ _ _ _ _ F) as (v & -> & Fv). cbn in S. inversion S as [Sv].
          unfold step. cbn [map sequence]. rewrite Fv. cbn. rewrite ?Sv, ?S1. auto.
  Qed.

  Lemma all_affine : forall n, part n g -> incl (stat_nodes base n) (stat_nodes base g) -> affine n.
  Proof.
    induction n as [t o ins IH] using graph_ind'. intros Hp Hincl.
    destruct (in_dec Nat.eq_dec t (map fst l)) as [Hi|Hi]; [apply affine_node; auto|].
    destruct (depends base (GT t o ins)) eqn:Hd; [|apply affine_const; auto].
    assert (Hno : ~ In t (stat_nodes base g)) by (intros Hs; apply Hi, Hnodes; auto).
    cbn [stat_nodes] in Hincl. destruct (Nat.eqb_spec t base) as [->|Hb].
    { exfalso. apply Hno, Hincl. cbn. auto. }
    destruct ins as [|i0 ins0] eqn:Ei.
    { cbn in Hd. rewrite orb_false_r in Hd. apply Nat.eqb_eq in Hd. contradiction. }
    rewrite <- Ei in *. assert (Hne : ins <> []) by (rewrite Ei; discriminate). clear Ei.
    destruct (linear o) eqn:El; [|exfalso; rewrite Hd in Hincl; apply Hno, Hincl; cbn; auto].
    apply affine_step; auto. apply Forall_forall. intros i Hii. apply IH; auto.
    - eapply part_trans; [|exact Hp]. econstructor; [eauto|constructor].
    - intros t' Ht'. apply Hincl. apply in_flat_map. eauto.
  Qed.

  Lemma comb_moved : forall co ph k j r, ok_ph s ph -> In k keys -> ~ In StOther keys -> In j (indices s) ->
    comb s co (moved ph k j r) = comb s co (moved ph k j 0) + r * co k j.
  Proof.
    intros co ph k j r Hph Hk Hno Hj. pose proof (comb_one k j r (fun k' => mkten s (co k')) Hk Hj) as Ec. cbv beta in Ec. cbn [at_] in Ec. rewrite <- Ec. clear Ec.
    unfold comb. rewrite <- rsum_plus. apply rsum_ext. intros k' Hk'. rewrite <- rsum_plus. apply rsum_ext. intros j' Hj'.
    cbn [at_]. unfold moved. destruct (stat_dec k' k) as [->|Hne].
    - assert (E : stat_eqb k k = true) by (destruct k; auto; contradiction). rewrite E. cbn [at_].
      destruct (list_eq_dec Nat.eq_dec j' j); ring.
    - destruct (stat_eqb k k') eqn:E; [apply stat_eqb_eq in E; congruence|ring].
  Qed.
  Lemma ok_moved : forall ph k j r, ok_ph s ph -> In k keys -> ok_ph s (moved ph k j r).
  Proof. intros ph k j r Hph Hk k' Hk'. unfold moved. destruct (stat_eqb k k'); cbn; auto. Qed.

  Lemma natural : forall v0, ~ In StOther keys -> val x0 g = Some v0 -> sh v0 = [] ->
    exists co c1,
      (forall x, P x -> exists v, val x g = Some v /\ sh v = [] /\ at_ v [] = c1 + comb s co (fun k => statistic k x)) /\
      (forall ph, ok_ph s ph -> exists v, swap ph g = Some v) /\
      forall ph, ok_ph s ph -> forall k, In k keys -> sh (nat_param p en g ph k) = s /\
        forall j, In j (indices s) -> at_ (nat_param p en g ph k) j = co k j.
  Proof.
    intros v0 Hno Hv0 Hs. destruct (all_affine g (part_self g) (incl_refl _) v0 Hv0) as (Ha & Hx & HL).
    destruct (HL []) as (co & c0 & c1 & La & Lx); [rewrite Hs; cbn; auto|]. exists co, c1. split; [|split].
    - intros x Px. destruct (Hx x Px) as (v & E & S). exists v. split; auto. split; [congruence|].
      specialize (Lx x Px). rewrite E in Lx. auto.
    - intros ph Hph. destruct (Ha ph Hph) as (v & E & _). eauto.
    - intros ph Hph k Hk. split; [cbn; auto|]. intros j Hj. cbn [nat_param at_].
      rewrite (Derive_ext _ (fun r => (c0 + comb s co (moved ph k j 0)) + r * co k j)).
      + apply is_derive_unique. auto_derive; auto. ring.
      + intros r. change (scalar (eval (swapped p (moved ph k j r)) en g)) with (entry (swap (moved ph k j r) g) []).
        rewrite La by (apply ok_moved; auto). rewrite comb_moved by auto. ring.
  Qed.
End decompose.

(** ** Groups *)

Lemma add_to_in : forall k v p k0 vs0, In (k0, vs0) (add_to k v p) ->
  In (k0, vs0) p \/ k0 = k /\ ((exists vs, In (k, vs) p /\ vs0 = vs ++ [v]) \/ vs0 = [v] /\ (k <> StOther -> ~ In k (map fst p))).
Proof.
  intros k v p. induction p as [|[k' vs'] p IH]; intros k0 vs0 H; cbn [add_to] in H.
  - destruct H as [E|[]]. inversion E; subst. right. split; auto.
  - destruct (stat_eqb k k') eqn:E.
    + apply stat_eqb_eq in E. subst k'. destruct H as [E|H]; [|left; cbn; auto]. inversion E; subst. right. split; auto. left. exists vs'. cbn. auto.
    + destruct H as [H|H]; [left; cbn; auto|]. destruct (IH _ _ H) as [A|[-> [(vs & A & ->)|[-> A]]]].
      * left; cbn; auto.
      * right. split; auto. left. exists vs. cbn. auto.
      * right. split; auto. right. split; auto. intros Hk [Hi|Hi]; [|apply A; auto]. cbn in Hi. subst k'. destruct k; try discriminate. congruence.
Qed.
Lemma add_to_keys : forall k v p k0, In k0 (map fst (add_to k v p)) <-> k0 = k \/ In k0 (map fst p).
Proof.
  intros k v p k0. induction p as [|[k' vs'] p IH]; cbn [add_to]; [cbn; intuition|]. destruct (stat_eqb k k') eqn:E.
  - apply stat_eqb_eq in E. subst. cbn. intuition.
  - cbn [map fst]. cbn [In]. rewrite IH. intuition.
Qed.
Lemma group_first_gen : forall l done p,
  (forall e, In e done -> In (fst (snd e)) (map fst p)) ->
  (forall k vs, In (k, vs) p -> k <> StOther -> exists v vs' l1 l2, vs = v :: vs' /\ done = l1 ++ (fst v, (k, snd v)) :: l2 /\ forall e, In e l1 -> fst (snd e) <> k) ->
  forall k vs, In (k, vs) (fold_left (fun p e => add_to (fst (snd e)) (fst e, snd (snd e)) p) l p) -> k <> StOther ->
  exists v vs' l1 l2, vs = v :: vs' /\ done ++ l = l1 ++ (fst v, (k, snd v)) :: l2 /\ forall e, In e l1 -> fst (snd e) <> k.
Proof.
  induction l as [|e l IH]; intros done p Hk Hv k vs H Hno.
  - cbn in H. rewrite app_nil_r. auto.
  - cbn [fold_left] in H. replace (done ++ e :: l) with ((done ++ [e]) ++ l) by (rewrite <- app_assoc; auto).
    eapply IH; [| |exact H|auto].
    + intros e' He'. apply add_to_keys. apply in_app_iff in He'. destruct He' as [He'|[->|[]]]; auto.
    + intros k0 vs0 H0 Hn0. apply add_to_in in H0. destruct H0 as [H0|[-> [(vs1 & H1 & ->)|[-> H1]]]].
      * destruct (Hv _ _ H0 Hn0) as (v & vs' & l1 & l2 & -> & -> & A). exists v, vs', l1, (l2 ++ [e]). split; auto. split; auto. rewrite <- app_assoc. auto.
      * destruct (Hv _ _ H1 Hn0) as (v & vs' & l1 & l2 & -> & -> & A). exists v, (vs' ++ [(fst e, snd (snd e))]), l1, (l2 ++ [e]). split; auto. split; auto. rewrite <- app_assoc. auto.
      * exists (fst e, snd (snd e)), [], done, []. split; auto. split; [destruct e as [? [? ?]]; auto|].
        intros e' He' E. apply H1; auto. rewrite <- E. auto.
Qed.
Lemma group_first : forall l k vs, In (k, vs) (group l) -> k <> StOther ->
  exists v vs' l1 l2, vs = v :: vs' /\ l = l1 ++ (fst v, (k, snd v)) :: l2 /\ forall e, In e l1 -> fst (snd e) <> k.
Proof. intros l k vs H Hn. apply (group_first_gen l [] []); auto; intros; contradiction. Qed.

Lemma insert_group_perm : forall x p, Permutation (insert_group x p) (x :: p).
Proof.
  intros x p. induction p as [|y p IH]; auto. cbn [insert_group]. destruct (String.leb _ _); auto. rewrite IH. constructor.
Qed.
Lemma sort_groups_perm : forall p, Permutation (sort_groups p) p.
Proof. induction p as [|x p IH]; auto. cbn. rewrite insert_group_perm. auto. Qed.

Lemma rsum_swap : forall A B (f : A -> B -> R) l m,
  rsum (map (fun a => rsum (map (f a) m)) l) = rsum (map (fun b => rsum (map (fun a => f a b) l)) m).
Proof.
  intros A B f l m. induction l as [|a l IH].
  - cbn. symmetry. apply rsum_zero. auto.
  - cbn [map]. change (rsum (?a :: ?l)) with (a + rsum l). rewrite IH, <- rsum_plus. apply rsum_ext. intros. auto.
Qed.
Lemma finite_choice : forall (Q : list nat -> R -> Prop) l, (forall i, In i l -> exists c, Q i c) -> exists f, forall i, In i l -> Q i (f i).
Proof.
  intros Q l. induction l as [|i l IH]; intros H; [exists (fun _ => 0); intros ? []|].
  destruct IH as [f Hf]; [intros; apply H; cbn; auto|]. destruct (H i) as [c Hc]; [cbn; auto|].
  exists (fun j => if list_eq_dec Nat.eq_dec j i then c else f j). intros j Hj.
  destruct (list_eq_dec Nat.eq_dec j i); [subst; auto|]. destruct Hj; [congruence|auto].
Qed.
Lemma table_other : forall sup key eta eta' d, length eta = length eta' -> scalar_table sup key eta = Some d -> exists d', scalar_table sup key eta' = Some d'.
Proof.
  intros sup key eta eta' d L H. unfold scalar_table in *.
  repeat match goal with
  | H : match ?l with _ => _ end = _ |- _ => destruct l; try discriminate
  end; destruct eta' as [|? [|? [|]]]; try discriminate; eauto.
Qed.
Lemma table_nonempty : forall sup eta d, scalar_table sup [] eta = Some d -> False.
Proof. intros sup eta d H. destruct sup; discriminate. Qed.

Theorem conditional_right : forall G sup nsh en l g base x0 s' D,
  gamma_function G -> one_definition base g -> one_dependent base g -> lists_nodes base g l ->
  possible sup (sh x0) x0 -> found_right (possible sup (sh x0)) en base g nsh l -> first_have_shape (sh x0) nsh l ->
  (exists v, value en base g x0 = Some v /\ sh v = []) ->
  complete_conditional sup nsh en l g x0 = Some (s', D) ->
  s' = sh x0 /\ (all_proper s' D -> is_conditional G sup s' D (value en base g)).
Proof.
  intros G sup nsh en l g base x0 s' D HG Hdef Hone Hnodes Hx0 Hfound Hfirst (v0 & Hv0 & Hs0) H.
  unfold complete_conditional in H. set (p := group l) in *. set (ph := placeholders nsh p x0) in *. set (keys := map fst (sort_groups p)) in *.
  destruct (scalar_table sup keys _) as [d0|] eqn:Et; [|discriminate].
  destruct (eval (swapped p ph) en g) as [vs|] eqn:Es; [|discriminate].
  destruct (table_keys _ _ _ _ Et) as [Hnd [Hno _]].
  assert (Hperm : Permutation keys (map fst p)) by (apply Permutation_map, sort_groups_perm).
  assert (Hin : forall t k m, In (t, (k, m)) l -> In k keys).
  { intros t k m Hi. eapply Permutation_in; [symmetry; exact Hperm|].
    apply (Permutation_in _ (Permutation_sym (group_pairs l))) in Hi. unfold pairs in Hi. apply in_flat_map in Hi.
    destruct Hi as ([k' vs'] & Hp & Hi). apply in_map_iff in Hi. destruct Hi as (v & E & _). inversion E; subst. apply in_map_iff. exists (k, vs'). auto. }
  assert (Hph : ok_ph keys (sh x0) ph).
  { intros k Hk. unfold ph, placeholders. destruct (find (fun kv => stat_eqb k (fst kv)) p) as [[k' vs']|] eqn:Ef; [|auto].
    apply find_some in Ef. destruct Ef as [Hp E]. apply stat_eqb_eq in E. cbn in E. subst k'. cbn [sh snd].
    destruct (group_first l k vs' Hp) as (v & vs'' & l1 & l2 & -> & El & A); [intros ->; contradiction|].
    cbn. eapply Hfirst; eauto. }
  destruct (natural sup nsh en l g base x0 keys Hdef Hone Hnodes Hfound Hx0 Hnd Hin v0 Hno Hv0 Hs0) as (co & c1 & Hval & _ & Hnat).
  specialize (Hnat ph Hph). fold p in Hnat.
  assert (Esh : map sh (map (nat_param p en g ph) keys) = map (fun _ => sh x0) keys).
  { rewrite map_map. apply map_ext_in. intros k Hk. apply Hnat; auto. }
  rewrite Esh in H. rewrite bshapes_repeat in H by (intros E; rewrite E in Et; eapply table_nonempty; eauto).
  inversion H; subst s' D. clear H. split; auto. intros Hprop.
  assert (ED : forall idx, In idx (indices (sh x0)) ->
     map (fun e => at_ e (proj (sh e) idx)) (map (nat_param p en g ph) keys) = map (fun k => co k idx) keys).
  { intros idx Hi. rewrite map_map. apply map_ext_in. intros k Hk. destruct (Hnat k Hk) as [S A].
    rewrite S, proj_same by auto. apply A; auto. }
  assert (Hd : forall idx, In idx (indices (sh x0)) -> exists c, exists d,
     scalar_table sup keys (map (fun e => at_ e (proj (sh e) idx)) (map (nat_param p en g ph) keys)) = Some d /\
     is_log_density G d (fun y => dot (map (fun k => co k idx) keys) (stats keys y) + c)).
  { intros idx Hi. destruct (table_other sup keys (map (fun _ => 0) keys) (map (fun e => at_ e (proj (sh e) idx)) (map (nat_param p en g ph) keys)) d0) with (2 := Et) as [d Ed].
    { rewrite !map_length. auto. }
    destruct (Hprop idx d Hi Ed) as [Hp Hw]. pose proof Ed as Ed'. rewrite ED in Ed' by auto.
    destruct (scalar_entries_ok G HG sup keys _ d Ed' Hp Hw) as [c Hc]. exists c, d. split; auto. }
  apply finite_choice in Hd. destruct Hd as [cf Hd].
  exists (fun idx y => dot (map (fun k => co k idx) keys) (stats keys y) + cf idx), (c1 - rsum (map cf (indices (sh x0)))).
  split; [exact Hd|]. intros x Px. destruct (Hval x Px) as (v & Ev & Sv & Av). exists v. split; auto. split; auto. rewrite Av.
  unfold comb. rewrite (rsum_swap _ _ (fun k j => co k j * at_ (statistic k x) j)).
  rewrite (rsum_plus _ (fun idx => dot (map (fun k => co k idx) keys) (stats keys (at_ x idx))) cf).
  rewrite (rsum_ext _ (fun idx => dot (map (fun k => co k idx) keys) (stats keys (at_ x idx)))
     (fun b => rsum (map (fun a => co a b * at_ (statistic a x) b) keys))); [ring|].
  intros idx _. rewrite dot_rsum. apply rsum_ext. intros. auto.
Qed.

(** ** When it does not raise *)

Lemma fold_keys : forall l p k, In k (map fst (fold_left (fun p e => add_to (fst (snd e)) (fst e, snd (snd e)) p) l p)) <->
  In k (map (fun e => fst (snd e)) l) \/ In k (map fst p).
Proof.
  induction l as [|e l IH]; intros p k; [cbn; intuition|]. cbn [fold_left map]. rewrite IH, add_to_keys. cbn. intuition.
Qed.
Lemma add_to_NoDup : forall k v p, k <> StOther -> NoDup (map fst p) -> NoDup (map fst (add_to k v p)).
Proof.
  intros k v p Hk. induction p as [|[k' vs] p IH]; intros H; cbn [add_to]; [repeat constructor; cbn; auto|].
  cbn in H. inversion H; subst. destruct (stat_eqb k k') eqn:E; cbn; [constructor; auto|]. constructor; auto.
  intros Hi. apply add_to_keys in Hi. destruct Hi as [->|Hi]; [|auto]. destruct k; try discriminate. congruence.
Qed.
Lemma fold_NoDup : forall l p, ~ In StOther (map (fun e => fst (snd e)) l) -> NoDup (map fst p) ->
  NoDup (map fst (fold_left (fun p (e : nat * (stat * ten)) => add_to (fst (snd e)) (fst e, snd (snd e)) p) l p)).
Proof.
  induction l as [|e l IH]; intros p Ho Hp; auto. cbn [fold_left]. apply IH; [intros H; apply Ho; cbn; auto|].
  apply add_to_NoDup; auto. intros E. apply Ho. cbn. auto.
Qed.
Lemma sorted_key : forall sup key eta d p, scalar_table sup key eta = Some d -> Permutation (map fst p) key ->
  map fst (sort_groups p) = key.
Proof.
  intros sup key eta d p H Hp. pose proof (Permutation_length Hp) as L. rewrite map_length in L.
  unfold scalar_table in H.
  repeat match goal with
  | H : match ?l with _ => _ end = _ |- _ => destruct l; try discriminate
  end; destruct p as [|[k1 v1] [|[k2 v2] [|]]]; try discriminate; cbn [map fst] in Hp;
  try (apply Permutation_length_1 in Hp; subst; reflexivity);
  apply Permutation_length_2 in Hp; destruct Hp as [[-> ->]|[-> ->]]; vm_compute; reflexivity.
Qed.

Theorem conditional_returned : forall sup nsh en l g base x0 key eta d,
  one_definition base g -> one_dependent base g -> lists_nodes base g l ->
  possible sup (sh x0) x0 -> found_right (possible sup (sh x0)) en base g nsh l -> first_have_shape (sh x0) nsh l ->
  (exists v, value en base g x0 = Some v /\ sh v = []) ->
  (forall k, In k key <-> In k (map (fun e => fst (snd e)) l)) -> scalar_table sup key eta = Some d ->
  exists D, complete_conditional sup nsh en l g x0 = Some (sh x0, D).
Proof.
  intros sup nsh en l g base x0 key eta d Hdef Hone Hnodes Hx0 Hfound Hfirst (v0 & Hv0 & Hs0) Hkey Ht.
  destruct (table_keys _ _ _ _ Ht) as [Hnd [Hno _]].
  set (p := group l).
  assert (Hk : forall k, In k (map fst p) <-> In k key).
  { intros k. unfold p, group. rewrite fold_keys, Hkey. cbn. intuition. }
  assert (Hno' : ~ In StOther (map (fun e => fst (snd e)) l)) by (rewrite <- Hkey; auto).
  assert (Hp : Permutation (map fst p) key) by (apply NoDup_Permutation; auto; apply fold_NoDup; auto; constructor).
  pose proof (sorted_key _ _ _ _ _ Ht Hp) as Ek.
  assert (Hin : forall t k m, In (t, (k, m)) l -> In k key).
  { intros t k m Hi. apply Hkey. apply in_map_iff. exists (t, (k, m)). auto. }
  assert (Hph : ok_ph key (sh x0) (placeholders nsh p x0)).
  { intros k Hk'. unfold placeholders. destruct (find (fun kv => stat_eqb k (fst kv)) p) as [[k' vs']|] eqn:Ef; [|auto].
    apply find_some in Ef. destruct Ef as [Hp' E]. apply stat_eqb_eq in E. cbn in E. subst k'. cbn [sh snd].
    destruct (group_first l k vs' Hp') as (v & vs'' & l1 & l2 & -> & El & A); [intros ->; contradiction|].
    cbn. eapply Hfirst; eauto. }
  destruct (natural sup nsh en l g base x0 key Hdef Hone Hnodes Hfound Hx0 Hnd Hin v0 Hno Hv0 Hs0) as (co & c1 & _ & Hsw & Hnat).
  destruct (Hsw _ Hph) as (vs & Es). specialize (Hnat _ Hph).
  unfold complete_conditional. fold p. rewrite Ek.
  assert (El : length eta = length key).
  { clear - Ht. unfold scalar_table in Ht.
    repeat match goal with
    | H : match ?l with _ => _ end = _ |- _ => destruct l; try discriminate
    end; reflexivity. }
  destruct (table_other sup key eta (map (fun _ => 0) key) d) as [d' Hd']; [rewrite map_length; auto|auto|].
  rewrite Hd'. unfold p in Es, Hnat |- *. rewrite Es.
  assert (Esh : map sh (map (nat_param (group l) en g (placeholders nsh (group l) x0)) key) = map (fun _ => sh x0) key).
  { rewrite map_map. apply map_ext_in. intros k Hk'. apply Hnat; auto. }
  rewrite Esh, bshapes_repeat by (intros E; rewrite E in Ht; eapply table_nonempty; eauto). eauto.
Qed.

(** ** Broadcasting *)

Local Open Scope nat_scope.
Lemma broadcast_exact : forall a b s, bshape a b = Some s <-> broadcast_to a b s.
Proof.
  unfold broadcast_to, dim. induction a as [|m a IH]; intros b s.
  - cbn. split.
    + intros H. inversion H; subst. split; auto. intros i. right; left. split; auto. destruct i; auto.
    + intros [L H]. f_equal. apply (nth_ext b s 1 1); auto. intros i _. specialize (H i). destruct i; cbn in H; lia.
  - destruct b as [|n b].
    + cbn [bshape]. split.
      * intros H. inversion H; subst. split; [cbn; lia|]. intros i. right; right. split; auto. destruct i; auto.
      * intros [L H]. f_equal. apply (nth_ext (m :: a) s 1 1); [cbn in *; lia|]. intros i _. specialize (H i). cbn in H.
        destruct i; cbn in *; lia.
    + cbn [bshape]. split.
      * destruct (bshape a b) as [r|] eqn:E; [|discriminate]. apply IH in E. destruct E as [L H].
        destruct (Nat.eqb_spec m n); [|destruct (Nat.eqb_spec m 1); [|destruct (Nat.eqb_spec n 1); [|discriminate]]];
          intros Es; inversion Es; subst; (split; [cbn; lia|]); intros [|i]; cbn; auto; apply (H i).
      * intros [L H]. destruct s as [|k s]; [cbn in L; lia|].
        assert (E : bshape a b = Some s).
        { apply IH. split; [cbn in L; lia|]. intros i. apply (H (S i)). }
        rewrite E. specialize (H 0). cbn in H.
        destruct (Nat.eqb_spec m n); [f_equal; f_equal; lia|destruct (Nat.eqb_spec m 1); [f_equal; f_equal; lia|destruct (Nat.eqb_spec n 1); [f_equal; f_equal; lia|lia]]].
Qed.
Lemma proj_exact : forall s idx, length (proj s idx) = length s /\
  forall i, i < length s -> nth i (proj s idx) 0 = if dim s i =? 1 then 0 else nth i idx 0.
Proof.
  unfold dim. induction s as [|n s IH]; intros idx; [cbn; split; [auto|intros; lia]|].
  destruct idx as [|j idx]; cbn [proj]; [destruct (IH []) as [L H]|destruct (IH idx) as [L H]]; (split; [cbn; auto|]); intros [|i] Hi; cbn in *; auto.
  - destruct n as [|[|]]; auto.
  - rewrite H by lia. destruct i; auto.
  - apply H. lia.
Qed.
Lemma broadcasting : forall a b,
  (forall s, bshape a b = Some s <-> broadcast_to a b s) /\
  forall idx, length (proj a idx) = length a /\
    forall i, (i < length a)%nat -> nth i (proj a idx) 0%nat = if Nat.eqb (dim a i) 1 then 0%nat else nth i idx 0%nat.
Proof. intros a b. split; [intros; apply broadcast_exact|intros; apply proj_exact]. Qed.
