(** * Proofs for C71 *)
From Coq Require Import List Arith Bool ZArith QArith Lia.
From Verif Require Import RVProgram RVProgramSpec.
Import ListNotations.
Open Scope nat_scope.

Scheme expr_mut := Induction for expr Sort Prop with exprs_mut := Induction for exprs Sort Prop.
Combined Scheme expr_exprs_ind from expr_mut, exprs_mut.

Lemma dt_eqb_eq : forall a b, dt_eqb a b = true <-> a = b.
Proof. intros [] []; cbn; split; congruence. Qed.
Lemma dt_eqb_refl : forall a, dt_eqb a a = true.
Proof. intros []; reflexivity. Qed.
Lemma dt_eqb_sym : forall a b, dt_eqb a b = dt_eqb b a.
Proof. intros [] []; reflexivity. Qed.

Section P.
Context {V N : Type}.
Variable const : num -> dt -> V.
Variable bin : bop -> V -> V -> V.
Variable un : uop -> V -> V.
Variable draw : nat -> N -> list V -> V.
Variable noise : nat -> N.
Variable given : nat -> option V.
Hypothesis M : mirrored bin.

Notation run := (run const bin un draw noise).
Notation node_value := (node_value const bin un draw noise).

Lemma run_snoc : forall F l n, run F (l ++ [n]) = run F l ++ [node_value F (run F l) n].
Proof. intros. unfold RVProgram.run. rewrite fold_left_app. reflexivity. Qed.

Lemma run_length : forall F l, length (run F l) = length l.
Proof.
  intros F l. induction l as [|n l IH] using rev_ind; [reflexivity|].
  rewrite run_snoc, !app_length, IH. reflexivity.
Qed.

Lemma run_app : forall F l l', exists x, run F (l ++ l') = run F l ++ x.
Proof.
  intros F l l'. induction l' as [|n l' IH] using rev_ind.
  - exists []. rewrite !app_nil_r. reflexivity.
  - destruct IH as [x E]. exists (x ++ [node_value F (run F (l ++ l')) n]).
    rewrite app_assoc, run_snoc, E, app_assoc. reflexivity.
Qed.

Definition feeds_ok (F : list (nat * V)) (g : pgraph) : Prop :=
  forall i n, nth_error (nodes g) i = Some n ->
    fed_value F i = match nkind n with KDraw r _ => given r | _ => None end.

Definition ext (g g1 : pgraph) : Prop :=
  (exists l, nodes g1 = nodes g ++ l) /\ (exists l, rvals g1 = rvals g ++ l).

Record wf (g : pgraph) : Prop := {
  wf_rv : forall r t, nth_error (rvals g) r = Some t ->
    exists n cls, nth_error (nodes g) t = Some n /\ nkind n = KDraw r cls;
  wf_draw : forall i n, nth_error (nodes g) i = Some n ->
    match nkind n with KDraw r _ => nth_error (rvals g) r = Some i | _ => ~ In i (rvals g) end
}.

Definition has (g : pgraph) (t : nat) (x : V) (d : dt) : Prop :=
  (exists n, nth_error (nodes g) t = Some n /\ ndt n = d) /\
  forall F, feeds_ok F g -> nth_error (run F (nodes g)) t = Some x.

Definition rel (g : pgraph) (v : pyval) (s : sval V) : Prop :=
  match v, s with
  | VN c, SN c' => c = c'
  | VT t, SV x d => has g t x d
  | VRV r, SV x d => exists t, nth_error (rvals g) r = Some t /\ has g t x d
  | _, _ => False
  end.

Lemma ext_refl : forall g, ext g g.
Proof. intros g. split; exists []; rewrite app_nil_r; reflexivity. Qed.
Lemma ext_trans : forall a b c, ext a b -> ext b c -> ext a c.
Proof.
  intros a b c [[l1 A1] [l2 A2]] [[l3 B1] [l4 B2]]. split.
  - exists (l1 ++ l3). rewrite B1, A1, app_assoc. reflexivity.
  - exists (l2 ++ l4). rewrite B2, A2, app_assoc. reflexivity.
Qed.
Lemma ext_add : forall g n, ext g (add_node g n).
Proof. intros g n. split; cbn; [exists [n]|exists []; rewrite app_nil_r]; reflexivity. Qed.

Lemma nth_error_app_l : forall (A : Type) (l l' : list A) i x, nth_error l i = Some x -> nth_error (l ++ l') i = Some x.
Proof. intros A l l' i x H. rewrite nth_error_app1; [exact H|]. apply nth_error_Some. congruence. Qed.

Lemma feeds_ext : forall F g g1, ext g g1 -> feeds_ok F g1 -> feeds_ok F g.
Proof. intros F g g1 [[l E] _] H i n Hi. apply H. rewrite E. apply nth_error_app_l; exact Hi. Qed.

Lemma has_ext : forall g g1 t x d, ext g g1 -> has g t x d -> has g1 t x d.
Proof.
  intros g g1 t x d E [[n [Hn Hd]] Hv]. pose proof E as [[l El] _]. split.
  - exists n. rewrite El. split; [apply nth_error_app_l; exact Hn|exact Hd].
  - intros F HF. specialize (Hv F (feeds_ext _ _ _ E HF)). rewrite El.
    destruct (run_app F (nodes g) l) as [y Ey]. rewrite Ey. apply nth_error_app_l. exact Hv.
Qed.

Lemma rel_ext : forall g g1 v s, ext g g1 -> rel g v s -> rel g1 v s.
Proof.
  intros g g1 v s E. pose proof E as [_ [l El]]. destruct v, s; cbn; intros H; try exact H.
  - exact (has_ext _ _ _ _ _ E H).
  - destruct H as [t [Ht H]]. exists t. rewrite El.
    split; [apply nth_error_app_l; exact Ht|exact (has_ext _ _ _ _ _ E H)].
Qed.

Lemma rels_ext : forall g g1 vs ss, ext g g1 -> Forall2 (rel g) vs ss -> Forall2 (rel g1) vs ss.
Proof. intros g g1 vs ss E H. induction H; constructor; [eapply rel_ext; eassumption|assumption]. Qed.

(** What a related non-number is. *)
Lemma rel_tensor : forall g v x d, rel g v (SV x d) -> has g (tensor g v) x d.
Proof.
  intros g [c|t|r] x d H; cbn in H |- *; [contradiction|exact H|].
  destruct H as [t [Ht H]]. rewrite (nth_error_nth _ _ 0 Ht). exact H.
Qed.
Lemma has_dtype : forall g t x d, has g t x d -> dtype g t = d.
Proof. intros g t x d [[n [Hn Hd]] _]. unfold dtype. rewrite Hn. exact Hd. Qed.
Lemma has_nth : forall g t x d F z, has g t x d -> feeds_ok F g -> nth t (run F (nodes g)) z = x.
Proof. intros g t x d F z [_ H] HF. apply nth_error_nth. exact (H F HF). Qed.
Lemma has_lt : forall g t x d, has g t x d -> t < length (nodes g).
Proof. intros g t x d [[n [Hn _]] _]. apply nth_error_Some. congruence. Qed.

(** ** Adding an operation that is no draw *)
Lemma wf_add : forall g n, wf g -> (match nkind n with KDraw _ _ => False | _ => True end) -> wf (add_node g n).
Proof.
  intros g n [W1 W2] Hn. split; cbn.
  - intros r t H. destruct (W1 r t H) as [m [cls [Hm Hk]]]. exists m, cls.
    split; [apply nth_error_app_l; exact Hm|exact Hk].
  - intros i m H. destruct (Nat.lt_ge_cases i (length (nodes g))) as [L|L].
    + rewrite nth_error_app1 in H by exact L. exact (W2 i m H).
    + rewrite nth_error_app2 in H by exact L. destruct (i - length (nodes g)) as [|j] eqn:Ej.
      * cbn in H. injection H as <-. assert (~ In i (rvals g)).
        { intros Hi. destruct (In_nth_error _ _ Hi) as [r Hr].
          destruct (W1 r i Hr) as [m [cls [Hm _]]]. assert (i < length (nodes g)) by (apply nth_error_Some; congruence). lia. }
        destruct (nkind n); [contradiction|assumption..].
      * destruct j; discriminate.
Qed.

Lemma has_add : forall g n x, (match nkind n with KDraw _ _ => False | _ => True end) ->
  (forall F, feeds_ok F g ->
     (let arg i := nth i (run F (nodes g)) (const (NI 0) DF32) in
      match nkind n, nins n with
      | KDraw r cls, l => draw cls (noise r) (map arg l)
      | KConst c, _ => const c (ndt n)
      | KBin o, a :: b :: _ => bin o (arg a) (arg b)
      | KUn o, a :: _ => un o (arg a)
      | _, _ => const (NI 0) DF32
      end) = x) ->
  has (add_node g n) (length (nodes g)) x (ndt n).
Proof.
  intros g n x Hn H. split.
  - exists n. cbn. rewrite nth_error_app2, Nat.sub_diag by lia. split; reflexivity.
  - intros F HF. cbn [nodes add_node]. rewrite run_snoc, nth_error_app2, run_length, Nat.sub_diag by (rewrite run_length; lia).
    cbn. f_equal. unfold RVProgram.node_value. rewrite run_length.
    assert (E : fed_value F (length (nodes g)) = None).
    { rewrite (HF (length (nodes g)) n) by (cbn; rewrite nth_error_app2, Nat.sub_diag by lia; reflexivity).
      destruct (nkind n); [contradiction|reflexivity..]. }
    rewrite E. apply H. apply (feeds_ext _ _ _ (ext_add g n) HF).
Qed.

(** ** Results of building and interpreting agree *)
Definition ok {A B} (g : pgraph) (R : pgraph -> A -> B -> Prop) (b : res (pgraph * A)) (i : res (nat * B)) : Prop :=
  match b, i with
  | Ret (g1, v), Ret (k, s) => ext g g1 /\ wf g1 /\ k = length (rvals g1) /\ R g1 v s
  | TypeError, TypeError | ValueError, ValueError | NameError, NameError => True
  | _, _ => False
  end.

(** Operators do not create random variables. *)
Definition ok0 (g : pgraph) (b : res (pgraph * pyval)) (i : res (sval V)) : Prop :=
  ok g rel b (bind i (fun s => Ret (length (rvals g), s))).

Lemma convert_number : forall g c d, wf g -> fits c d = true ->
  let g1 := add_node g (mknode (KConst c) [] d) in
  convert g (Some d) (VN c) = Ret (g1, length (nodes g)) /\ ext g g1 /\ wf g1 /\ rvals g1 = rvals g /\
  has g1 (length (nodes g)) (const c d) d.
Proof.
  intros g c d W H g1. cbn. rewrite H. split; [reflexivity|]. split; [apply ext_add|].
  split; [apply wf_add; [exact W|exact I]|]. split; [reflexivity|].
  exact (has_add g (mknode (KConst c) [] d) (const c d) I (fun F HF => eq_refl)).
Qed.

Lemma bin_node : forall g o a b x y d d', wf g -> has g a x d -> has g b y d ->
  let g1 := add_node g (mknode (KBin o) [a; b] d') in
  wf g1 /\ ext g g1 /\ has g1 (length (nodes g)) (bin o x y) d'.
Proof.
  intros g o a b x y d d' W Ha Hb g1. split; [apply wf_add; [exact W|exact I]|]. split; [apply ext_add|].
  apply (has_add g (mknode (KBin o) [a; b] d') (bin o x y) I). intros F HF. cbn.
  rewrite (has_nth _ _ _ _ F _ Ha HF), (has_nth _ _ _ _ F _ Hb HF). reflexivity.
Qed.

Lemma tensor_op_ok : forall g o t x d v s, wf g -> has g t x d -> rel g v s ->
  ok0 g (tensor_op g o t v) (s_binary const bin o (SV x d) s).
Proof.
  intros g o t x d v s W Ht Hv. unfold tensor_op, ok0. rewrite (has_dtype _ _ _ _ Ht).
  destruct s as [c|y d'].
  - destruct v as [c'| |]; [|cbn in Hv; contradiction..]. cbn in Hv. subst c'.
    cbn [s_binary]. unfold number_at. destruct (fits c d) eqn:Ef.
    + destruct (convert_number g c d W Ef) as [E1 [E2 [E3 [E4 E5]]]]. rewrite E1. cbn [bind].
      unfold apply_bin. destruct (dt_eqb d DBool); [exact I|].
      destruct (bin_node _ o t (length (nodes g)) x (const c d) d (result_type o d) E3
                  (has_ext _ _ _ _ _ E2 Ht) E5) as [B1 [B2 B3]].
      cbn [bind ok]. split; [exact (ext_trans _ _ _ E2 B2)|]. split; [exact B1|].
      split; [reflexivity|]. exact B3.
    + cbn. rewrite Ef. exact I.
  - assert (Hw : has g (tensor g v) y d') by (apply rel_tensor; exact Hv).
    assert (Ec : convert g (Some d) v = if dt_eqb d d' then Ret (g, tensor g v) else ValueError).
    { destruct v as [c| |]; [cbn in Hv; contradiction|..]; cbn [convert]; rewrite (has_dtype _ _ _ _ Hw); reflexivity. }
    rewrite Ec. cbn [s_binary]. destruct (dt_eqb d d') eqn:Ed; [|exact I].
    apply dt_eqb_eq in Ed. subst d'. cbn [bind]. unfold apply_bin. destruct (dt_eqb d DBool); [exact I|].
    destruct (bin_node g o t (tensor g v) x y d (result_type o d) W Ht Hw) as [B1 [B2 B3]].
    cbn [bind ok]. split; [exact B2|]. split; [exact B1|]. split; [reflexivity|]. exact B3.
Qed.

Lemma mirror_bin : forall o x y, is_cmp o = true -> bin (mirror o) y x = bin o x y.
Proof.
  intros [] x y H; try discriminate; cbn; destruct (M x y), (M y x); congruence.
Qed.
Lemma mirror_cmp : forall o, is_cmp (mirror o) = is_cmp o.
Proof. intros []; reflexivity. Qed.

Lemma binary_ok : forall g o va vb sa sb, wf g -> rel g va sa -> rel g vb sb ->
  ok0 g (binary g o va vb) (s_binary const bin o sa sb).
Proof.
  intros g o va vb sa sb W Ha Hb. destruct sa as [c|x d].
  - destruct va as [c'| |]; [|cbn in Ha; contradiction..]. cbn in Ha. subst c'.
    destruct sb as [c'|y d].
    + destruct vb as [c''| |]; [|cbn in Hb; contradiction..]. cbn in Hb. subst c''.
      cbn. split; [apply ext_refl|]. split; [exact W|]. split; reflexivity.
    + assert (Ht := rel_tensor _ _ _ _ Hb).
      assert (E : binary g o (VN c) vb = tensor_rop g o (tensor g vb) (VN c))
        by (destruct vb as [z| |]; [cbn in Hb; contradiction|reflexivity..]).
      rewrite E. unfold tensor_rop. destruct (is_cmp o) eqn:Ec.
      * assert (T := tensor_op_ok g (mirror o) (tensor g vb) y d (VN c) (SN c) W Ht eq_refl).
        unfold ok0 in T |- *. cbn [s_binary] in T |- *. unfold number_at, apply_bin in T |- *.
        rewrite (mirror_bin o _ _ Ec), mirror_cmp in T. exact T.
      * rewrite (has_dtype _ _ _ _ Ht). unfold ok0. cbn [s_binary]. unfold number_at.
        destruct (fits c d) eqn:Ef.
        -- destruct (convert_number g c d W Ef) as [E1 [E2 [E3 [E4 E5]]]]. rewrite E1. cbn [bind].
           unfold apply_bin. destruct (dt_eqb d DBool); [exact I|].
           destruct (bin_node _ o (length (nodes g)) (tensor g vb) (const c d) y d (result_type o d) E3 E5
                       (has_ext _ _ _ _ _ E2 Ht)) as [B1 [B2 B3]].
           cbn [bind ok]. split; [exact (ext_trans _ _ _ E2 B2)|]. split; [exact B1|].
           split; [reflexivity|]. exact B3.
        -- cbn. rewrite Ef. exact I.
  - assert (Ht := rel_tensor _ _ _ _ Ha).
    assert (E : binary g o va vb = tensor_op g o (tensor g va) vb)
      by (destruct va as [z| |]; [cbn in Ha; contradiction|reflexivity..]).
    rewrite E. apply tensor_op_ok; assumption.
Qed.

Lemma unary_ok : forall g o v s, wf g -> rel g v s -> ok0 g (unary g o v) (s_unary un o s).
Proof.
  intros g o v s W H. destruct s as [c|x d].
  - destruct v as [c'| |]; [|cbn in H; contradiction..]. cbn in H. subst c'.
    unfold ok0. cbn [unary s_unary]. destruct (num_un o c) as [y|]; [|exact I].
    cbn. split; [apply ext_refl|]. split; [exact W|]. split; reflexivity.
  - assert (Ht := rel_tensor _ _ _ _ H).
    assert (B : ok0 g (Ret (add_node g (mknode (KUn o) [tensor g v] d), VT (length (nodes g)))) (Ret (SV (un o x) d))).
    { unfold ok0. cbn [bind ok]. split; [apply ext_add|]. split; [apply wf_add; [exact W|exact I]|].
      split; [reflexivity|]. apply (has_add g (mknode (KUn o) [tensor g v] d) (un o x) I).
      intros F HF. cbn. rewrite (has_nth _ _ _ _ F _ Ht HF). reflexivity. }
    unfold unary. destruct v as [z|t|r]; [cbn in H; contradiction|..];
      cbv zeta; rewrite (has_dtype _ _ _ _ Ht); destruct o, d; try exact I; exact B.
Qed.

(** Parameters. *)
Lemma convert_all_ok : forall l ss g, wf g -> Forall2 (rel g) l ss ->
  exists g1 ts, convert_all g l = Ret (g1, ts) /\ ext g g1 /\ wf g1 /\ rvals g1 = rvals g /\
    Forall2 (fun t p => has g1 t (fst p) (snd p)) ts (map (parameter const) ss).
Proof.
  induction l as [|v l IH]; intros ss g W H; inversion H as [|a s b ss' Hv Hl]; subst.
  - exists g, []. repeat split; try apply ext_refl; try apply W. constructor.
  - assert (C : exists g1 t, convert g None v = Ret (g1, t) /\ ext g g1 /\ wf g1 /\ rvals g1 = rvals g /\
                  has g1 t (fst (parameter const s)) (snd (parameter const s))).
    { destruct s as [c|x d].
      - destruct v as [c'| |]; [|cbn in Hv; contradiction..]. cbn in Hv. subst c'.
        assert (Ef : fits c (own_type c) = true) by (destruct c; reflexivity).
        destruct (convert_number g c (own_type c) W Ef) as [E1 [E2 [E3 [E4 E5]]]].
        exists (add_node g (mknode (KConst c) [] (own_type c))), (length (nodes g)).
        split; [exact E1|]. auto.
      - exists g, (tensor g v). split.
        { destruct v; [cbn in Hv; contradiction|reflexivity..]. }
        split; [apply ext_refl|]. split; [exact W|]. split; [reflexivity|]. apply rel_tensor. exact Hv. }
    destruct C as [g1 [t [E1 [E2 [E3 [E4 E5]]]]]].
    destruct (IH ss' g1 E3 (rels_ext _ _ _ _ E2 Hl)) as [g2 [ts [F1 [F2 [F3 [F4 F5]]]]]].
    exists g2, (t :: ts). cbn [convert_all]. rewrite E1. cbn [bind]. rewrite F1. cbn [bind].
    split; [reflexivity|]. split; [exact (ext_trans _ _ _ E2 F2)|]. split; [exact F3|].
    split; [congruence|]. cbn [map]. constructor; [exact (has_ext _ _ _ _ _ F2 E5)|exact F5].
Qed.

Lemma all_types : forall g d ts ps, Forall2 (fun t (p : V * dt) => has g t (fst p) (snd p)) ts ps ->
  forallb (fun u => dt_eqb d (dtype g u)) ts = forallb (fun p => dt_eqb d (snd p)) ps.
Proof.
  intros g d ts ps H. induction H as [|t p ts ps Hh _ IH]; [reflexivity|].
  cbn. rewrite (has_dtype _ _ _ _ Hh), IH. reflexivity.
Qed.

Lemma all_values : forall g F z ts ps, feeds_ok F g ->
  Forall2 (fun t (p : V * dt) => has g t (fst p) (snd p)) ts ps ->
  map (fun i => nth i (run F (nodes g)) z) ts = map fst ps.
Proof.
  intros g F z ts ps HF H. induction H as [|t p ts ps Hh _ IH]; [reflexivity|].
  cbn. rewrite (has_nth _ _ _ _ F z Hh HF), IH. reflexivity.
Qed.

Lemma construct_ok : forall g cls l ss, wf g -> Forall2 (rel g) l ss ->
  ok g rel (construct g cls l)
    (bind (s_new const draw noise given (length (rvals g)) cls ss) (fun s => Ret (S (length (rvals g)), s))).
Proof.
  intros g cls l ss W H. destruct (convert_all_ok l ss g W H) as [g1 [ts [E1 [E2 [E3 [E4 E5]]]]]].
  unfold construct. rewrite E1. cbn [bind]. unfold s_new.
  destruct (map (parameter const) ss) as [|[v d] ps] eqn:Ep; inversion E5 as [|t p ts' ps' Ht Hts]; subst.
  - exact I.
  - cbn [fst snd] in Ht. rewrite (has_dtype _ _ _ _ Ht). cbn [forallb].
    rewrite (has_dtype _ _ _ _ Ht), dt_eqb_refl, (all_types _ d _ _ Hts). cbn [andb].
    destruct (is_float d && forallb (fun p => dt_eqb d (snd p)) ps); [|exact I].
    cbn [bind ok].
    set (n := mknode (KDraw (length (rvals g1)) cls) (t :: ts') d).
    set (g2 := mkpgraph (nodes g1 ++ [n]) (rvals g1 ++ [length (nodes g1)])).
    assert (X : ext g1 g2) by (split; cbn; eexists; reflexivity).
    assert (Hn : nth_error (nodes g2) (length (nodes g1)) = Some n)
      by (cbn; rewrite nth_error_app2, Nat.sub_diag by lia; reflexivity).
    assert (Hr : nth_error (rvals g2) (length (rvals g1)) = Some (length (nodes g1)))
      by (cbn; rewrite nth_error_app2, Nat.sub_diag by lia; reflexivity).
    split; [exact (ext_trans _ _ _ E2 X)|]. split.
    { destruct E3 as [W1 W2]. split; cbn.
      - intros r u Hu.
        destruct (Nat.lt_ge_cases r (length (rvals g1))) as [L|L].
        + rewrite nth_error_app1 in Hu by exact L. destruct (W1 r u Hu) as [m [c [Hm Hk]]]. exists m, c.
          split; [apply nth_error_app_l; exact Hm|exact Hk].
        + rewrite nth_error_app2 in Hu by exact L. destruct (r - length (rvals g1)) as [|j] eqn:Ej.
          * cbn in Hu. injection Hu as <-. exists n, cls. split; [exact Hn|].
            assert (r = length (rvals g1)) by lia. subst r. reflexivity.
          * destruct j; discriminate.
      - intros i m Hi. destruct (Nat.lt_ge_cases i (length (nodes g1))) as [L|L].
        + rewrite nth_error_app1 in Hi by exact L. specialize (W2 i m Hi).
          destruct (nkind m); try (intros Hin; apply in_app_or in Hin; destruct Hin as [Hin|[Hin|[]]];
            [exact (W2 Hin)|lia]). apply nth_error_app_l. exact W2.
        + rewrite nth_error_app2 in Hi by exact L. destruct (i - length (nodes g1)) as [|j] eqn:Ej.
          * cbn in Hi. injection Hi as <-. cbn. assert (i = length (nodes g1)) by lia. subst i. exact Hr.
          * destruct j; discriminate. }
    split. { cbn. rewrite app_length, E4. cbn. lia. }
    cbn [rel]. exists (length (nodes g1)). split; [exact Hr|]. split.
    + exists n. split; [exact Hn|reflexivity].
    + intros F HF. unfold g2. cbn [nodes]. rewrite run_snoc, nth_error_app2, run_length, Nat.sub_diag by (rewrite run_length; lia).
      cbn. f_equal. unfold RVProgram.node_value. rewrite run_length, (HF _ _ Hn). cbn [nkind n nins].
      rewrite E4. destruct (given (length (rvals g))); [reflexivity|]. f_equal.
      exact (all_values g1 F _ _ _ (feeds_ext _ _ _ X HF) E5).
Qed.

Definition rels g := Forall2 (rel g).

Lemma ok_bind : forall (A B : Type) g (R : pgraph -> A -> B -> Prop) b i C D (S : pgraph -> C -> D -> Prop) f h,
  ok g R b i ->
  (forall g1 v s, ext g g1 -> wf g1 -> R g1 v s -> ok g1 S (f (g1, v)) (h (length (rvals g1), s))) ->
  ok g S (bind b f) (bind i h).
Proof.
  intros A B g R b i C D S f h H K.
  destruct b as [[g1 v]| | |], i as [[k s]| | |]; cbn in H; try contradiction; try exact I.
  destruct H as [H1 [H2 [H3 H4]]]. subst k. specialize (K g1 v s H1 H2 H4). cbn [bind].
  destruct (f (g1, v)) as [[g2 w]| | |], (h (length (rvals g1), s)) as [[k' u]| | |]; cbn in K |- *;
    try contradiction; try exact I.
  destruct K as [K1 [K2 [K3 K4]]]. split; [exact (ext_trans _ _ _ H1 K1)|]. auto.
Qed.

Lemma forall2_nth : forall (A B : Type) (R : A -> B -> Prop) l l' i, Forall2 R l l' ->
  match nth_error l i, nth_error l' i with
  | Some a, Some b => R a b
  | None, None => True
  | _, _ => False
  end.
Proof.
  intros A B R l l' i H. revert i. induction H as [|a b l l' Hab _ IH]; intros [|i]; cbn; auto. apply IH.
Qed.

Lemma build_ok :
  (forall e env senv g, wf g -> rels g env senv ->
     ok g rel (build env g e) (interpret const bin un draw noise given senv (length (rvals g)) e)) /\
  (forall l env senv g, wf g -> rels g env senv ->
     ok g rels (build_args env g l) (interpret_args const bin un draw noise given senv (length (rvals g)) l)).
Proof.
  apply expr_exprs_ind.
  - intros i env senv g W H. cbn [build interpret].
    assert (Hn := forall2_nth _ _ _ _ _ i H). destruct (nth_error env i), (nth_error senv i); try contradiction; [|exact I].
    cbn. split; [apply ext_refl|]. auto.
  - intros c env senv g W H. cbn. split; [apply ext_refl|]. auto.
  - intros o a IHa b IHb env senv g W H. cbn [build interpret].
    apply (ok_bind _ _ g rel _ _ _ _ rel _ _ (IHa env senv g W H)). intros g1 va sa X1 W1 R1.
    apply (ok_bind _ _ g1 rel _ _ _ _ rel _ _ (IHb env senv g1 W1 (rels_ext _ _ _ _ X1 H))).
    intros g2 vb sb X2 W2 R2. exact (binary_ok g2 o va vb sa sb W2 (rel_ext _ _ _ _ X2 R1) R2).
  - intros o a IHa env senv g W H. cbn [build interpret].
    apply (ok_bind _ _ g rel _ _ _ _ rel _ _ (IHa env senv g W H)). intros g1 va sa X1 W1 R1.
    exact (unary_ok g1 o va sa W1 R1).
  - intros cls l IHl env senv g W H. cbn [build interpret].
    apply (ok_bind _ _ g rels _ _ _ _ rel _ _ (IHl env senv g W H)). intros g1 vs ss X1 W1 R1.
    exact (construct_ok g1 cls vs ss W1 R1).
  - intros c IHc a IHa b IHb env senv g W H. cbn [build interpret].
    apply (ok_bind _ _ g rel _ _ _ _ rel _ _ (IHc env senv g W H)). intros g1 v s X1 W1 R1.
    destruct v as [x| |], s as [x'|]; cbn in R1; try contradiction; try exact I. subst x'.
    destruct (truth x); [apply IHa|apply IHb]; try exact W1; exact (rels_ext _ _ _ _ X1 H).
  - intros env senv g W H. cbn. split; [apply ext_refl|]. split; [exact W|]. split; [reflexivity|constructor].
  - intros e IHe l IHl env senv g W H. cbn [build_args interpret_args].
    apply (ok_bind _ _ g rel _ _ _ _ rels _ _ (IHe env senv g W H)). intros g1 v s X1 W1 R1.
    apply (ok_bind _ _ g1 rels _ _ _ _ rels _ _ (IHl env senv g1 W1 (rels_ext _ _ _ _ X1 H))).
    intros g2 vs ss X2 W2 R2. cbn. split; [apply ext_refl|]. split; [exact W2|]. split; [reflexivity|].
    constructor; [exact (rel_ext _ _ _ _ X2 R1)|exact R2].
Qed.

Lemma program_ok : forall p env senv g, wf g -> rels g env senv ->
  ok g rels (build_program env g p)
    (interpret_program const bin un draw noise given senv (length (rvals g)) p).
Proof.
  induction p as [|e p IH]; intros env senv g W H; cbn [build_program interpret_program].
  - cbn. split; [apply ext_refl|]. auto.
  - apply (ok_bind _ _ g rel _ _ _ _ rels _ _ (proj1 build_ok e env senv g W H)). intros g1 v s X1 W1 R1.
    apply IH; [exact W1|]. apply Forall2_app; [exact (rels_ext _ _ _ _ X1 H)|constructor; [exact R1|constructor]].
Qed.
End P.

Lemma wf_empty : wf empty.
Proof. split; cbn; intros []; discriminate. Qed.

(** The feed of random variables feeds the draws and nothing else. *)
Lemma feed_map_ok : forall (V : Type) g (feed : list (nat * V)), wf g ->
  (forall f, In f feed -> fst f < length (rvals g)) ->
  feeds_ok (given_to feed) (feed_map g (map (fun f => (VRV (fst f), snd f)) feed)) g.
Proof.
  intros V g feed W H i n Hi. unfold feed_map. rewrite map_map. cbn [fst snd tensor].
  unfold fed_value, given_to.
  assert (W2 := wf_draw g W i n Hi).
  induction feed as [|[r v] feed IH]; cbn [map find fst snd].
  - destruct (nkind n); reflexivity.
  - assert (Hr : nth_error (rvals g) r = Some (nth r (rvals g) 0))
      by (apply nth_error_nth'; exact (H (r, v) (or_introl eq_refl))).
    assert (IH' := IH (fun f Hf => H f (or_intror Hf))). clear IH.
    destruct (Nat.eqb_spec (nth r (rvals g) 0) i) as [E|E].
    + destruct (nkind n) as [r' cls|c|o|o]; cycle 1;
        try (exfalso; apply W2; rewrite <- E; exact (nth_error_In _ _ Hr)).
      assert (En : nth_error (nodes g) i = Some n) by exact Hi.
      assert (r = r').
      { destruct (wf_rv g W r _ Hr) as [m [c [Hm Hk]]]. destruct (wf_rv g W r' _ W2) as [m' [c' [Hm' Hk']]].
        rewrite E in Hm. congruence. }
      subst r'. rewrite Nat.eqb_refl. reflexivity.
    + destruct (nkind n) as [r' cls|c|o|o]; cycle 1; try exact IH'.
      destruct (Nat.eqb_spec r r') as [E2|E2]; [|exact IH'].
      subst r'. exfalso. apply E. congruence.
Qed.

Lemma rel_shows : forall (V N : Type) const bin un draw (noise : nat -> N) g (feed : list (nat * V)) v s, wf g ->
  (forall f, In f feed -> fst f < length (rvals g)) ->
  rel const bin un draw noise (given_to feed) g v s -> shows const bin un draw noise g feed v s.
Proof.
  intros V N const bin un draw noise g feed v s W H R. destruct v as [c|t|r], s as [c'|x d]; try exact R.
  - cbn [shows]. split; [exact (has_dtype _ _ _ _ _ _ _ _ _ _ R)|].
    apply (proj2 R). apply feed_map_ok; assumption.
  - assert (R' := rel_tensor _ _ _ _ _ _ _ _ _ _ R). cbn [shows].
    split; [exact (has_dtype _ _ _ _ _ _ _ _ _ _ R')|].
    apply (proj2 R'). apply feed_map_ok; assumption.
Qed.

Lemma program_agrees : forall (V N : Type) const bin un draw (noise : nat -> N) (feed : list (nat * V)) p,
  mirrored bin ->
  agree const bin un draw noise feed (build_program [] empty p)
    (interpret_program const bin un draw noise (given_to feed) [] 0 p).
Proof.
  intros V N const bin un draw noise feed p M.
  assert (T := program_ok const bin un draw noise (given_to feed) M p [] [] empty wf_empty (Forall2_nil _)).
  cbn [rvals empty length] in T.
  destruct (build_program [] empty p) as [[g env]| | |],
    (interpret_program const bin un draw noise (given_to feed) [] 0 p) as [[k out]| | |]; cbn in T |- *;
    try contradiction; try exact I.
  destruct T as [_ [W [Ek R]]]. split; [exact Ek|]. intros H. subst k. unfold rels in R.
  induction R; constructor; [apply rel_shows; assumption|assumption].
Qed.

