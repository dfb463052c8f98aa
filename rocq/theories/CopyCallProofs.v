(** * copy: several calls on one graph (proofs). *)
From Coq Require Import String List Arith Bool Lia.
From Verif Require Import Copy CopySpec CopyProofs CopySubstProofs CopyFinalProofs.
Import ListNotations.
Local Open Scope string_scope.

(** ** Decidability of [depends] *)

Lemma depends_dec : forall g h, acyclic g h -> forall t l, depends g t l \/ ~ depends g t l.
Proof.
  intros g h Hac t l. assert (H : forall n t, h t < n -> depends g t l \/ ~ depends g t l).
  { induction n as [|n IH]; intros u Hu; [lia|].
    destruct (Nat.eq_dec u l) as [->|Hne]; [left; constructor|].
    destruct (nth_error (ops g) u) as [d|] eqn:Ed.
    - pose proof (Hac _ _ Ed) as Hl.
      assert (Hd : (exists i, In i (oins d) /\ depends g i l) \/ ~ exists i, In i (oins d) /\ depends g i l).
      { induction Hl as [|i li Hi _ IHl]; [right; intros [i [[] _]]|].
        destruct (IH i) as [Hy|Hn]; [lia|left; exists i; split; [now left|auto]|].
        destruct IHl as [[j [Hj Hdj]]|Hn2]; [left; exists j; split; [now right|auto]|].
        right. intros [j [[<-|Hj] Hdj]]; [auto|]. apply Hn2. eauto. }
      destruct Hd as [[i [Hi Hdi]]|Hn]; [left; econstructor; eauto|right].
      intros H. inversion H as [|t0 d0 i l0 Hd0 Hi Hdi]; subst; [congruence|].
      assert (d0 = d) by congruence. subst. apply Hn. eauto.
    - right. intros H. inversion H; subst; congruence. }
  apply (H (S (h t))). lia.
Qed.

Lemma depends_trans : forall g a b c, depends g a b -> depends g b c -> depends g a c.
Proof. intros g a b c H. induction H; intros; auto. econstructor; eauto. Qed.

(** A list of the positions below [n] that satisfy a decidable property. *)
Lemma decide_below : forall (P : nat -> Prop) n, (forall i, P i \/ ~ P i) ->
  exists f : nat -> bool, forall i, i < n -> (f i = true <-> P i).
Proof.
  intros P n Hd. induction n as [|n [f Hf]]; [exists (fun _ => false); lia|].
  destruct (Hd n) as [Hp|Hn].
  - exists (fun i => if Nat.eqb i n then true else f i). intros i Hi. destruct (Nat.eqb_spec i n); [subst; tauto|].
    apply Hf. lia.
  - exists (fun i => if Nat.eqb i n then false else f i). intros i Hi. destruct (Nat.eqb_spec i n).
    + subst. split; [discriminate|tauto].
    + apply Hf. lia.
Qed.

(** A height in which the ancestors of [t] are below everything else. *)
Lemma ancestor_height : forall g h t, wf g -> acyclic g h -> t < length (ops g) ->
  exists h', acyclic g h' /\ forall o, o < length (ops g) -> h' o <= h' t -> depends g t o.
Proof.
  intros g h t Hwf Hac Ht.
  destruct (bounded h (length (ops g))) as [M HM].
  destruct (decide_below (depends g t) (length (ops g)) (depends_dec g h Hac t)) as [A HA].
  exists (fun o => if A o then h o else M + h o). split.
  - intros o d Hd. pose proof (Hac _ _ Hd) as Hl. pose proof (wf_closed _ Hwf _ _ Hd) as Hc.
    assert (Ho : o < length (ops g)) by (eapply nth_lt; eauto).
    rewrite Forall_forall in *. intros i Hi. specialize (Hl _ Hi). specialize (Hc _ Hi). specialize (HM _ Hc).
    destruct (A o) eqn:Eo.
    + assert (Ei : A i = true); [|rewrite Ei; auto]. apply HA; auto. apply HA in Eo; auto.
      eapply depends_trans; [exact Eo|]. econstructor; [exact Hd|exact Hi|constructor].
    + destruct (A i); lia.
  - assert (Et : A t = true) by (apply HA; auto; constructor). rewrite Et.
    intros o Ho H. destruct (A o) eqn:Eo; [now apply HA|]. specialize (HM _ Ht). lia.
Qed.

Section Calls.
Variable g0 : graph.
Variable h : nat -> nat.
Hypothesis Hwf : wf g0.
Hypothesis Hac : acyclic g0 h.
Notation n0 := (length (ops g0)).

(** A later graph of the program. *)
Record world (g : graph) : Prop := {
  w_ext : extends g0 g;
  w_wf : wf g;
  w_ac : exists h1, acyclic g h1;
  w_new : new_values g0 g
}.

(** The operations named in the scope are copies under [sw]. *)
Definition faithful (sw : swap) (s : string) (g : graph) : Prop :=
  forall o d src ds, nth_error (ops g) o = Some d -> nth_error (ops g0) src = Some ds ->
  oname d = s ++ oname ds ->
  leaf (okind ds) = false /\ okind d = okind ds /\ Forall2 (image g0 g sw s g) (oins ds) (oins d).

Record state (sw : swap) (s : string) (g : graph) : Prop := {
  s_fresh : fresh_scope g0 s;
  s_world : world g;
  s_swap : swap_at g0 g sw;
  s_faith : faithful sw s g;
  s_I6 : I6 g0 s g
}.

Lemma swap_at_ext : forall g g' sw, extends g g' -> swap_at g0 g sw -> swap_at g0 g' sw.
Proof.
  intros g g' sw He [HF Hn]. split; auto. eapply Forall_impl; [|exact HF].
  intros kv [A [B C]]. split; auto. split; auto. eapply valid_extends; eauto.
Qed.

Lemma repl_ext : forall g g' sw t, extends g0 g -> extends g g' -> swap_at g0 g sw ->
  replacement g' sw t = replacement g sw t.
Proof.
  intros g g' sw t He0 He [HF _]. unfold replacement. induction HF as [|[k y] l [Hk [Hy _]] _ IH]; auto. simpl in *.
  rewrite (tensor_extends g g' k He) by (eapply valid_extends; eauto).
  destruct (Nat.eqb (tensor_of g k) t); auto. simpl. f_equal. now apply tensor_extends.
Qed.

Lemma image_repl : forall g g' sw s gi i i', (forall t, replacement g' sw t = replacement g sw t) ->
  image g0 g sw s gi i i' -> image g0 g' sw s gi i i'.
Proof. intros g g' sw s gi i i' H Hi. unfold image in *. now rewrite H. Qed.
Lemma images_repl : forall g g' sw s gi l l', (forall t, replacement g' sw t = replacement g sw t) ->
  Forall2 (image g0 g sw s gi) l l' -> Forall2 (image g0 g' sw s gi) l l'.
Proof. intros g g' sw s gi l l' H HF. induction HF; constructor; auto. eapply image_repl; eauto. Qed.

Lemma state_inv : forall sw s g, state sw s g -> Inv g0 g sw s [] g.
Proof.
  intros sw s g [Hf [He Hw Ha Hn] Hs Hfa H6]. destruct Hw as [W1 W2 W3 W4 W5]. constructor; auto.
  - apply extends_refl.
  - intros o d src ds Hd Hsr En. destruct (Hfa _ _ _ _ Hd Hsr En) as [A [B C]]. auto.
  - intros o d Ho Hd. apply nth_lt in Hd. lia.
  - intros r d Hr Hd. split; [eauto|]. split; [|intros []]. rewrite Forall_forall in W5. eapply W5, nth_error_In; eauto.
  - intros r d Hr Hd. apply nth_lt in Hd. lia.
Qed.

Lemma inv_state : forall sw s g g', state sw s g -> Inv g0 g sw s [] g' -> I6 g0 s g' -> state sw s g'.
Proof.
  intros sw s g g' [Hf [He Hw [h1 Ha] Hn] Hs Hfa H6] HI H6'.
  pose proof (i_ext1 _ _ _ _ _ _ HI) as He1. constructor; auto.
  - constructor.
    + eapply extends_trans; eauto.
    + exact (inv_wf g0 g sw s Hwf He g' HI).
    + exact (inv_acyclic g0 g sw s h (fun i => i) Hwf He Hw Hs Hac g' HI h1 Ha).
    + intros r d Hr Hd. destruct (i_rv _ _ _ _ _ _ HI _ _ Hr Hd) as [A _]. auto.
  - eapply swap_at_ext; eauto.
  - intros o d src ds Hd Hsr En. destruct (i_op _ _ _ _ _ _ HI _ _ _ _ Hd Hsr En) as [A [B [[]|C]]].
    split; auto. split; auto. eapply images_repl; [|exact C]. intros t. apply repl_ext; auto.
Qed.

(** ** Starting, and calls in other scopes *)

Lemma state_fresh : forall sw s g, world g -> swap_at g0 g sw -> fresh_scope g s -> state sw s g.
Proof.
  intros sw s g Hw Hs Hf. pose proof Hf as [F1 F2]. constructor; auto.
  - destruct (w_ext _ Hw) as [E1 E2]. split.
    + intros d n Hin. apply In_nth_error in Hin. destruct Hin as [i Hi]. apply E1 in Hi. eapply F1, nth_error_In; eauto.
    + intros d n Hin. apply In_nth_error in Hin. destruct Hin as [i Hi]. apply E2 in Hi. eapply F2, nth_error_In; eauto.
  - intros o d src ds Hd _ En. exfalso. eapply F1; [eapply nth_error_In; eauto|exact En].
  - eapply I6_start; eauto.
Qed.

(** The operations that [g'] adds to [g] are not named in [s]. *)
Definition foreign (s : string) (g g' : graph) : Prop :=
  forall o d n, length (ops g) <= o -> nth_error (ops g') o = Some d -> oname d <> s ++ n.

Lemma state_foreign : forall sw s g g', state sw s g -> world g' -> extends g g' -> foreign s g g' -> state sw s g'.
Proof.
  intros sw s g g' [Hf Hw Hs Hfa H6] Hw' He Hfo. constructor; auto.
  - eapply swap_at_ext; eauto.
  - intros o d src ds Hd Hsr En. destruct (Nat.lt_ge_cases o (length (ops g))) as [Hlt|Hge].
    + destruct (nth_error (ops g) o) as [d1|] eqn:E1; [|apply nth_error_None in E1; lia].
      pose proof (proj1 He _ _ E1). assert (d1 = d) by congruence. subst.
      destruct (Hfa _ _ _ _ E1 Hsr En) as [A [B C]]. split; auto. split; auto.
      eapply images_repl; [intros t; apply (repl_ext g g' sw t (w_ext _ Hw) He Hs)|].
      eapply images_ext; [apply extends_named; exact He|exact C].
    + exfalso. eapply Hfo; eauto.
  - intros r d Hr Hn. destruct (op_named g' (s ++ rname d ++ "sample")) as [o|] eqn:E; [|congruence].
    apply op_named_some in E. destruct E as [d' [Hd' En]].
    destruct (Nat.lt_ge_cases o (length (ops g))) as [Hlt|Hge]; [|exfalso; eapply Hfo; eauto].
    destruct (nth_error (ops g) o) as [d1|] eqn:E1; [|apply nth_error_None in E1; lia].
    pose proof (proj1 He _ _ E1). assert (d1 = d') by congruence. subst.
    eapply rv_named_mono; [exact He|]. eapply H6; [exact Hr|]. eapply op_named_found; eauto.
Qed.

(** Another dictionary in the same scope, if it does the same above all that
    has been copied. *)
Lemma state_swap : forall sw sw' s g, state sw s g -> swap_at g0 g sw' ->
  (forall o d src ds i, nth_error (ops g) o = Some d -> nth_error (ops g0) src = Some ds -> oname d = s ++ oname ds ->
     In i (oins ds) -> replacement g sw i = None /\ replacement g sw' i = None) ->
  state sw' s g.
Proof.
  intros sw sw' s g [Hf Hw Hs Hfa H6] Hs' Hr. constructor; auto.
  intros o d src ds Hd Hsr En. destruct (Hfa _ _ _ _ Hd Hsr En) as [A [B C]]. split; auto. split; auto.
  assert (Hi : forall i, In i (oins ds) -> replacement g sw i = None /\ replacement g sw' i = None) by (intros; eauto).
  clear - C Hi. induction C as [|i i' l l' Hii _ IH]; constructor.
  - destruct (Hi i (or_introl eq_refl)) as [R1 R2]. unfold image in *. rewrite R1 in Hii. now rewrite R2.
  - apply IH. intros j Hj. apply Hi. now right.
Qed.

(** ** A call *)

Definition sources (g g' : graph) (s : string) (t : nat) : Prop :=
  forall o d, length (ops g) <= o -> nth_error (ops g') o = Some d ->
  exists src ds, nth_error (ops g0) src = Some ds /\ oname d = s ++ oname ds /\ depends g0 t src.

(** All that [g'] adds to [g] is named in [s]. *)
Definition adds (s : string) (g g' : graph) : Prop :=
  (forall o d, length (ops g) <= o -> nth_error (ops g') o = Some d -> exists n, oname d = s ++ n) /\
  (forall r d, length (rvs g) <= r -> nth_error (rvs g') r = Some d -> exists n, rname d = s ++ n).

Lemma adds_refl : forall s g, adds s g g.
Proof. intros s g. split; intros i d Hi Hd; apply nth_lt in Hd; lia. Qed.
Lemma adds_trans : forall s g ga gb, extends ga gb -> adds s g ga -> adds s ga gb -> adds s g gb.
Proof.
  intros s g ga gb [E1 E2] [A1 A2] [B1 B2]. split; intros i d Hi Hd.
  - destruct (Nat.lt_ge_cases i (length (ops ga))) as [Hlt|Hge]; [|eauto].
    destruct (nth_error (ops ga) i) as [d1|] eqn:Ed; [|apply nth_error_None in Ed; lia].
    pose proof (E1 _ _ Ed). assert (d1 = d) by congruence. subst. eauto.
  - destruct (Nat.lt_ge_cases i (length (rvs ga))) as [Hlt|Hge]; [|eauto].
    destruct (nth_error (rvs ga) i) as [d1|] eqn:Ed; [|apply nth_error_None in Ed; lia].
    pose proof (E2 _ _ Ed). assert (d1 = d) by congruence. subst. eauto.
Qed.
Lemma adds_foreign : forall g g' s s', (forall n n', s ++ n <> s' ++ n') -> adds s' g g' -> foreign s g g'.
Proof. intros g g' s s' Ha [Hs _] o d n Ho Hd E. destruct (Hs _ _ Ho Hd) as [m En]. apply (Ha n m). congruence. Qed.
Lemma adds_fresh : forall g g' s s', (forall n n', s ++ n <> s' ++ n') -> extends g g' -> adds s' g g' ->
  fresh_scope g s -> fresh_scope g' s.
Proof.
  intros g g' s s' Ha [E1 E2] [A1 A2] [F1 F2]. split; intros d n Hin En; apply In_nth_error in Hin; destruct Hin as [i Hi].
  - destruct (nth_error (ops g) i) as [d1|] eqn:Ed.
    + pose proof (E1 _ _ Ed). assert (d1 = d) by congruence. subst. eapply F1; [eapply nth_error_In; eauto|eauto].
    + apply nth_error_None in Ed. destruct (A1 _ _ Ed Hi) as [m Em]. apply (Ha n m). congruence.
  - destruct (nth_error (rvs g) i) as [d1|] eqn:Ed.
    + pose proof (E2 _ _ Ed). assert (d1 = d) by congruence. subst. eapply F2; [eapply nth_error_In; eauto|eauto].
    + apply nth_error_None in Ed. destruct (A2 _ _ Ed Hi) as [m Em]. apply (Ha n m). congruence.
Qed.

Lemma call_rv : forall pick sw s g r d, state sw s g -> direct_keys g0 sw -> nth_error (rvs g0) r = Some d ->
  exists N g' r', (forall fuel, N <= fuel -> copy fuel pick sw s false false true g (XRV r) = (g', Ok (XRV r'))) /\
    state sw s g' /\ extends g g' /\ sources g g' s (rvalue d) /\ adds s g g' /\ rv_named g' (s ++ rname d) = Some r'.
Proof.
  intros pick sw s g r d Hst Hdk Hr.
  assert (Hv : rvalue d < n0) by (eapply rv_value_lt0; eauto).
  destruct (ancestor_height g0 h (rvalue d) Hwf Hac Hv) as [h' [Hac' Hanc]].
  pose proof Hst as [Hf [He Hw [h1 Ha] Hn] Hs Hfa H6].
  destruct (top_rv g0 g sw s h' pick Hwf Hf He Hw Hs Hdk Hac' (2 * h' (rvalue d) + 3) g r d (state_inv _ _ _ Hst) H6 Hr (le_n _))
    as [g' [r' [E [HI' [H6' [Hvr [Hni [Hnm [Hbe Hext]]]]]]]]].
  exists (2 * h' (rvalue d) + 3), g', r'. split; [|split; [|split; [|split; [|split]]]]; auto.
  - intros fuel Hfu. replace fuel with ((fuel - (2 * h' (rvalue d) + 3)) + (2 * h' (rvalue d) + 3)) by lia.
    apply copy_mono; [exact E|discriminate].
  - eapply inv_state; eauto.
  - intros o do Ho Hdo. destruct (Hbe _ _ Ho Hdo) as [src [ds [H1 [H2 H3]]]]. exists src, ds. split; auto. split; auto.
    apply Hanc; auto. eapply nth_lt; eauto.
  - split.
    + intros o do Ho Hdo. destruct (Hbe _ _ Ho Hdo) as [src [ds [_ [En _]]]]. eauto.
    + intros o do Ho Hdo. destruct (i_rvnew _ _ _ _ _ _ HI' _ _ Ho Hdo) as [src [ds [_ En]]]. eauto.
Qed.

(** ** Values *)

Lemma copied_rv : forall sw s g r d r', state sw s g -> nth_error (rvs g0) r = Some d ->
  rv_named g (s ++ rname d) = Some r' ->
  exists d', nth_error (rvs g) r' = Some d' /\ rclass d' = rclass d /\
    node_image g0 s g (rvalue d) (rvalue d') /\
    Forall2 (image g0 g sw s g) (map (tensor_of g0) (rargs d)) (map (tensor_of g) (rargs d')).
Proof.
  intros sw s g r d r' Hst Hr Hn. apply rv_named_some in Hn. destruct Hn as [d' [Hd' En]].
  exists d'. split; auto. pose proof (rv_ok0 g0 Hwf _ _ Hr) as [_ Ho].
  pose proof Hst as [Hf [He Hw Ha Hnv] Hs Hfa H6].
  pose proof (rv_ok0 g Hw _ _ Hd') as [_ Ho'].
  assert (Hge : n0 <= rvalue d').
  { destruct (Nat.lt_ge_cases r' (length (rvs g0))) as [Hlt|Hge].
    - exfalso. rewrite (ext_rv g0 g He) in Hd' by auto. destruct Hf as [_ Hf]. eapply Hf; [eapply nth_error_In; eauto|eauto].
    - eapply Hnv; eauto. }
  assert (Enm : oname (mkop (rname d' ++ "sample") (KOp (rclass d')) (map (tensor_of g) (rargs d')))
               = s ++ oname (mkop (rname d ++ "sample") (KOp (rclass d)) (map (tensor_of g0) (rargs d)))).
  { simpl. rewrite En. apply app_assoc_s. }
  destruct (Hfa _ _ _ _ Ho' Ho Enm) as [_ [Hk Him]]. simpl in Hk, Him. injection Hk as Hk. split; auto. split; auto.
  eexists. split; [exact Ho|]. simpl. split; auto. eexists. split; [exact Ho'|]. exact Enm.
Qed.

Lemma rv_named_ext : forall g g' n r, extends g g' -> wf g' -> rv_named g n = Some r -> rv_named g' n = Some r.
Proof.
  intros g g' n r He Hw' H. apply rv_named_some in H. destruct H as [d [Hd En]].
  destruct (rv_named g' n) as [r'|] eqn:E.
  - apply rv_named_some in E. destruct E as [d' [Hd' En']]. f_equal.
    apply (nodup_nth rname _ _ _ _ _ (wf_rv_names _ Hw') Hd' (proj2 He _ _ Hd)). congruence.
  - exfalso. eapply rv_named_none in E; [|apply He; exact Hd]. congruence.
Qed.

(** Where the noise of the original operations went; [k] keeps apart the
    operations that several calls did not copy. *)
Definition renamed (k : nat) (s : string) (g : graph) (o : nat) : nat :=
  match nth_error (ops g0) o with
  | Some d => match op_named g (s ++ oname d) with Some o' => o' | None => length (ops g) + k + o end
  | None => length (ops g) + k + o
  end.

Lemma renamed_new : forall k s g g', fresh_scope g s -> extends g g' -> forall o, length (ops g) <= renamed k s g' o.
Proof.
  intros k s g g' [Hf _] He o. pose proof (named_len _ _ (extends_named _ _ He)). unfold renamed.
  destruct (nth_error (ops g0) o) as [d|]; [|lia].
  destruct (op_named g' (s ++ oname d)) as [o'|] eqn:E; [|lia]. apply op_named_some in E. destruct E as [d' [Hd' En]].
  destruct (Nat.le_gt_cases (length (ops g)) o') as [|Hlt]; auto. exfalso.
  destruct (nth_error (ops g) o') as [d1|] eqn:E1; [|apply nth_error_None in E1; lia].
  pose proof (proj1 He _ _ E1). assert (d1 = d') by congruence. subst. eapply Hf; [eapply nth_error_In; eauto|exact En].
Qed.
Lemma renamed_inj : forall k s g a b, a < n0 -> b < n0 -> renamed k s g a = renamed k s g b -> a = b.
Proof.
  intros k s g a b Ha Hb. unfold renamed.
  destruct (nth_error (ops g0) a) as [da|] eqn:Ea; [|apply nth_error_None in Ea; lia].
  destruct (nth_error (ops g0) b) as [db|] eqn:Eb; [|apply nth_error_None in Eb; lia].
  destruct (op_named g (s ++ oname da)) as [a'|] eqn:Fa; destruct (op_named g (s ++ oname db)) as [b'|] eqn:Fb;
    intros E.
  - subst b'. apply op_named_some in Fa. apply op_named_some in Fb. destruct Fa as [d1 [H1 N1]]. destruct Fb as [d2 [H2 N2]].
    assert (d1 = d2) by congruence. subst d2. rewrite N1 in N2. apply app_inj_s in N2.
    exact (nodup_nth oname _ _ _ _ _ (wf_names _ Hwf) Ea Eb N2).
  - apply op_named_some in Fa. destruct Fa as [d1 [H1 _]]. apply nth_lt in H1. lia.
  - apply op_named_some in Fb. destruct Fb as [d1 [H1 _]]. apply nth_lt in H1. lia.
  - lia.
Qed.
(** Two scopes draw from different operations. *)
Lemma renamed_apart : forall k k' s s' g a b, (forall n n', s ++ n <> s' ++ n') -> k + n0 <= k' ->
  a < n0 -> b < n0 -> renamed k s g a <> renamed k' s' g b.
Proof.
  intros k k' s s' g a b Hap Hk Ha Hb. unfold renamed.
  destruct (nth_error (ops g0) a) as [da|] eqn:Ea; [|apply nth_error_None in Ea; lia].
  destruct (nth_error (ops g0) b) as [db|] eqn:Eb; [|apply nth_error_None in Eb; lia].
  destruct (op_named g (s ++ oname da)) as [a'|] eqn:Fa; destruct (op_named g (s' ++ oname db)) as [b'|] eqn:Fb;
    intros E.
  - subst b'. apply op_named_some in Fa. apply op_named_some in Fb. destruct Fa as [d1 [H1 N1]]. destruct Fb as [d2 [H2 N2]].
    assert (d1 = d2) by congruence. subst d2. rewrite N1 in N2. exact (Hap _ _ N2).
  - apply op_named_some in Fa. destruct Fa as [d1 [H1 _]]. apply nth_lt in H1. lia.
  - apply op_named_some in Fb. destruct Fb as [d1 [H1 _]]. apply nth_lt in H1. lia.
  - lia.
Qed.

Lemma renamed_image : forall k sw s g g' o o' d, state sw s g -> world g' -> extends g g' ->
  nth_error (ops g0) o = Some d -> leaf (okind d) = false -> node_image g0 s g o o' -> renamed k s g' o = o'.
Proof.
  intros k sw s g g' o o' d Hst Hw' He Hd Hl [d1 [Hd1 H]]. assert (d1 = d) by congruence. subst. rewrite Hl in H.
  destruct H as [_ [d' [Hd' En]]]. apply He in Hd'. unfold renamed. rewrite Hd.
  destruct (op_named g' (s ++ oname d)) as [o2|] eqn:E.
  - apply op_named_some in E. destruct E as [d2 [Hd2 En2]].
    apply (nodup_nth oname _ _ _ _ _ (wf_names _ (w_wf _ Hw')) Hd2 Hd'). congruence.
  - exfalso. eapply op_named_none in E; eauto.
Qed.

Section Ev.
Context {V N : Type}.
Variable sem : nat -> N -> list V -> V.
Variable st : nat -> V.
Variable noise : nat -> N.
Variable k : nat.

Lemma ev_later : forall g g' t v, world g -> extends g g' -> t < length (ops g) ->
  (ev sem st noise g' t v <-> ev sem st noise g t v).
Proof.
  intros g g' t v Hw He Ht. split; [apply ev_extends_inv; auto; apply Hw|apply ev_extends; auto].
Qed.

(** Copies in [g], looked at in a later graph [g']. *)
Lemma ev_node : forall sw s g g' o o' v, state sw s g -> world g' -> extends g g' -> node_image g0 s g o o' ->
  (ev sem st noise g' o' v <-> sev_node sem st noise (fun i => noise (renamed k s g' i)) g sw o v).
Proof.
  intros sw s g g' o o' v Hst Hw' He Hni. pose proof (state_inv _ _ _ Hst) as HI.
  pose proof Hst as [Hf [He0 Hw Ha Hnv] Hs Hfa H6].
  rewrite (ev_later g g' o' v (s_world _ _ _ Hst) He (node_image_lt g0 g sw s He0 [] g o o' HI Hni)).
  assert (Hnz : forall a a' d, nth_error (ops g0) a = Some d -> leaf (okind d) = false -> node_image g0 s g a a' ->
    noise (renamed k s g' a) = noise a').
  { intros a a' d Hd Hl Hna. f_equal. eapply renamed_image; eauto. }
  exact (eval_noise g0 g sw s h (fun i => i) He0 Hw Hs Hac g HI V N sem st noise _ Hnz (S (h o)) o o' v (le_n _) Hni).
Qed.

Lemma ev_image : forall sw s g g' i i' v, state sw s g -> world g' -> extends g g' -> i < n0 -> image g0 g sw s g i i' ->
  (ev sem st noise g' i' v <-> sev_tensor sem st noise (fun i => noise (renamed k s g' i)) g sw i v).
Proof.
  intros sw s g g' i i' v Hst Hw' He Hi Him. unfold image in Him. pose proof Hst as [Hf [He0 Hw Ha Hnv] Hs Hfa H6].
  destruct (replacement g sw i) as [t'|] eqn:Er.
  - subst i'. rewrite (ev_later g g' t' v (s_world _ _ _ Hst) He (repl_lt g0 g sw (fun i => i) He0 Hw Hs _ _ Er)).
    split; intros E; [eapply sev_swap; eauto|]. inversion E as [a b c H1 H2|a b H1 H2]; subst; [|congruence].
    rewrite Er in H1. injection H1 as <-. auto.
  - rewrite (ev_node sw s g g' i i' v Hst Hw' He Him). split; intros E; [now apply sev_noswap|].
    inversion E; subst; [congruence|auto].
Qed.

Lemma evs_image : forall sw s g g' l l', state sw s g -> world g' -> extends g g' -> Forall (fun i => i < n0) l ->
  Forall2 (image g0 g sw s g) l l' -> forall vs,
  (evs sem st noise g' l' vs <-> sevs sem st noise (fun i => noise (renamed k s g' i)) g sw l vs).
Proof.
  intros sw s g g' l l' Hst Hw' He HF Him. induction Him as [|i i' l l' Hi _ IH]; intros vs.
  - split; intros E; inversion E; constructor.
  - inversion HF as [|? ? Hlt HF']; subst. specialize (IH HF'). split; intros E; inversion E; subst; constructor;
      try (eapply (ev_image sw s g g' i i'); eauto; fail); apply IH; auto.
Qed.
End Ev.
End Calls.
