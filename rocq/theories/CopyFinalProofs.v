(** * copy: fuel, histories and counterexamples (proofs). *)
From Coq Require Import String List Arith Bool Lia.
From Verif Require Import Copy CopySpec CopyProofs CopySubstProofs.
Import ListNotations.
Local Open Scope string_scope.

(** ** More fuel does not change a result *)

Lemma copy_list_mono : forall (c c' : graph -> elem -> graph * res elem),
  (forall g x g' r, c g x = (g', r) -> r <> Fuel -> c' g x = (g', r)) ->
  forall l g g' r, copy_list c g l = (g', r) -> r <> Fuel -> copy_list c' g l = (g', r).
Proof.
  intros c c' Hc. induction l as [|x l IH]; intros g g' r H Hr; simpl in *; auto.
  destruct (c g x) as [g1 [y| |]] eqn:E.
  - rewrite (Hc _ _ _ _ E) by discriminate. destruct (copy_list c g1 l) as [g2 [ys| |]] eqn:E2.
    + rewrite (IH _ _ _ E2) by discriminate. auto.
    + rewrite (IH _ _ _ E2) by discriminate. auto.
    + inversion H; subst. congruence.
  - rewrite (Hc _ _ _ _ E) by discriminate. auto.
  - inversion H; subst. congruence.
Qed.
Lemma copy_inputs_mono : forall (c c' : graph -> elem -> graph * res elem),
  (forall g x g' r, c g x = (g', r) -> r <> Fuel -> c' g x = (g', r)) ->
  forall o l g g' r, copy_inputs c g o l = (g', r) -> r <> Fuel -> copy_inputs c' g o l = (g', r).
Proof.
  intros c c' Hc o. induction l as [|x l IH]; intros g g' r H Hr; simpl in *; auto.
  destruct (c g (XT x)) as [g1 [y| |]] eqn:E.
  - rewrite (Hc _ _ _ _ E) by discriminate. destruct (as_tensor g1 y); auto.
  - rewrite (Hc _ _ _ _ E) by discriminate. auto.
  - inversion H; subst. congruence.
Qed.

Lemma copy_mono1 : forall f pick sw scope ri cq cps g x g' r,
  copy f pick sw scope ri cq cps g x = (g', r) -> r <> Fuel -> copy (S f) pick sw scope ri cq cps g x = (g', r).
Proof.
  induction f as [|f IH]; intros pick sw scope ri cq cps g x g' r H Hr.
  { simpl in H. inversion H; subst. congruence. }
  remember (S f) as f1. rewrite Heqf1 in H. cbn [copy] in H. cbn [copy].
  assert (HC : forall ri cq cps g x g' r, copy f pick sw scope ri cq cps g x = (g', r) -> r <> Fuel ->
    copy f1 pick sw scope ri cq cps g x = (g', r)) by (subst f1; auto).
  clear IH Heqf1.
  destruct (front g sw ri cq x) as [y|y]; auto.
  destruct (find_copy g scope y); auto.
  assert (Hp : forall g1 r1, (if cps && negb (is_op y)
         then copy_list (copy f pick sw scope true cq true) g (parents pick g y) else (g, Ok [])) = (g1, r1) -> r1 <> Fuel ->
       (if cps && negb (is_op y)
         then copy_list (copy f1 pick sw scope true cq true) g (parents pick g y) else (g, Ok [])) = (g1, r1)).
  { intros g1 r1 E Hr1. destruct (cps && negb (is_op y)); auto. eapply copy_list_mono; [|exact E|auto]. intros; auto. }
  destruct (if cps && negb (is_op y) then copy_list (copy f pick sw scope true cq true) g (parents pick g y) else (g, Ok []))
    as [g1 r1] eqn:E1.
  destruct r1 as [ps| |]; [|rewrite (Hp _ _ eq_refl) by discriminate; auto|inversion H; subst; congruence].
  rewrite (Hp _ _ eq_refl) by discriminate. clear Hp E1.
  destruct y as [q|t|t|o]; auto.
  - destruct (nth_error (rvs g1) q) as [d|]; auto.
    destruct (copy_list (copy f pick sw scope true cq false) g1 (rargs d)) as [g2 [args| |]] eqn:E2.
    + erewrite copy_list_mono; [| |exact E2|discriminate]; auto.
    + erewrite copy_list_mono; [| |exact E2|discriminate]; auto.
    + inversion H; subst. congruence.
  - destruct (nth_error (ops g1) t) as [d|]; auto.
    destruct (copy f pick sw scope true cq false g1 (XOp t)) as [g2 [y| |]] eqn:E2.
    + rewrite (HC _ _ _ _ _ _ _ E2) by discriminate. auto.
    + rewrite (HC _ _ _ _ _ _ _ E2) by discriminate. auto.
    + destruct (okind d); auto; inversion H; subst; congruence.
  - destruct (nth_error (ops g1) o) as [d|]; auto.
    assert (Hk : forall k, (let n := length (ops g1) in
        let g2 := add_op g1 {| oname := scope ++ oname d; okind := k; oins := [] |} in
        match copy_inputs (copy f pick sw scope true cq false) g2 n (oins d) with
        | (g3, Ok _) => (g3, Ok (XOp n))
        | (g3, Exc) => (g3, Exc)
        | (g3, Fuel) => (g3, Fuel)
        end) = (g', r) ->
      (let n := length (ops g1) in
        let g2 := add_op g1 {| oname := scope ++ oname d; okind := k; oins := [] |} in
        match copy_inputs (copy f1 pick sw scope true cq false) g2 n (oins d) with
        | (g3, Ok _) => (g3, Ok (XOp n))
        | (g3, Exc) => (g3, Exc)
        | (g3, Fuel) => (g3, Fuel)
        end) = (g', r)).
    { clear H. intros k H. cbv zeta in *.
      destruct (copy_inputs (copy f pick sw scope true cq false) _ _ _) as [g3 [u| |]] eqn:E3.
      - erewrite copy_inputs_mono; [| |exact E3|discriminate]; auto.
      - erewrite copy_inputs_mono; [| |exact E3|discriminate]; auto.
      - inversion H; subst. congruence. }
    destruct (okind d); auto.
Qed.

Lemma copy_mono : forall k f pick sw scope ri cq cps g x g' r,
  copy f pick sw scope ri cq cps g x = (g', r) -> r <> Fuel -> copy (k + f) pick sw scope ri cq cps g x = (g', r).
Proof. induction k; intros; simpl plus; auto. apply copy_mono1; auto. Qed.

Lemma ed_copy_at_mono : forall f f' pick sw scope ri cq cps g x g' r, f <= f' ->
  ed_copy_at f pick sw scope ri cq cps g x = (g', r) -> r <> Fuel -> ed_copy_at f' pick sw scope ri cq cps g x = (g', r).
Proof.
  intros f f' pick sw scope ri cq cps g x g' r Hf H Hr. unfold ed_copy_at in *. destruct (with_slash scope); auto.
  replace f' with ((f' - f) + f) by lia. now apply copy_mono.
Qed.
Lemma ed_copy_mono : forall f f' pick sw scope cq cps g x g' r, f <= f' ->
  ed_copy f pick sw scope cq cps g x = (g', r) -> r <> Fuel -> ed_copy f' pick sw scope cq cps g x = (g', r).
Proof. intros f f' pick sw scope cq cps. exact (ed_copy_at_mono f f' pick sw scope false cq cps). Qed.

(** ** The substituted expression has a value, and does not depend on what is
    added to the graph *)

Lemma sev_total : forall g h sw, wf g -> acyclic g h -> swap_ok g sw ->
  forall V N (sem : nat -> N -> list V -> V) st noise noise',
  (forall t, t < length (ops g) -> exists v, ev sem st noise g t v) /\
  (forall t, t < length (ops g) -> exists v, sev_node sem st noise noise' g sw t v).
Proof.
  intros g h sw Hwf Hac Hsw V N sem st noise noise'.
  assert (H1 : forall n t, h t < n -> t < length (ops g) -> exists v, ev sem st noise g t v).
  { induction n as [|n IH]; intros t Hn Ht; [lia|].
    destruct (nth_error (ops g) t) as [d|] eqn:Ed; [|apply nth_error_None in Ed; lia].
    destruct (okind d) as [| | |ty] eqn:Ek; try (eexists; eapply ev_leaf; [exact Ed|now rewrite Ek]).
    pose proof (Hac _ _ Ed) as Hlow. pose proof (wf_closed _ Hwf _ _ Ed) as Hc.
    assert (Hl : exists vs, evs sem st noise g (oins d) vs).
    { clear Ed Ek. induction (oins d) as [|i l IHl]; [exists []; constructor|].
      inversion Hlow; subst. inversion Hc; subst. destruct (IHl H2 H4) as [vs Hvs].
      destruct (IH i) as [v Hv]; [lia|auto|]. exists (v :: vs). constructor; auto. }
    destruct Hl as [vs Hvs]. eexists. eapply ev_op; eauto. }
  assert (H1' : forall t, t < length (ops g) -> exists v, ev sem st noise g t v).
  { intros t Ht. apply (H1 (S (h t))); auto. }
  split; auto.
  assert (Hrl : forall t t', replacement g sw t = Some t' -> t' < length (ops g)).
  { intros t t' H. unfold replacement in H. destruct (find _ sw) as [[k y]|] eqn:E; [|discriminate].
    apply find_some in E. destruct E as [Hin _]. destruct Hsw as [HF _]. rewrite Forall_forall in HF.
    destruct (HF _ Hin) as [_ [Hv _]]. inversion H; subst. simpl in *. apply valid_tensor; auto.
    intros r d Hr. pose proof (wf_rvs _ Hwf) as HR. rewrite Forall_forall in HR.
    destruct (HR d (nth_error_In _ _ Hr)) as [_ Ho]. eapply nth_lt; eauto. }
  assert (H2 : forall n t, h t < n -> t < length (ops g) -> exists v, sev_node sem st noise noise' g sw t v).
  { induction n as [|n IH]; intros t Hn Ht; [lia|].
    destruct (nth_error (ops g) t) as [d|] eqn:Ed; [|apply nth_error_None in Ed; lia].
    destruct (okind d) as [| | |ty] eqn:Ek; try (eexists; eapply sev_leaf; [exact Ed|now rewrite Ek]).
    pose proof (Hac _ _ Ed) as Hlow. pose proof (wf_closed _ Hwf _ _ Ed) as Hc.
    assert (Hl : exists vs, sevs sem st noise noise' g sw (oins d) vs).
    { clear Ed Ek. induction (oins d) as [|i l IHl]; [exists []; constructor|].
      inversion Hlow; subst. inversion Hc; subst. destruct (IHl H3 H5) as [vs Hvs].
      destruct (replacement g sw i) as [i'|] eqn:Er.
      - destruct (H1' i') as [v Hv]; [eapply Hrl; eauto|]. exists (v :: vs). constructor; auto. eapply sev_swap; eauto.
      - destruct (IH i) as [v Hv]; [lia|auto|]. exists (v :: vs). constructor; auto. eapply sev_noswap; eauto. }
    destruct Hl as [vs Hvs]. eexists. eapply sev_op; eauto. }
  intros t Ht. apply (H2 (S (h t))); auto.
Qed.

Lemma replacement_ext : forall g g1 sw t, extends g g1 -> swap_ok g sw -> replacement g1 sw t = replacement g sw t.
Proof.
  intros g g1 sw t He [HF _]. unfold replacement. induction HF as [|[k y] l [Hk [Hy _]] _ IH]; auto. simpl in *.
  rewrite (tensor_extends g g1 k He Hk). destruct (Nat.eqb (tensor_of g k) t); auto. simpl. f_equal. now apply tensor_extends.
Qed.

Lemma sev_frame : forall g h g1 sw, wf g -> acyclic g h -> swap_ok g sw -> extends g g1 ->
  forall V N (sem : nat -> N -> list V -> V) st noise noise' n t v, h t < n -> t < length (ops g) ->
  (sev_node sem st noise noise' g1 sw t v <-> sev_node sem st noise noise' g sw t v).
Proof.
  intros g h g1 sw Hwf Hac Hsw He V N sem st noise noise'. induction n as [|n IH]; intros t v Hn Ht; [lia|].
  destruct (nth_error (ops g) t) as [d|] eqn:Ed; [|apply nth_error_None in Ed; lia].
  pose proof (proj1 He _ _ Ed) as Ed1. pose proof (Hac _ _ Ed) as Hlow. pose proof (wf_closed _ Hwf _ _ Ed) as Hc.
  assert (Hrl : forall t t', replacement g sw t = Some t' -> t' < length (ops g)).
  { intros t0 t' H. unfold replacement in H. destruct (find _ sw) as [[k y]|] eqn:E; [|discriminate].
    apply find_some in E. destruct E as [Hin _]. destruct Hsw as [HF _]. rewrite Forall_forall in HF.
    destruct (HF _ Hin) as [_ [Hv _]]. inversion H; subst. simpl in *. apply valid_tensor; auto.
    intros r d0 Hr. pose proof (wf_rvs _ Hwf) as HR. rewrite Forall_forall in HR.
    destruct (HR d0 (nth_error_In _ _ Hr)) as [_ Ho]. eapply nth_lt; eauto. }
  assert (Hl : forall vs, sevs sem st noise noise' g1 sw (oins d) vs <-> sevs sem st noise noise' g sw (oins d) vs).
  { clear Ed Ed1. induction (oins d) as [|i l IHl]; intros vs; [split; intros E; inversion E; constructor|].
    inversion Hlow; subst. inversion Hc; subst. specialize (IHl H2 H4).
    assert (Hone : forall w, sev_tensor sem st noise noise' g1 sw i w <-> sev_tensor sem st noise noise' g sw i w).
    { intros w. split; intros E; inversion E as [t0 t' v0 E1 E2|t0 v0 E1 E2]; subst.
      - rewrite (replacement_ext g g1) in E1 by auto. eapply sev_swap; eauto.
        eapply ev_extends_inv; eauto. apply Hwf.
      - rewrite (replacement_ext g g1) in E1 by auto. apply sev_noswap; auto. apply IH; auto. lia.
      - eapply sev_swap; [rewrite (replacement_ext g g1) by auto; eauto|]. eapply ev_extends; eauto.
      - apply sev_noswap; [rewrite (replacement_ext g g1) by auto; auto|]. apply IH; auto. lia. }
    split; intros E; inversion E; subst; constructor; try (apply Hone; auto); apply IHl; auto. }
  split; intros E; inversion E as [o1 d1 E1 E2|o1 d1 ty vs E1 E2 E3]; subst o1.
  - assert (d1 = d) by congruence. subst. eapply sev_leaf; eauto.
  - assert (d1 = d) by congruence. subst. eapply sev_op; eauto. apply Hl. auto.
  - assert (d1 = d) by congruence. subst. eapply sev_leaf; eauto.
  - assert (d1 = d) by congruence. subst. eapply sev_op; eauto. apply Hl. auto.
Qed.

(** ** C10 *)

Lemma valid_lt : forall g x, wf g -> valid g x -> tensor_of g x < length (ops g).
Proof.
  intros g x Hwf Hv. apply valid_tensor; auto. intros r d Hr. pose proof (wf_rvs _ Hwf) as HR. rewrite Forall_forall in HR.
  destruct (HR d (nth_error_In _ _ Hr)) as [_ Ho]. eapply nth_lt; eauto.
Qed.

Lemma new_values_refl : forall g, new_values g g.
Proof. intros g r d Hr Hd. apply nth_lt in Hd. lia. Qed.

Lemma run_copy : forall g h pick sw scope s x, wf g -> acyclic g h -> good_call g sw scope s x ->
  exists N g' y, (forall fuel, N <= fuel -> ed_copy fuel pick sw scope false true g x = (g', Ok y)) /\
    Inv g g sw s [] g' /\ valid g' y /\ is_op y = is_op x /\ node_image g s g' (tensor_of g x) (tensor_of g' y).
Proof.
  intros g h pick sw scope s x Hwf Hac [H1 H2 H3 H4 H5 H6].
  destruct (top g g sw s h pick Hwf H4 (extends_refl g) Hwf H1 H2 Hac (2 * h (tensor_of g x) + 3) x
    (new_values_refl g) H4 H5 H6 (le_n _)) as [g' [y [E Hrest]]].
  exists (2 * h (tensor_of g x) + 3), g', y. split; auto. intros fuel Hf.
  eapply ed_copy_mono; [exact Hf| |discriminate]. unfold ed_copy, ed_copy_at. now rewrite H3.
Qed.

Lemma copy_substitutes : forall g h pick sw scope s x, wf g -> acyclic g h -> good_call g sw scope s x ->
  exists N g' y rho, (forall fuel, N <= fuel -> ed_copy fuel pick sw scope false true g x = (g', Ok y)) /\
    (forall o, length (ops g) <= rho o) /\
    (forall a b, a < length (ops g) -> b < length (ops g) -> rho a = rho b -> a = b) /\
    forall V N' (sem : nat -> N' -> list V -> V) st noise,
      (exists v, ev sem st noise g' (tensor_of g' y) v) /\
      forall v, ev sem st noise g' (tensor_of g' y) v <->
                sev_node sem st noise (fun o => noise (rho o)) g sw (tensor_of g x) v.
Proof.
  intros g h pick sw scope s x Hwf Hac Hg.
  destruct (run_copy g h pick sw scope s x Hwf Hac Hg) as [N [g' [y [E [HI [Hv [_ Hni]]]]]]].
  destruct Hg as [H1 H2 H3 H4 H5 H6]. pose proof (extends_refl g) as He0.
  exists N, g', y, (copy_of g s g'). split; auto. split; [intros o; eapply copy_of_new; eauto|].
  split; [intros a b Ha Hb; eapply copy_of_inj; eauto|].
  intros V N' sem st noise.
  assert (Hiff : forall v, ev sem st noise g' (tensor_of g' y) v <->
                sev_node sem st noise (fun o => noise (copy_of g s g' o)) g sw (tensor_of g x) v).
  { intros v. eapply eval; eauto. }
  split; auto.
  destruct (proj2 (sev_total g h sw Hwf Hac H1 V N' sem st noise (fun o => noise (copy_of g s g' o))) (tensor_of g x))
    as [v Hv']; [now apply valid_lt|].
  exists v. apply Hiff. auto.
Qed.

(** ** Histories *)

Lemma good_call_wf : forall g h pick sw scope s x fuel g' y, wf g -> acyclic g h -> good_call g sw scope s x ->
  ed_copy fuel pick sw scope false true g x = (g', Ok y) -> wf g' /\ (exists h', acyclic g' h') /\ extends g g'.
Proof.
  intros g h pick sw scope s x fuel g' y Hwf Hac Hg E.
  destruct (run_copy g h pick sw scope s x Hwf Hac Hg) as [N [g1 [y1 [E1 [HI _]]]]].
  assert (E2 : ed_copy (N + fuel) pick sw scope false true g x = (g', Ok y)) by (apply (ed_copy_mono fuel (N + fuel)); [lia|exact E|discriminate]).
  rewrite (E1 (N + fuel)) in E2 by lia. inversion E2; subst. destruct Hg as [H1 H2 H3 H4 H5 H6]. pose proof (extends_refl g) as He0.
  split; [eapply inv_wf; eauto|]. split; [eapply inv_acyclic; eauto|]. eapply i_ext; eauto.
Qed.

Lemma calls_wf : forall g g1, calls g g1 -> forall h, wf g -> acyclic g h ->
  wf g1 /\ (exists h', acyclic g1 h') /\ extends g g1.
Proof.
  intros g g1 H. induction H as [g|g fuel pick sw scope s x g1 y g2 Hg E _ IH]; intros h Hwf Hac.
  - split; auto. split; [eauto|apply extends_refl].
  - destruct (good_call_wf _ _ _ _ _ _ _ _ _ _ Hwf Hac Hg E) as [Hwf1 [[h1 Hac1] He1]].
    destruct (IH h1 Hwf1 Hac1) as [Hwf2 [Hac2 He2]]. split; auto. split; auto. eapply extends_trans; eauto.
Qed.

Lemma swap_ok_extends : forall g g1 sw, extends g g1 -> swap_ok g sw -> swap_ok g1 sw.
Proof.
  intros g g1 sw He [HF Hn]. split.
  - eapply Forall_impl; [|exact HF]. intros [k y] [H1 [H2 H3]]. split; [eapply valid_extends; eauto|].
    split; [eapply valid_extends; eauto|auto].
  - rewrite (map_ext_in _ (fun kv => tensor_of g (fst kv))); auto. intros [k y] Hin. rewrite Forall_forall in HF.
    apply tensor_extends; auto. destruct (HF _ Hin) as [Hv _]. auto.
Qed.

Lemma plain_extends : forall g g1 x, extends g g1 -> valid g x -> plain g x -> plain g1 x.
Proof.
  intros g g1 x He Hv Hp o d -> Hd. simpl in Hv. destruct (nth_error (ops g) o) as [d0|] eqn:E; [|apply nth_error_None in E; lia].
  pose proof (proj1 He _ _ E). assert (d0 = d) by congruence. subst. eapply Hp; eauto.
Qed.

(** Copied random variables have new sample operations. *)
Lemma calls_new_values : forall g g1, calls g g1 -> forall h, wf g -> acyclic g h ->
  forall r d, length (rvs g) <= r -> nth_error (rvs g1) r = Some d -> length (ops g) <= rvalue d.
Proof.
  intros g g1 H. induction H as [g|g fuel pick sw scope s x g1 y g2 Hg E Hcs IH]; intros h Hwf Hac r d Hr Hd.
  - apply nth_lt in Hd. lia.
  - destruct (good_call_wf _ _ _ _ _ _ _ _ _ _ Hwf Hac Hg E) as [Hwf1 [[h1 Hac1] He1]].
    pose proof (named_len _ _ (extends_named _ _ He1)) as Hle.
    destruct (Nat.lt_ge_cases r (length (rvs g1))) as [Hlt|Hge].
    + destruct (run_copy g h pick sw scope s x Hwf Hac Hg) as [N [g1' [y1 [E1 [HI _]]]]].
      assert (E2 : ed_copy (N + fuel) pick sw scope false true g x = (g1, Ok y)) by (apply (ed_copy_mono fuel (N + fuel)); [lia|exact E|discriminate]).
      rewrite (E1 (N + fuel)) in E2 by lia. inversion E2; subst.
      destruct (nth_error (rvs g1) r) as [d1|] eqn:Ed1; [|apply nth_error_None in Ed1; lia].
      destruct (i_rv _ _ _ _ _ _ HI _ _ Hr Ed1) as [Hv _].
      assert (d1 = d); [|subst; auto].
      assert (He2 : extends g1 g2).
      { destruct (calls_wf _ _ Hcs h1 Hwf1 Hac1) as [_ [_ ?]]. auto. }
      pose proof (proj2 He2 _ _ Ed1). congruence.
    + specialize (IH h1 Hwf1 Hac1 r d Hge Hd). lia.
Qed.

Lemma direct_extends : forall g h g1 sw, wf g -> acyclic g h -> calls g g1 -> swap_ok g sw -> direct_keys g sw -> direct_keys g1 sw.
Proof.
  intros g h g1 sw Hwf Hac Hc [HF _] Hd t y Hin. destruct (Hd t y Hin) as [H1 H2].
  destruct (calls_wf _ _ Hc h Hwf Hac) as [_ [_ He]].
  rewrite Forall_forall in HF. destruct (HF _ Hin) as [Hv _]. simpl in Hv. split.
  - unfold is_var in *. destruct (nth_error (ops g) t) as [d|] eqn:Ed; [|apply nth_error_None in Ed; lia].
    now rewrite (proj1 He _ _ Ed).
  - intros d Hin1. apply In_nth_error in Hin1. destruct Hin1 as [r Hr]. destruct (Nat.lt_ge_cases r (length (rvs g))).
    + destruct (nth_error (rvs g) r) as [d0|] eqn:Ed; [|apply nth_error_None in Ed; lia].
      pose proof (proj2 He _ _ Ed). assert (d0 = d) by congruence. subst. apply H2. eapply nth_error_In; eauto.
    + pose proof (calls_new_values _ _ Hc h Hwf Hac _ _ H Hr). lia.
Qed.

Lemma copy_after_history : forall g h g1 pick sw scope s x, wf g -> acyclic g h -> calls g g1 ->
  swap_ok g sw -> direct_keys g sw -> valid g x -> plain g x -> with_slash scope = Some s -> fresh_scope g1 s ->
  exists N g' y rho, (forall fuel, N <= fuel -> ed_copy fuel pick sw scope false true g1 x = (g', Ok y)) /\
    (forall o, length (ops g1) <= rho o) /\
    (forall a b, a < length (ops g1) -> b < length (ops g1) -> rho a = rho b -> a = b) /\
    forall g2, extends g' g2 -> forall V N' (sem : nat -> N' -> list V -> V) st noise v,
      ev sem st noise g2 (tensor_of g2 y) v <->
      sev_node sem st noise (fun o => noise (rho o)) g sw (tensor_of g x) v.
Proof.
  intros g h g1 pick sw scope s x Hwf Hac Hc H1 H2 H5 H6 H3 H4.
  destruct (calls_wf _ _ Hc h Hwf Hac) as [Hwf1 [[h1 Hac1] He1]].
  assert (Hg : good_call g1 sw scope s x).
  { constructor; auto.
    - exact (swap_ok_extends _ _ _ He1 H1).
    - exact (direct_extends _ _ _ _ Hwf Hac Hc H1 H2).
    - exact (valid_extends _ _ _ He1 H5).
    - exact (plain_extends _ _ _ He1 H5 H6). }
  destruct (run_copy g1 h1 pick sw scope s x Hwf1 Hac1 Hg) as [N [g' [y [E [HI [Hv [_ Hni]]]]]]].
  pose proof (extends_refl g1) as He0.
  exists N, g', y, (copy_of g1 s g'). split; auto.
  pose proof (gc_swap _ _ _ _ _ Hg) as G1. pose proof (gc_keys _ _ _ _ _ Hg) as G2.
  split; [intros o; eapply copy_of_new; eauto|].
  split; [intros a b Ha Hb; eapply copy_of_inj; eauto|].
  intros g2 He2 V N' sem st noise v.
  assert (Hwf' : wf g') by (eapply inv_wf; eauto).
  rewrite (tensor_extends g' g2 y He2 Hv).
  assert (Hev : ev sem st noise g2 (tensor_of g' y) v <-> ev sem st noise g' (tensor_of g' y) v).
  { split; [apply ev_extends_inv; auto; [apply Hwf'|now apply valid_lt]|apply ev_extends; auto]. }
  rewrite Hev. rewrite <- (sev_frame g h g1 sw Hwf Hac H1 He1 V N' sem st noise _ (S (h (tensor_of g x)))); auto;
    [|now apply valid_lt].
  rewrite <- (tensor_extends g g1 x He1 H5). eapply eval; eauto.
Qed.

(** ** C12 *)

Lemma copy_shares : forall g h pick sw scope s x, wf g -> acyclic g h -> good_call g sw scope s x ->
  exists N g' y, (forall fuel, N <= fuel -> ed_copy fuel pick sw scope false true g x = (g', Ok y)) /\
    (forall o d, length (ops g) <= o -> nth_error (ops g') o = Some d -> leaf (okind d) = false) /\
    (forall d, nth_error (ops g) (tensor_of g x) = Some d ->
       if leaf (okind d) then tensor_of g' y = tensor_of g x else length (ops g) <= tensor_of g' y) /\
    (forall L d, nth_error (ops g') L = Some d -> leaf (okind d) = true ->
       (depends g' (tensor_of g' y) L <-> sdepends g sw (tensor_of g x) L)).
Proof.
  intros g h pick sw scope s x Hwf Hac Hg.
  destruct (run_copy g h pick sw scope s x Hwf Hac Hg) as [N [g' [y [E [HI [Hv [_ Hni]]]]]]].
  destruct Hg as [H1 H2 H3 H4 H5 H6]. pose proof (extends_refl g) as He0.
  exists N, g', y. split; auto. split; [|split].
  - intros o d Ho Hd. destruct (i_new _ _ _ _ _ _ HI _ _ Ho Hd) as [q [dq [Hq Hn]]].
    destruct (i_op _ _ _ _ _ _ HI _ _ _ _ Hd Hq Hn) as [Hl [Hk _]]. congruence.
  - intros d Hd. destruct Hni as [d1 [Hd1 H]]. assert (d1 = d) by congruence. subst.
    destruct (leaf (okind d)); auto. apply H.
  - intros L d HL Hl. eapply deps; eauto.
Qed.

(** ** A program: c, v and p are a constant, a variable and a placeholder;
    z ~ D10(c, v); mul = z * p; y ~ D11(z, mul); q ~ D12(c); c2 a constant *)

Definition demo : graph := mkgraph
  [mkop "c" (KOp 0) []; mkop "v" KVar []; mkop "p" KPlace []; mkop "z/sample" (KOp 10) [0; 1];
   mkop "mul" (KOp 1) [3; 2]; mkop "y/sample" (KOp 11) [3; 4]; mkop "q/sample" (KOp 12) [0]; mkop "c2" (KOp 2) []]
  [mkrv "z/" 10 [XT 0; XVar 1] 3; mkrv "y/" 11 [XRV 0; XT 4] 5; mkrv "q/" 12 [XT 0] 6].

Lemma demo_wf : wf demo.
Proof.
  constructor.
  - intros o d H. do 8 (destruct o as [|o]; [inversion H; subst; simpl; repeat constructor; fail|]).
    destruct o; discriminate.
  - simpl. repeat constructor; simpl; intuition discriminate.
  - simpl. repeat constructor; simpl; intuition discriminate.
  - simpl. repeat constructor; simpl; intuition discriminate.
  - repeat constructor; simpl; eauto.
Qed.
Lemma demo_acyclic : acyclic demo (fun o => o).
Proof.
  intros o d H. do 8 (destruct o as [|o]; [inversion H; subst; simpl; repeat constructor; fail|]).
  destruct o; discriminate.
Qed.
Lemma demo_fresh : forall s, s = "copied/" \/ s = "other/" -> fresh_scope demo s.
Proof.
  intros s Hs. split; intros d n H E; simpl in H; destruct Hs; subst s;
    repeat (destruct H as [<-|H]; [simpl in E; discriminate|]); destruct H.
Qed.

Lemma demo_swap : forall k y, (k = XRV 0 \/ k = XT 3) -> (y = XRV 2 \/ y = XT 7) -> swap_ok demo [(k, y)].
Proof.
  intros k y Hk Hy. split.
  - constructor; [|constructor]. destruct Hk as [->| ->], Hy as [->| ->]; simpl; repeat split; auto with arith; lia.
  - simpl. repeat constructor. simpl. tauto.
Qed.
Lemma demo_keys : forall y, direct_keys demo [(XRV 0, y)].
Proof. intros y t z [H|[]]. discriminate. Qed.

Lemma demo_good : forall y x, (y = XRV 2 \/ y = XT 7) -> (x = XRV 1 \/ x = XT 4) ->
  good_call demo [(XRV 0, y)] "copied" "copied/" x.
Proof.
  intros y x Hy Hx. constructor; auto.
  - apply demo_swap; auto.
  - apply demo_keys.
  - apply demo_fresh. auto.
  - destruct Hx as [->| ->]; simpl; lia.
  - intros o d ->. destruct Hx; discriminate.
Qed.

Definition first_pick (n : nat) : nat := 0.

(** D10, D12 and c2 yield their name; products and D11 return their first
    operand. *)
Definition demo_sem (ty : nat) (noise : unit) (vs : list string) : string :=
  match ty with 10 => "D10" | 12 => "D12" | 2 => "c2" | 1 | 11 => hd "" vs | _ => "" end.

(** Evaluation of a concrete graph. *)
Fixpoint evalf {V N} (fuel : nat) (sem : nat -> N -> list V -> V) (st : nat -> V) (noise : nat -> N) (g : graph) (o : nat)
  : option V :=
  match fuel with
  | 0 => None
  | S f =>
    match nth_error (ops g) o with
    | None => None
    | Some d =>
      match okind d with
      | KOp ty =>
        match fold_right (fun i acc => match evalf f sem st noise g i, acc with Some v, Some vs => Some (v :: vs) | _, _ => None end)
                (Some []) (oins d) with
        | Some vs => Some (sem ty (noise o) vs)
        | None => None
        end
      | _ => Some (st o)
      end
    end
  end.
Lemma evalf_ev : forall V N fuel (sem : nat -> N -> list V -> V) st noise g o v,
  evalf fuel sem st noise g o = Some v -> ev sem st noise g o v.
Proof.
  intros V N. induction fuel as [|f IH]; intros sem st noise g o v H; simpl in H; [discriminate|].
  destruct (nth_error (ops g) o) as [d|] eqn:Ed; [|discriminate].
  assert (Hl : forall l vs, fold_right (fun i acc => match evalf f sem st noise g i, acc with Some v, Some vs => Some (v :: vs) | _, _ => None end)
                (Some []) l = Some vs -> evs sem st noise g l vs).
  { induction l as [|i l IHl]; simpl; intros vs E; [inversion E; constructor|].
    destruct (evalf f sem st noise g i) as [w|] eqn:Ei; [|discriminate].
    destruct (fold_right _ (Some []) l) as [ws|] eqn:El; [|discriminate]. inversion E; subst. constructor; auto. }
  destruct (okind d) as [| | |ty] eqn:Ek; try (inversion H; subst; eapply ev_leaf; [exact Ed|now rewrite Ek]).
  destruct (fold_right _ (Some []) (oins d)) as [vs|] eqn:El; [|discriminate]. inversion H; subst. eapply ev_op; eauto.
Qed.

Ltac step E := inversion E; clear E; subst; simpl in *;
  repeat match goal with
  | H : replacement _ _ _ = _ |- _ => vm_compute in H
  | H : None = Some _ |- _ => discriminate H
  | H : Some _ = None |- _ => discriminate H
  | H : None = None |- _ => clear H
  | H : Some _ = Some _ |- _ => inversion H; clear H; subst; simpl in *
  | H : KOp _ = KOp _ |- _ => inversion H; clear H; subst; simpl in *
  end; try discriminate.
Ltac look_evs := repeat match goal with
  | H : sevs _ _ _ _ _ _ (_ :: _) _ |- _ => step H
  | H : sevs _ _ _ _ _ _ [] _ |- _ => step H
  | H : sev_tensor _ _ _ _ _ _ _ _ |- _ => step H
  | H : evs _ _ _ _ (_ :: _) _ |- _ => step H
  | H : evs _ _ _ _ [] _ |- _ => step H
  | H : sev_node _ _ _ _ _ _ _ _ |- _ => step H
  | H : ev _ _ _ _ _ _ |- _ => step H
  end.

(** The key is the sample of z: its use through the random variable z is not
    replaced. *)
Lemma tensor_key_refuted : exists g h pick sw scope s x N g' y,
  wf g /\ acyclic g h /\ swap_ok g sw /\ with_slash scope = Some s /\ fresh_scope g s /\ valid g x /\ plain g x /\
  (forall fuel, N <= fuel -> ed_copy fuel pick sw scope false true g x = (g', Ok y)) /\
  exists (sem : nat -> unit -> list string -> string) st noise v, ev sem st noise g' (tensor_of g' y) v /\
    forall noise', ~ sev_node sem st noise noise' g sw (tensor_of g x) v.
Proof.
  exists demo, (fun o => o), first_pick, [(XT 3, XT 7)], "copied", "copied/", (XRV 1), 20.
  destruct (ed_copy 20 first_pick [(XT 3, XT 7)] "copied" false true demo (XRV 1)) as [g' r] eqn:E.
  pose proof E as E0. vm_compute in E0. inversion E0. subst r g'. clear E0.
  eexists. eexists. split; [apply demo_wf|]. split; [apply demo_acyclic|]. split; [apply demo_swap; auto|].
  split; [reflexivity|]. split; [apply demo_fresh; auto|]. split; [simpl; lia|].
  split; [intros o d; discriminate|]. split.
  - intros fuel Hf. eapply ed_copy_mono; [exact Hf|exact E|discriminate].
  - clear E. exists demo_sem, (fun _ => ""), (fun _ => tt), "D10". split.
    + apply (evalf_ev _ _ 9). reflexivity.
    + intros noise' H. look_evs.
Qed.

(** The second call returns the copy that the first has made. *)
Lemma same_scope_refuted : exists g h pick sw1 sw2 scope s x N g1 y1 g2 y2,
  wf g /\ acyclic g h /\ good_call g sw1 scope s x /\ good_call g sw2 scope s x /\
  (forall fuel, N <= fuel -> ed_copy fuel pick sw1 scope false true g x = (g1, Ok y1)) /\
  (forall fuel, N <= fuel -> ed_copy fuel pick sw2 scope false true g1 x = (g2, Ok y2)) /\
  exists (sem : nat -> unit -> list string -> string) st noise v, ev sem st noise g2 (tensor_of g2 y2) v /\
    forall noise', ~ sev_node sem st noise noise' g sw2 (tensor_of g x) v.
Proof.
  exists demo, (fun o => o), first_pick, [(XRV 0, XRV 2)], [(XRV 0, XT 7)], "copied", "copied/", (XT 4), 20.
  destruct (ed_copy 20 first_pick [(XRV 0, XRV 2)] "copied" false true demo (XT 4)) as [g1 r1] eqn:E1.
  pose proof E1 as E0. vm_compute in E0. inversion E0. subst r1.
  destruct (ed_copy 20 first_pick [(XRV 0, XT 7)] "copied" false true g1 (XT 4)) as [g2 r2] eqn:E2.
  pose proof E2 as E3. subst g1. vm_compute in E3. inversion E3. subst r2 g2. clear E3 E0.
  eexists. eexists. eexists. eexists. split; [apply demo_wf|]. split; [apply demo_acyclic|].
  split; [apply demo_good; auto|]. split; [apply demo_good; auto|].
  split; [intros fuel Hf; eapply ed_copy_mono; [exact Hf|exact E1|discriminate]|].
  split; [intros fuel Hf; eapply ed_copy_mono; [exact Hf|exact E2|discriminate]|].
  clear E1 E2. exists demo_sem, (fun _ => ""), (fun _ => tt), "D12". split.
  - apply (evalf_ev _ _ 9). reflexivity.
  - intros noise' H. look_evs.
Qed.

(** The operation of a placeholder is duplicated. *)
Lemma placeholder_op_refuted : exists g h pick sw scope s x N g' o d,
  wf g /\ acyclic g h /\ swap_ok g sw /\ with_slash scope = Some s /\ fresh_scope g s /\ valid g x /\
  (forall fuel, N <= fuel -> ed_copy fuel pick sw scope false true g x = (g', Ok (XOp o))) /\
  length (ops g) <= o /\ nth_error (ops g') o = Some d /\ okind d = KPlace.
Proof.
  exists demo, (fun o => o), first_pick, [], "copied", "copied/", (XOp 2), 20.
  destruct (ed_copy 20 first_pick [] "copied" false true demo (XOp 2)) as [g1 r1] eqn:E1.
  pose proof E1 as E0. vm_compute in E0. inversion E0. subst r1 g1. clear E0.
  do 3 eexists. split; [apply demo_wf|]. split; [apply demo_acyclic|]. split; [split; constructor|].
  split; [reflexivity|]. split; [apply demo_fresh; auto|]. split; [simpl; lia|].
  split; [intros fuel Hf; eapply ed_copy_mono; [exact Hf|exact E1|discriminate]|].
  split; [simpl; lia|]. split; reflexivity.
Qed.
