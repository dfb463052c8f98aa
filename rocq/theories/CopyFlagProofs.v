(** * copy with other flags (proofs). *)
From Coq Require Import String List Arith Bool Lia.
From Verif Require Import Copy CopySpec CopyProofs CopySubstProofs CopyFinalProofs.
Import ListNotations.
Local Open Scope string_scope.

(** ** replace_itself *)

Lemma front_itself : forall g h sw scope s x, wf g -> acyclic g h -> good_call g sw scope s x -> is_op x = false ->
  (exists y, front g sw true false x = inl y /\ valid g y /\
     replacement g sw (tensor_of g x) = Some (tensor_of g y)) \/
  (replacement g sw (tensor_of g x) = None /\ front g sw true false x = front g sw false false x).
Proof.
  intros g h sw scope s x Hwf Hac [H1 H2 H3 H4 H5 H6] Hx.
  assert (Hin : forall y, In (x, y) sw -> valid g y /\ replacement g sw (tensor_of g x) = Some (tensor_of g y)).
  { intros y Hy. split; [apply (sw_in g g sw H1 _ _ Hy)|apply (repl_found g g sw (extends_refl g) H1 _ _ Hy)]. }
  destruct x as [r|t|t|o]; [| | |discriminate].
  - simpl in H5. destruct (lookup sw (XRV r)) as [y|] eqn:El.
    + left. exists y. pose proof (lookup_some _ _ _ El) as Hy. destruct (Hin _ Hy) as [A B].
      split; [unfold front; now rewrite El|auto].
    + right. destruct (nth_error (rvs g) r) as [d|] eqn:Er; [|apply nth_error_None in Er; lia].
      rewrite (rv_tensor g _ _ Er). split; [pose proof (extends_refl g); eapply repl_rv_none; eauto|unfold front; now rewrite El].
  - pose proof (front_tensor g g sw s (extends_refl g) Hwf H1 g t (extends_refl g) H5) as Hf.
    destruct (replacement g sw t) as [t'|] eqn:Er.
    + left. destruct (front g sw true false (XT t)) as [y|y] eqn:Ef; [|destruct Hf as [_ [Hf _]]; congruence].
      exists y. destruct Hf as [A [B C]]. split; auto. split; auto. simpl tensor_of. unfold image in C. rewrite Er in C. congruence.
    + right. split; auto. destruct (front g sw true false (XT t)) as [y|y] eqn:Ef.
      * (* a variable *)
        unfold front in *. destruct (lookup sw (XT t)) as [z|] eqn:El.
        { apply lookup_some in El. apply Hin in El. destruct El as [_ El]. simpl in El. congruence. }
        destruct (rv_key g sw t) as [z|] eqn:Ek.
        { exfalso. unfold rv_key in Ek. destruct (find _ sw) as [[k w]|] eqn:E2; [|discriminate].
          apply find_some in E2. destruct E2 as [Hk E2]. simpl in E2. destruct k as [q|k|k|k]; try discriminate.
          pose proof (repl_found g g sw (extends_refl g) H1 _ _ Hk) as Hrep. simpl in Hrep. unfold value_of in E2.
          destruct (nth_error (rvs g) q) as [dq|]; [|discriminate]. simpl in E2. apply Nat.eqb_eq in E2. congruence. }
        destruct (is_var g t) eqn:Ev; auto. destruct (lookup sw (XVar t)) as [z|] eqn:El2; auto.
        exfalso. apply lookup_some in El2. apply (repl_found g g sw (extends_refl g) H1) in El2. simpl in El2. congruence.
      * destruct Hf as [-> [_ Hv]]. unfold front. now rewrite Hv.
  - destruct H5 as [d [Hd Hk]]. assert (Ev : is_var g t = true) by (unfold is_var; now rewrite Hd, Hk).
    destruct (lookup sw (XVar t)) as [y|] eqn:El.
    + left. exists y. pose proof (lookup_some _ _ _ El) as Hy. destruct (Hin _ Hy) as [A B].
      split; [unfold front; now rewrite El|auto].
    + right. split; [|unfold front; cbn iota; rewrite El; cbn iota; rewrite Ev, El; reflexivity].
      destruct (replacement g sw (tensor_of g (XVar t))) as [t'|] eqn:E; auto. exfalso. simpl in E.
      destruct (repl_some g g sw (extends_refl g) H1 _ _ E) as [k [y [Hy [Hkt _]]]]. destruct (sw_in g g sw H1 _ _ Hy) as [Hvk [_ [Hok _]]].
      destruct k as [q|u|u|u]; simpl in *; subst; try discriminate.
      * destruct (nth_error (rvs g) q) as [dq|] eqn:Eq; [|apply nth_error_None in Eq; lia].
        destruct (rv_ok0 g Hwf _ _ Eq) as [_ Ho']. rewrite Hd in Ho'. injection Ho' as ->. discriminate.
      * destruct (H2 _ _ Hy) as [H _]. congruence.
      * eapply lookup_none; eauto.
Qed.

Lemma copy_front : forall f pick sw s cps g x, front g sw true false x = front g sw false false x ->
  copy f pick sw s true false cps g x = copy f pick sw s false false cps g x.
Proof. intros [|f] pick sw s cps g x H; auto. cbn [copy]. now rewrite H. Qed.

Lemma copy_itself : forall g h pick sw scope s x, wf g -> acyclic g h -> good_call g sw scope s x -> is_op x = false ->
  exists N g' y rho, (forall fuel, N <= fuel -> ed_copy_at fuel pick sw scope true false true g x = (g', Ok y)) /\
    (forall o, length (ops g) <= rho o) /\
    (forall a b, a < length (ops g) -> b < length (ops g) -> rho a = rho b -> a = b) /\
    forall V N' (sem : nat -> N' -> list V -> V) st noise,
      (exists v, ev sem st noise g' (tensor_of g' y) v) /\
      forall v, ev sem st noise g' (tensor_of g' y) v <->
                sev_tensor sem st noise (fun o => noise (rho o)) g sw (tensor_of g x) v.
Proof.
  intros g h pick sw scope s x Hwf Hac Hg Hx. pose proof (gc_scope _ _ _ _ _ Hg) as Hs.
  destruct (front_itself g h sw scope s x Hwf Hac Hg Hx) as [[y [Hf [Hv Hr]]]|[Hr Hf]].
  - exists 1, g, y, (fun o => length (ops g) + o). split; [|split; [intros; lia|split; [intros; lia|]]].
    + intros [|fuel] Hfu; [lia|]. unfold ed_copy_at. rewrite Hs. cbn [copy]. now rewrite Hf.
    + intros V N' sem st noise. split.
      * destruct (sev_total g h sw Hwf Hac (gc_swap _ _ _ _ _ Hg) V N' sem st noise noise) as [H _].
        apply H. now apply valid_lt.
      * intros v. split; intros E; [eapply sev_swap; eauto|].
        inversion E as [t t' v0 E1 E2|t v0 E1 E2]; subst; [|congruence]. rewrite Hr in E1. injection E1 as <-. auto.
  - destruct (copy_substitutes g h pick sw scope s x Hwf Hac Hg) as [N [g' [y [rho [E [Hn [Hi Hval]]]]]]].
    exists N, g', y, rho. split; [|split; [auto|split; [auto|]]].
    + intros fuel Hfu. specialize (E fuel Hfu). unfold ed_copy, ed_copy_at in *. rewrite Hs in *.
      now rewrite (copy_front fuel pick sw s true g x Hf).
    + intros V N' sem st noise. destruct (Hval V N' sem st noise) as [Hex Hiff]. split; auto.
      intros v. rewrite Hiff. split; intros E'; [now apply sev_noswap|]. inversion E'; subst; [congruence|auto].
Qed.

(** ** copy_parent_rvs=False: tensors *)

Definition is_rv (x : elem) : bool := match x with XRV _ => true | _ => false end.

Lemma fresh_op : forall g s n, fresh_scope g s -> op_named g (s ++ n) = None.
Proof.
  intros g s n [Hf _]. destruct (op_named g (s ++ n)) as [o|] eqn:E; auto. exfalso.
  apply op_named_some in E. destruct E as [d' [Hd' En]].
  eapply Hf; [eapply nth_error_In; eauto|eauto].
Qed.

Lemma top_tensor : forall g h pick sw s f x, wf g -> acyclic g h -> swap_ok g sw ->
  fresh_scope g s -> valid g x -> plain g x -> is_rv x = false -> 2 * h (tensor_of g x) + 3 <= f ->
  exists g' y, copy f pick sw s false false false g x = (g', Ok y) /\ Inv g g sw s [] g' /\ valid g' y /\
    node_image g s g' (tensor_of g x) (tensor_of g' y).
Proof.
  intros g h pick sw s f x Hwf Hac H1 H4 Hv Hp Hx Hf. destruct f as [|f]; [lia|].
  pose proof (inv_start g g sw s Hwf (new_values_refl g) H4) as HI.
  destruct x as [r|t|t|o]; [discriminate| | |].
  - cbn [tensor_of] in *. simpl in Hv. destruct (nth_error (ops g) t) as [d|] eqn:Ed; [|apply nth_error_None in Ed; lia].
    destruct (is_var g t) eqn:Ev.
    { exists g, (XVar t). split; [cbn [copy]; unfold front; rewrite Ev; reflexivity|].
      unfold is_var in Ev. rewrite Ed in Ev. destruct (okind d) eqn:Ek; try discriminate.
      split; auto. split; [simpl; eauto|]. eapply node_image_leaf; eauto. now rewrite Ek. }
    assert (Hcopy : forall res, match okind d with
              | KPlace => (g, Ok (XT t))
              | _ => match copy f pick sw s true false false g (XOp t) with
                     | (g2, Ok (XOp o)) => (g2, Ok (XT o))
                     | (g2, Ok _) => (g2, Exc)
                     | (g2, r) => (g2, r)
                     end
              end = res -> copy (S f) pick sw s false false false g (XT t) = res).
    { intros res Hres. cbn [copy]. unfold front, find_copy. rewrite Ev, Ed, (fresh_op g s _ H4).
      cbn [option_map negb is_op andb]. rewrite Ed. exact Hres. }
    destruct (okind d) as [| | |ty] eqn:Ek.
    + exists g, (XT t). split; [apply Hcopy; reflexivity|]. split; auto.
      split; [simpl; eapply nth_lt; eauto|]. eapply node_image_leaf; eauto. now rewrite Ek.
    + destruct (proj2 (B g g sw s h pick Hwf H4 (extends_refl g) Hwf H1 Hac f) [] g t d HI Ed) as [g' [o' [E [[HI' _] [_ Hni]]]]]; try congruence; try lia.
      exists g', (XT o'). split; [apply Hcopy; now rewrite E|]. split; auto.
      split; [simpl; eapply node_image_lt; [apply extends_refl|eassumption|eassumption]|]. auto.
    + unfold is_var in Ev. rewrite Ed, Ek in Ev. discriminate.
    + destruct (proj2 (B g g sw s h pick Hwf H4 (extends_refl g) Hwf H1 Hac f) [] g t d HI Ed) as [g' [o' [E [[HI' _] [_ Hni]]]]]; try congruence; try lia.
      exists g', (XT o'). split; [apply Hcopy; now rewrite E|]. split; auto.
      split; [simpl; eapply node_image_lt; [apply extends_refl|eassumption|eassumption]|]. auto.
  - destruct Hv as [d [Hd Hk]]. assert (Ev : is_var g t = true) by (unfold is_var; now rewrite Hd, Hk).
    exists g, (XVar t). split; [cbn [copy]; unfold front; rewrite Ev; reflexivity|]. split; auto.
    split; [simpl; eauto|]. eapply node_image_leaf; eauto. now rewrite Hk.
  - cbn [tensor_of] in *. simpl in Hv. destruct (nth_error (ops g) o) as [d|] eqn:Ed; [|apply nth_error_None in Ed; lia].
    destruct (Hp o d eq_refl Ed) as [Hk1 Hk2].
    destruct (proj2 (B g g sw s h pick Hwf H4 (extends_refl g) Hwf H1 Hac (S f)) [] g o d HI Ed) as [g' [o' [E [[HI' _] [_ Hni]]]]]; try congruence; try lia.
    exists g', (XOp o'). split; [|split; auto; split; [simpl; eapply node_image_lt; [apply extends_refl|eassumption|eassumption]|auto]].
    rewrite <- E. cbn [copy].
    assert (Hfront : front g sw true false (XOp o) = inr (XOp o)).
    { unfold front. destruct (lookup sw (XOp o)) as [y|] eqn:El; auto. exfalso.
      apply lookup_some in El. apply (sw_in g g sw H1) in El. simpl in El. intuition discriminate. }
    rewrite Hfront. reflexivity.
Qed.

Lemma copy_without_parents : forall g h pick sw scope s x, wf g -> acyclic g h ->
  swap_ok g sw -> with_slash scope = Some s -> fresh_scope g s -> valid g x -> plain g x -> (forall r, x <> XRV r) ->
  exists N g' y rho, (forall fuel, N <= fuel -> ed_copy fuel pick sw scope false false g x = (g', Ok y)) /\
    (forall o, length (ops g) <= rho o) /\
    (forall a b, a < length (ops g) -> b < length (ops g) -> rho a = rho b -> a = b) /\
    forall V N' (sem : nat -> N' -> list V -> V) st noise,
      (exists v, ev sem st noise g' (tensor_of g' y) v) /\
      forall v, ev sem st noise g' (tensor_of g' y) v <->
                sev_node sem st noise (fun o => noise (rho o)) g sw (tensor_of g x) v.
Proof.
  intros g h pick sw scope s x Hwf Hac H1 H3 H4 H5 H6 Hx.
  assert (Hx' : is_rv x = false) by (destruct x as [r| | |]; auto; destruct (Hx r eq_refl)).
  destruct (top_tensor g h pick sw s (2 * h (tensor_of g x) + 3) x Hwf Hac H1 H4 H5 H6 Hx' (le_n _)) as [g' [y [E [HI [Hv Hni]]]]].
  pose proof (extends_refl g) as He0.
  exists (2 * h (tensor_of g x) + 3), g', y, (copy_of g s g').
  split; [|split; [intros o; eapply copy_of_new; eauto|split; [intros a b Ha Hb; eapply copy_of_inj; eauto|]]].
  - intros fuel Hf. eapply ed_copy_mono; [exact Hf| |discriminate]. unfold ed_copy, ed_copy_at. now rewrite H3.
  - intros V N' sem st noise.
    assert (Hiff : forall v, ev sem st noise g' (tensor_of g' y) v <->
                sev_node sem st noise (fun o => noise (copy_of g s g' o)) g sw (tensor_of g x) v).
    { intros v. eapply eval; eauto. }
    split; auto.
    destruct (proj2 (sev_total g h sw Hwf Hac H1 V N' sem st noise (fun o => noise (copy_of g s g' o))) (tensor_of g x))
      as [v Hv']; [now apply valid_lt|].
    exists v. apply Hiff. auto.
Qed.

(** ** Random variables without their parents: z is sampled twice.
    z ~ D10(c); mul = z * p; y ~ D11(mul, z) *)

Definition twice : graph := mkgraph
  [mkop "c" (KOp 0) []; mkop "p" KPlace []; mkop "z/sample" (KOp 10) [0]; mkop "mul" (KOp 1) [2; 1];
   mkop "y/sample" (KOp 11) [3; 2]]
  [mkrv "z/" 10 [XT 0] 2; mkrv "y/" 11 [XT 3; XRV 0] 4].

Lemma twice_wf : wf twice.
Proof.
  constructor.
  - intros o d H. do 5 (destruct o as [|o]; [inversion H; subst; simpl; repeat constructor; fail|]).
    destruct o; discriminate.
  - simpl. repeat constructor; simpl; intuition discriminate.
  - simpl. repeat constructor; simpl; intuition discriminate.
  - simpl. repeat constructor; simpl; intuition discriminate.
  - repeat constructor; simpl; eauto.
Qed.
Lemma twice_acyclic : acyclic twice (fun o => o).
Proof.
  intros o d H. do 5 (destruct o as [|o]; [inversion H; subst; simpl; repeat constructor; fail|]).
  destruct o; discriminate.
Qed.
Lemma twice_good : good_call twice [] "copied" "copied/" (XRV 1).
Proof.
  constructor; auto.
  - split; constructor.
  - intros t y [].
  - split; intros d n H E; simpl in H; repeat (destruct H as [<-|H]; [simpl in E; discriminate|]); destruct H.
  - simpl. lia.
  - intros o d H. discriminate.
Qed.
(** D10 draws its noise, products return their first operand, D11 tells whether
    its arguments are equal. *)
Definition twice_sem (ty : nat) (noise : nat) (vs : list nat) : nat :=
  match ty, vs with
  | 10, _ => noise
  | 1, a :: _ => a
  | 11, [a; b] => if Nat.eqb a b then 1 else 0
  | _, _ => 0
  end.

Lemma without_parents_refuted : exists g h pick sw scope s x N g' y,
  wf g /\ acyclic g h /\ good_call g sw scope s x /\
  (forall fuel, N <= fuel -> ed_copy fuel pick sw scope false false g x = (g', Ok y)) /\
  exists (sem : nat -> nat -> list nat -> nat) st noise v, ev sem st noise g' (tensor_of g' y) v /\
    forall noise', ~ sev_node sem st noise noise' g sw (tensor_of g x) v.
Proof.
  exists twice, (fun o => o), first_pick, [], "copied", "copied/", (XRV 1), 20.
  destruct (ed_copy 20 first_pick [] "copied" false false twice (XRV 1)) as [g' r] eqn:E.
  pose proof E as E0. vm_compute in E0. inversion E0. subst r g'. clear E0.
  eexists. eexists. split; [apply twice_wf|]. split; [apply twice_acyclic|]. split; [apply twice_good|].
  split; [intros fuel Hf; eapply ed_copy_mono; [exact Hf|exact E|discriminate]|].
  clear E. exists twice_sem, (fun _ => 0), (fun o => o), 0. split.
  - apply (evalf_ev _ _ 9). reflexivity.
  - intros noise' H. change (tensor_of twice (XRV 1)) with 4 in H.
    assert (G : forall w, sev_node twice_sem (fun _ => 0) (fun o => o) noise' twice [] 4 w -> w = 1).
    { clear H. intros w H. look_evs. now rewrite Nat.eqb_refl. }
    apply G in H. discriminate.
Qed.

(** ** copy_q=True: a value that depends on its key *)

Lemma copy_q_diverges : exists g h pick sw scope s x,
  wf g /\ acyclic g h /\ good_call g sw scope s x /\
  forall fuel, ed_copy fuel pick sw scope true true g x = (g, Fuel).
Proof.
  exists demo, (fun o => o), first_pick, [(XRV 0, XT 4)], "copied", "copied/", (XRV 1).
  split; [exact demo_wf|]. split; [exact demo_acyclic|]. split.
  - constructor; auto.
    + split; [constructor; [|constructor]; simpl; repeat split; lia|]. simpl. repeat constructor. simpl. tauto.
    + apply demo_keys.
    + apply demo_fresh. auto.
    + simpl. lia.
    + intros o d H. discriminate.
  - assert (Hz : forall fuel, copy fuel first_pick [(XRV 0, XT 4)] "copied/" true true true demo (XRV 0) = (demo, Fuel)).
    { induction fuel as [|f IH]; auto. cbn [copy].
      replace (front demo [(XRV 0, XT 4)] true true (XRV 0)) with (@inr elem elem (XT 4)) by reflexivity.
      cbv iota beta. replace (find_copy demo "copied/" (XT 4)) with (@None elem) by reflexivity.
      cbn [is_op negb andb]. replace (parents first_pick demo (XT 4)) with [XRV 0] by (vm_compute; reflexivity).
      cbn [copy_list]. rewrite IH. reflexivity. }
    intros [|fuel]; [reflexivity|]. unfold ed_copy, ed_copy_at.
    replace (with_slash "copied") with (Some "copied/") by reflexivity. cbv iota beta. cbn [copy].
    replace (front demo [(XRV 0, XT 4)] false true (XRV 1)) with (@inr elem elem (XRV 1)) by reflexivity.
    cbv iota beta. replace (find_copy demo "copied/" (XRV 1)) with (@None elem) by reflexivity.
    cbn [is_op negb andb]. replace (parents first_pick demo (XRV 1)) with [XRV 0] by (vm_compute; reflexivity).
    cbn [copy_list]. rewrite Hz. reflexivity.
Qed.

(** The key is a tensor: a = c + 1, and c is swapped for a in b = c * 2. *)
Definition loop : graph := mkgraph
  [mkop "c" (KOp 0) []; mkop "a" (KOp 1) [0]; mkop "b" (KOp 2) [0]] [].

Lemma loop_good : wf loop /\ acyclic loop (fun o => o) /\ good_call loop [(XT 0, XT 1)] "copied" "copied/" (XT 2).
Proof.
  split; [|split].
  - constructor; simpl; try constructor.
    + intros o d H. do 3 (destruct o as [|o]; [inversion H; subst; simpl; repeat constructor; fail|]). destruct o; discriminate.
    + simpl. intuition discriminate.
    + repeat constructor; simpl; intuition discriminate.
  - intros o d H. do 3 (destruct o as [|o]; [inversion H; subst; simpl; repeat constructor; fail|]). destruct o; discriminate.
  - constructor; auto.
    + split; [constructor; [|constructor]; simpl; repeat split; lia|]. simpl. repeat constructor. simpl. tauto.
    + intros t y [H|[]]. injection H as <- <-. split; [reflexivity|intros d []].
    + split; intros d n H E; simpl in H; repeat (destruct H as [<-|H]; [simpl in E; discriminate|]); destruct H.
    + simpl. lia.
    + intros o d H. discriminate.
Qed.

Lemma copy_q_cycle : exists g h pick sw scope s x N g' y,
  wf g /\ acyclic g h /\ good_call g sw scope s x /\
  (forall fuel, N <= fuel -> ed_copy fuel pick sw scope true true g x = (g', Ok y)) /\
  forall V N' (sem : nat -> N' -> list V -> V) st noise v, ~ ev sem st noise g' (tensor_of g' y) v.
Proof.
  exists loop, (fun o => o), first_pick, [(XT 0, XT 1)], "copied", "copied/", (XT 2), 20.
  destruct (ed_copy 20 first_pick [(XT 0, XT 1)] "copied" true true loop (XT 2)) as [g' r] eqn:E.
  pose proof E as E0. vm_compute in E0. injection E0 as Eg Er. symmetry in Eg. subst r.
  exists g'. eexists. split; [apply loop_good|]. split; [apply loop_good|]. split; [apply loop_good|].
  split; [intros fuel Hf; eapply ed_copy_mono; [exact Hf|exact E|discriminate]|].
  clear E. intros V N' sem st noise v H.
  assert (L : forall t w, ev sem st noise g' t w -> t = 4 -> False).
  { intros t w Hw. subst g'.
    refine (ev_ind2 V N' sem st noise _ (fun t w _ => t = 4 -> False) (fun l ws _ => In 4 l -> False) _ _ _ _ t w Hw).
    - intros o d Hd Hl ->. simpl in Hd. injection Hd as <-. discriminate.
    - intros o d ty vs Hd Hk Hvs IH ->. simpl in Hd. injection Hd as <-. simpl in IH. auto.
    - intros [].
    - intros o v0 l vs _ IH1 _ IH2 [->|Hin]; auto. }
  subst g'. simpl in H. inversion H as [o d Hd Hl|o d ty vs Hd Hk Hvs]; subst; simpl in Hd; injection Hd as <-; [discriminate|].
  simpl in Hvs. inversion Hvs as [|o1 w l ws Hw Hws]; subst. eapply L; eauto.
Qed.
