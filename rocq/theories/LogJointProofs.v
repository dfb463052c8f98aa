(** * The log joint densities that the algorithms build (proofs). *)
From Verif Require Import Copy CopySpec CopyProofs CopySubstProofs CopyFinalProofs CopyCallProofs LogJoint LogJointSpec.
From Coq Require Import Reals String List Arith Bool Lia.
Import ListNotations.
Local Open Scope string_scope.

(** ** Dictionaries *)

Lemma elem_eqb_refl : forall a, elem_eqb a a = true.
Proof. intros a. now apply elem_eqb_eq. Qed.
Lemma elem_eqb_neq : forall a b, a <> b -> elem_eqb a b = false.
Proof. intros a b H. destruct (elem_eqb a b) eqn:E; auto. apply elem_eqb_eq in E. contradiction. Qed.
Lemma elem_dec : forall a b : elem, a = b \/ a <> b.
Proof.
  intros a b. destruct (elem_eqb a b) eqn:E; [left; now apply elem_eqb_eq|right]. intros ->.
  rewrite elem_eqb_refl in E. discriminate.
Qed.

Lemma lookup_cons : forall k y sw x, lookup ((k, y) :: sw) x = if elem_eqb k x then Some y else lookup sw x.
Proof. intros. unfold lookup. simpl. now destruct (elem_eqb k x). Qed.

Lemma lookup_set : forall sw x y k, lookup (swap_set sw x y) k = if elem_eqb x k then Some y else lookup sw k.
Proof.
  induction sw as [|[k0 v0] sw IH]; intros x y k; simpl.
  - rewrite lookup_cons. reflexivity.
  - destruct (elem_eqb k0 x) eqn:E; rewrite !lookup_cons.
    + apply elem_eqb_eq in E. subst. now destruct (elem_eqb x k).
    + rewrite IH. destruct (elem_eqb k0 k) eqn:E0; auto. apply elem_eqb_eq in E0. subst.
      destruct (elem_eqb x k) eqn:E1; auto. apply elem_eqb_eq in E1. subst. rewrite elem_eqb_refl in E. discriminate.
Qed.
Lemma lookup_set_same : forall sw x y, lookup (swap_set sw x y) x = Some y.
Proof. intros. rewrite lookup_set. now rewrite elem_eqb_refl. Qed.
Lemma lookup_set_other : forall sw x y k, x <> k -> lookup (swap_set sw x y) k = lookup sw k.
Proof. intros. rewrite lookup_set. now rewrite elem_eqb_neq. Qed.

Lemma set_in : forall sw x y kv, In kv (swap_set sw x y) -> kv = (x, y) \/ In kv sw.
Proof.
  induction sw as [|[k0 v0] sw IH]; intros x y kv H; simpl in *; [destruct H as [<-|[]]; auto|].
  destruct (elem_eqb k0 x) eqn:E.
  - apply elem_eqb_eq in E. subst. destruct H as [<-|H]; auto.
  - destruct H as [<-|H]; auto. destruct (IH _ _ _ H); auto.
Qed.
Lemma set_keys : forall sw x y k, In k (map fst (swap_set sw x y)) -> k = x \/ In k (map fst sw).
Proof.
  intros sw x y k H. apply in_map_iff in H. destruct H as [[a b] [<- H]]. apply set_in in H.
  destruct H as [E|H]; [injection E as -> ->; auto|]. right. apply in_map_iff. exists (a, b). auto.
Qed.
Lemma set_nodup : forall sw x y, NoDup (map fst sw) -> NoDup (map fst (swap_set sw x y)).
Proof.
  induction sw as [|[k0 v0] sw IH]; intros x y H; simpl in *; [repeat constructor; auto|].
  inversion H as [|? ? Hn Hd]; subst. destruct (elem_eqb k0 x) eqn:E; simpl; [constructor; auto|].
  constructor; [|now apply IH]. intros Hi. apply set_keys in Hi. destruct Hi as [->|Hi]; [|auto].
  rewrite elem_eqb_refl in E. discriminate.
Qed.
Lemma lookup_in : forall sw k y, lookup sw k = Some y -> In (k, y) sw.
Proof.
  intros sw k y H. unfold lookup in H. destruct (find _ sw) as [[k0 y0]|] eqn:E; [|discriminate].
  apply find_some in E. destruct E as [Hi Ek]. simpl in *. apply elem_eqb_eq in Ek. subst. injection H as <-. auto.
Qed.
Lemma in_lookup : forall sw k y, NoDup (map fst sw) -> In (k, y) sw -> lookup sw k = Some y.
Proof.
  induction sw as [|[k0 y0] sw IH]; intros k y Hn Hi; [destruct Hi|]. inversion Hn as [|? ? Hk Hd]; subst.
  rewrite lookup_cons. destruct Hi as [E|Hi].
  - injection E as -> ->. now rewrite elem_eqb_refl.
  - rewrite elem_eqb_neq; [now apply IH|]. intros ->. apply Hk. apply (in_map fst) in Hi. exact Hi.
Qed.
Lemma lookup_none : forall sw k, ~ In k (map fst sw) -> lookup sw k = None.
Proof.
  intros sw k H. destruct (lookup sw k) as [y|] eqn:E; auto. apply lookup_in in E. exfalso. apply H.
  apply (in_map fst) in E. exact E.
Qed.
Lemma lookup_some_key : forall sw k, In k (map fst sw) -> exists y, lookup sw k = Some y.
Proof.
  intros sw k H. destruct (lookup sw k) as [y|] eqn:E; eauto. exfalso. apply in_map_iff in H.
  destruct H as [[a b] [<- Hi]]. unfold lookup in E. destruct (find _ sw) eqn:F; [discriminate|].
  apply (find_none _ _ F) in Hi. simpl in Hi. rewrite elem_eqb_refl in Hi. discriminate.
Qed.

Lemma update_lookup : forall e sw k, NoDup (map fst e) ->
  lookup (swap_update sw e) k = match lookup e k with Some y => Some y | None => lookup sw k end.
Proof.
  unfold swap_update. induction e as [|[k0 y0] e IH]; intros sw k Hn; [reflexivity|]. simpl.
  inversion Hn as [|? ? Hk Hd]; subst. rewrite IH by auto. rewrite lookup_cons, lookup_set.
  destruct (elem_eqb k0 k) eqn:E; auto. apply elem_eqb_eq in E. subst. now rewrite lookup_none.
Qed.

Lemma rv_items_in : forall d k y, In (k, y) (rv_items d) <-> In (k, y) d /\ is_rv k = true.
Proof. intros. unfold rv_items. rewrite filter_In. reflexivity. Qed.
Lemma observed_items : forall d, observed d = map fst (rv_items d).
Proof.
  unfold observed, rv_items. induction d as [|[k y] d IH]; simpl; auto. destruct (is_rv k); simpl; now rewrite IH.
Qed.

(** ** Sums *)

Lemma sum_iff : forall A B (P : A -> R -> Prop) (Q : B -> R -> Prop) l l',
  Forall2 (fun a b => forall x, P a x <-> Q b x) l l' -> forall x, sum_is P l x <-> sum_is Q l' x.
Proof.
  intros A B P Q l l' H. induction H as [|a b l l' Hab _ IH]; intros x.
  - split; intros E; inversion E; constructor.
  - split; intros E; inversion E; subst; constructor; try apply Hab; try apply IH; auto.
Qed.
Lemma sum_total : forall A (P : A -> R -> Prop) l, Forall (fun a => exists x, P a x) l -> exists x, sum_is P l x.
Proof.
  intros A P l H. induction H as [|a l [x Hx] _ [y Hy]]; [exists 0%R; constructor|]. exists (x + y)%R. now constructor.
Qed.

Section Build.
Variable g0 : graph.
Variable h : nat -> nat.
Variable pick : nat -> nat.
Hypothesis Hwf : wf g0.
Hypothesis Hac : acyclic g0 h.
Notation n0 := (length (ops g0)).

(** ** Dictionaries whose keys are random variables of the program *)

Definition rv_dict (g : graph) (sw : swap) : Prop :=
  Forall (fun kv => (is_rv (fst kv) = true /\ valid g0 (fst kv)) /\ valid g (snd kv) /\ is_op (snd kv) = false) sw /\
  NoDup (map fst sw).

Lemma rv_dict_nil : forall g, rv_dict g [].
Proof. intros g. split; constructor. Qed.

Lemma rv_dict_ext : forall g g' sw, extends g g' -> rv_dict g sw -> rv_dict g' sw.
Proof.
  intros g g' sw He [HF Hn]. split; auto. eapply Forall_impl; [|exact HF]. intros kv [A [B C]].
  split; auto. split; auto. eapply valid_extends; eauto.
Qed.

Lemma rv_dict_set : forall g sw x y, rv_dict g sw -> is_rv x = true -> valid g0 x -> valid g y -> is_op y = false ->
  rv_dict g (swap_set sw x y).
Proof.
  intros g sw x y [HF Hn] H1 H2 H3 H4. split; [|now apply set_nodup]. rewrite Forall_forall in *. intros kv Hi.
  apply set_in in Hi. destruct Hi as [->|Hi]; auto.
Qed.

Lemma rv_dict_update : forall e g sw, rv_dict g sw -> rv_dict g e -> rv_dict g (swap_update sw e).
Proof.
  unfold swap_update. induction e as [|[k y] e IH]; intros g sw H He; auto. simpl. destruct He as [HF Hn].
  inversion HF as [|? ? [[A A'] [B C]] HF']; subst. inversion Hn; subst. apply IH; [|split; auto].
  apply rv_dict_set; auto.
Qed.

Lemma rv_tensor : forall g x, extends g0 g -> is_rv x = true -> valid g0 x ->
  exists r d, x = XRV r /\ nth_error (rvs g0) r = Some d /\ tensor_of g0 x = rvalue d /\ tensor_of g x = rvalue d.
Proof.
  intros g [r|t|t|t] He Hr Hv; try discriminate. simpl in Hv.
  destruct (nth_error (rvs g0) r) as [d|] eqn:E; [|apply nth_error_None in E; lia].
  exists r, d. simpl. rewrite E, (proj2 He _ _ E). auto.
Qed.

Lemma rv_value_inj : forall r d r' d', nth_error (rvs g0) r = Some d -> nth_error (rvs g0) r' = Some d' ->
  rvalue d = rvalue d' -> r = r'.
Proof. intros. eapply (nodup_nth rvalue); eauto. apply wf_values. auto. Qed.

Lemma rv_dict_swap : forall g sw, extends g0 g -> rv_dict g sw -> swap_at g0 g sw /\ direct_keys g0 sw.
Proof.
  intros g sw He [HF Hn]. split; [split|].
  - eapply Forall_impl; [|exact HF]. intros kv [[A A'] [B C]]. split; auto. split; auto. split; auto.
    destruct (fst kv); auto; discriminate.
  - clear - HF Hn He Hwf. induction sw as [|[k y] sw IH]; simpl in *; [constructor|].
    inversion HF as [|? ? [[A A'] _] HF']; subst. inversion Hn as [|? ? Hk Hd]; subst. constructor; [|now apply IH].
    intros Hi. apply Hk. apply in_map_iff in Hi. destruct Hi as [[k' y'] [E Hi]]. simpl in *.
    rewrite Forall_forall in HF'. destruct (HF' _ Hi) as [[B B'] _]. simpl in *.
    destruct (rv_tensor g0 k (extends_refl g0) A A') as [r [d [-> [Hr [Et _]]]]].
    destruct (rv_tensor g0 k' (extends_refl g0) B B') as [r' [d' [-> [Hr' [Et' _]]]]].
    apply in_map_iff. exists (XRV r', y'). split; auto. simpl. f_equal. eapply rv_value_inj; eauto. congruence.
  - intros t y Hi. rewrite Forall_forall in HF. destruct (HF _ Hi) as [[A _] _]. discriminate.
Qed.

Lemma repl_lookup : forall g sw r d, extends g0 g -> rv_dict g sw -> nth_error (rvs g0) r = Some d ->
  replacement g sw (rvalue d) = option_map (tensor_of g) (lookup sw (XRV r)).
Proof.
  intros g sw r d He [HF _] Hr. unfold replacement, lookup.
  induction HF as [|[k y] sw [[A A'] _] _ IH]; auto. simpl in *.
  destruct (rv_tensor g k He A A') as [r' [d' [-> [Hr' [_ Et]]]]]. rewrite Et. simpl.
  destruct (Nat.eqb_spec (rvalue d') (rvalue d)) as [E|E].
  - apply (rv_value_inj _ _ _ _ Hr' Hr) in E. subst. now rewrite Nat.eqb_refl.
  - destruct (Nat.eqb_spec r' r) as [->|]; [congruence|]. exact IH.
Qed.

Lemma repl_some : forall g sw t t', extends g0 g -> rv_dict g sw -> replacement g sw t = Some t' ->
  exists r d y, nth_error (rvs g0) r = Some d /\ t = rvalue d /\ lookup sw (XRV r) = Some y /\ t' = tensor_of g y.
Proof.
  intros g sw t t' He Hd H. pose proof Hd as [HF Hn]. unfold replacement in H.
  destruct (find _ sw) as [[k y]|] eqn:E; [|discriminate]. apply find_some in E. destruct E as [Hi E].
  apply Nat.eqb_eq in E. simpl in *. rewrite Forall_forall in HF. destruct (HF _ Hi) as [[A A'] _].
  destruct (rv_tensor g k He A A') as [r [d [Ek [Hr [_ Et]]]]]. exists r, d, y. split; auto. split; [congruence|].
  split; [|congruence]. rewrite <- Ek. now apply in_lookup.
Qed.

(** ** One copy *)

Definition covered (s : string) (qs : list elem) (g : graph) : Prop :=
  forall o d src ds, nth_error (ops g) o = Some d -> nth_error (ops g0) src = Some ds -> oname d = s ++ oname ds ->
  exists q, In q qs /\ is_rv q = true /\ depends g0 (tensor_of g0 q) src.

Lemma covered_fresh : forall s qs, fresh_scope g0 s -> covered s qs g0.
Proof. intros s qs [F _] o d src ds Hd _ En. exfalso. eapply F; [eapply nth_error_In; eauto|eauto]. Qed.

Lemma copy_rv_ok : forall sw scope s g r d, with_slash scope = Some s -> state g0 sw s g -> rv_dict g sw ->
  nth_error (rvs g0) r = Some d ->
  exists N g' r' d', (forall fuel, N <= fuel -> copy_rv fuel pick sw scope g (XRV r) = (g', Ok r')) /\
    state g0 sw s g' /\ extends g g' /\ adds s g g' /\ sources g0 g g' s (rvalue d) /\
    rv_named g' (s ++ rname d) = Some r' /\ nth_error (rvs g') r' = Some d'.
Proof.
  intros sw scope s g r d Hs Hst Hd Hr.
  destruct (rv_dict_swap g sw (w_ext _ _ (s_world _ _ _ _ Hst)) Hd) as [_ Hk].
  destruct (call_rv g0 h Hwf Hac pick sw s g r d Hst Hk Hr) as [N [g' [r' [E [H1 [H2 [H3 [H4 H5]]]]]]]].
  pose proof (rv_named_some _ _ _ H5) as [d' [Hd' _]].
  exists N, g', r', d'. split; [|auto 10]. intros fuel Hf. unfold copy_rv, ed_copy, ed_copy_at. rewrite Hs, E; auto.
Qed.

Lemma covered_call : forall s qs g g' q d, covered s qs g -> extends g g' -> sources g0 g g' s (rvalue d) ->
  In (XRV q) qs -> nth_error (rvs g0) q = Some d -> covered s qs g'.
Proof.
  intros s qs g g' q d Hc He Hs Hq Hd o do src ds Ho Hsr En.
  destruct (Nat.lt_ge_cases o (length (ops g))) as [Hlt|Hge].
  - destruct (nth_error (ops g) o) as [d1|] eqn:E1; [|apply nth_error_None in E1; lia].
    pose proof (proj1 He _ _ E1). assert (d1 = do) by congruence. subst. eapply Hc; eauto.
  - destruct (Hs _ _ Hge Ho) as [src' [ds' [Hs' [En' Hdep]]]]. exists (XRV q). split; auto. split; auto.
    assert (oname ds = oname ds') by (apply (app_inj_s s); congruence).
    assert (src = src') by (apply (nodup_nth oname _ _ _ _ _ (wf_names _ Hwf) Hsr Hs'); auto). subst.
    simpl. now rewrite Hd.
Qed.

(** ** Binding *)

(** What a binding becomes. *)
Definition bound (s : string) (g : graph) (q y : elem) : Prop :=
  match q with
  | XRV i => exists dq r' d', nth_error (rvs g0) i = Some dq /\ rv_named g (s ++ rname dq) = Some r' /\
      nth_error (rvs g) r' = Some d' /\ y = XT (rvalue d')
  | _ => y = q
  end.

Lemma bound_ext : forall s g g' q y, extends g g' -> wf g' -> bound s g q y -> bound s g' q y.
Proof.
  intros s g g' [i|t|t|t] y He Hw; simpl; auto. intros [dq [r' [d' [H1 [H2 [H3 H4]]]]]].
  exists dq, r', d'. split; auto. split; [eapply rv_named_ext; eauto|]. split; auto. now apply He.
Qed.

Lemma value_valid : forall g r d, wf g -> nth_error (rvs g) r = Some d -> valid g (XT (rvalue d)).
Proof. intros g r d Hw Hd. simpl. eapply rv_value_lt0; eauto. Qed.

Lemma bind_data_ok : forall scope s qs, with_slash scope = Some s -> forall data g sw,
  state g0 [] s g -> covered s qs g -> rv_dict g sw -> bindings g0 (rv_items data) ->
  NoDup (map fst (rv_items data)) -> incl (map snd (rv_items data)) qs ->
  exists N g' sw', (forall fuel, N <= fuel -> bind_data fuel pick scope g data sw = (g', Ok sw')) /\
    state g0 [] s g' /\ extends g g' /\ adds s g g' /\ covered s qs g' /\ rv_dict g' sw' /\
    (forall k, ~ In k (map fst (rv_items data)) -> lookup sw' k = lookup sw k) /\
    (forall k q, In (k, q) (rv_items data) -> exists y, lookup sw' k = Some y /\ bound s g' q y).
Proof.
  intros scope s qs Hs. induction data as [|[x qx] data IH]; intros g sw Hst Hc Hd Hb Hn Hq.
  - exists 0, g, sw. split; [reflexivity|]. split; auto. split; [apply extends_refl|]. split; [apply adds_refl|].
    split; auto. split; auto. split; auto. intros k q [].
  - unfold rv_items in Hb, Hn, Hq. simpl in Hb, Hn, Hq. simpl bind_data. unfold rv_items. simpl.
    destruct (is_rv x) eqn:Ex; [|exact (IH g sw Hst Hc Hd Hb Hn Hq)].
    fold (rv_items data) in *. simpl in Hn, Hq. simpl map.
    inversion Hb as [|? ? [[_ Vx] [Vq Oq]] Hb']; subst. inversion Hn as [|? ? Hx Hn']; subst. simpl in Vx, Vq, Oq.
    assert (Hq' : incl (map snd (rv_items data)) qs) by (intros a Ha; apply Hq; now right).
    destruct (is_rv qx) eqn:Eq.
    + destruct qx as [q|t|t|t]; try discriminate. simpl in Vq.
      destruct (nth_error (rvs g0) q) as [dq|] eqn:Edq; [|apply nth_error_None in Edq; lia].
      destruct (copy_rv_ok [] scope s g q dq Hs Hst (rv_dict_nil g) Edq)
        as [N1 [g1 [r' [d' [E1 [Hst1 [He1 [Ha1 [Hso1 [Hnm1 Hd1]]]]]]]]]].
      assert (Hw1 : wf g1) by apply (w_wf _ _ (s_world _ _ _ _ Hst1)).
      assert (Hc1 : covered s qs g1) by (eapply covered_call; eauto; apply Hq; now left).
      assert (Hdd1 : rv_dict g1 (swap_set sw x (XT (rvalue d')))).
      { apply rv_dict_set; auto; [eapply rv_dict_ext; eauto|eapply value_valid; eauto]. }
      destruct (IH g1 _ Hst1 Hc1 Hdd1 Hb' Hn' Hq') as [N2 [g2 [sw2 [E2 [Hst2 [He2 [Ha2 [Hc2 [Hd2 [L1 L2]]]]]]]]]].
      assert (Hw2 : wf g2) by apply (w_wf _ _ (s_world _ _ _ _ Hst2)).
      exists (N1 + N2), g2, sw2. split.
      { intros fuel Hf. rewrite E1 by lia. unfold value_of. rewrite Hd1. simpl. apply E2. lia. }
      split; auto. split; [eapply extends_trans; eauto|]. split; [eapply adds_trans; eauto|]. split; auto. split; auto.
      split.
      * intros k Hk. rewrite L1 by (intros Hin; apply Hk; right; exact Hin). apply lookup_set_other. intros ->. apply Hk. now left.
      * intros k q0 [E|Hi]; [|eauto]. injection E as <- <-. exists (XT (rvalue d')).
        split; [rewrite L1 by auto; apply lookup_set_same|]. eapply bound_ext; eauto. simpl. exists dq, r', d'. auto.
    + assert (Hdd1 : rv_dict g (swap_set sw x qx)).
      { apply rv_dict_set; auto. eapply valid_extends; [|exact Vq]. apply (w_ext _ _ (s_world _ _ _ _ Hst)). }
      destruct (IH g _ Hst Hc Hdd1 Hb' Hn' Hq') as [N2 [g2 [sw2 [E2 [Hst2 [He2 [Ha2 [Hc2 [Hd2 [L1 L2]]]]]]]]]].
      exists N2, g2, sw2. split; [exact E2|]. split; auto. split; auto. split; auto. split; auto. split; auto.
      split.
      * intros k Hk. rewrite L1 by (intros Hin; apply Hk; right; exact Hin). apply lookup_set_other. intros ->. apply Hk. now left.
      * intros k q0 [E|Hi]; [|eauto]. injection E as <- <-. exists qx.
        split; [rewrite L1 by auto; apply lookup_set_same|]. destruct qx; try discriminate; reflexivity.
Qed.

(** A term whose copy is that of the variable [x] in the scope. *)
Definition copy_term (s : string) (g : graph) (x : elem) (t : term) : Prop :=
  exists i dx, x = XRV i /\ nth_error (rvs g0) i = Some dx /\ rv_named g (s ++ rname dx) = Some (t_copy t).

Lemma copy_term_ext : forall s g g' x t, extends g g' -> wf g' -> copy_term s g x t -> copy_term s g' x t.
Proof.
  intros s g g' x t He Hw [i [dx [H1 [H2 H3]]]]. exists i, dx. split; auto. split; auto. eapply rv_named_ext; eauto.
Qed.

Lemma bind_latents_ok : forall scope s qs, with_slash scope = Some s -> forall latents g sw,
  state g0 [] s g -> covered s qs g -> rv_dict g sw -> bindings g0 latents ->
  Forall (fun kv => is_rv (snd kv) = true) latents ->
  NoDup (map fst latents) -> incl (map snd latents) qs ->
  exists N g' sw' ts, (forall fuel, N <= fuel -> bind_latents fuel pick scope g latents sw = (g', Ok (sw', ts))) /\
    state g0 [] s g' /\ extends g g' /\ adds s g g' /\ covered s qs g' /\ rv_dict g' sw' /\
    (forall k, ~ In k (map fst latents) -> lookup sw' k = lookup sw k) /\
    (forall k q, In (k, q) latents -> exists y, lookup sw' k = Some y /\ bound s g' q y) /\
    Forall2 (fun kv t => t_key t = fst kv /\ copy_term s g' (snd kv) t /\ lookup sw' (fst kv) = Some (t_value t)) latents ts.
Proof.
  intros scope s qs Hs. induction latents as [|[x qx] data IH]; intros g sw Hst Hc Hd Hb Hrv Hn Hq.
  - exists 0, g, sw, []. split; [reflexivity|]. split; auto. split; [apply extends_refl|]. split; [apply adds_refl|].
    split; auto. split; auto. split; auto. split; [intros k q []|constructor].
  - simpl bind_latents. simpl map in *. inversion Hb as [|? ? [[Ex Vx] [Vq Oq]] Hb']; subst.
    inversion Hn as [|? ? Hx Hn']; subst. inversion Hrv as [|? ? Eq Hrv']; subst. simpl in Ex, Vx, Vq, Oq, Eq.
    assert (Hq' : incl (map snd data) qs) by (intros a Ha; apply Hq; now right).
    destruct qx as [q|t|t|t]; try discriminate. simpl in Vq.
    destruct (nth_error (rvs g0) q) as [dq|] eqn:Edq; [|apply nth_error_None in Edq; lia].
    destruct (copy_rv_ok [] scope s g q dq Hs Hst (rv_dict_nil g) Edq)
      as [N1 [g1 [r' [d' [E1 [Hst1 [He1 [Ha1 [Hso1 [Hnm1 Hd1]]]]]]]]]].
    assert (Hw1 : wf g1) by apply (w_wf _ _ (s_world _ _ _ _ Hst1)).
    assert (Hc1 : covered s qs g1) by (eapply covered_call; eauto; apply Hq; now left).
    assert (Hdd1 : rv_dict g1 (swap_set sw x (XT (rvalue d')))).
    { apply rv_dict_set; auto; [eapply rv_dict_ext; eauto|eapply value_valid; eauto]. }
    destruct (IH g1 _ Hst1 Hc1 Hdd1 Hb' Hrv' Hn' Hq') as [N2 [g2 [sw2 [ts [E2 [Hst2 [He2 [Ha2 [Hc2 [Hd2 [L1 [L2 L3]]]]]]]]]]]].
    assert (Hw2 : wf g2) by apply (w_wf _ _ (s_world _ _ _ _ Hst2)).
    exists (N1 + N2), g2, sw2, (mkterm x r' (XT (rvalue d')) :: ts). split.
    { intros fuel Hf. rewrite E1 by lia. unfold value_of. rewrite Hd1. simpl. rewrite E2 by lia. reflexivity. }
    assert (Lx : lookup sw2 x = Some (XT (rvalue d'))) by (rewrite L1 by auto; apply lookup_set_same).
    split; auto. split; [eapply extends_trans; eauto|]. split; [eapply adds_trans; eauto|]. split; auto. split; auto.
    split; [|split].
    + intros k Hk. rewrite L1 by (intros Hin; apply Hk; right; exact Hin). apply lookup_set_other. intros ->. apply Hk. now left.
    + intros k q0 [E|Hi]; [|eauto]. injection E as <- <-. exists (XT (rvalue d')).
      split; auto. eapply bound_ext; eauto. simpl. exists dq, r', d'. auto.
    + constructor; auto. simpl. split; auto. split; auto. exists q, dq. split; auto. split; auto.
      eapply rv_named_ext; eauto.
Qed.

(** ** The terms of the model *)

Lemma model_terms_ok : forall scope s sw at_, with_slash scope = Some s -> forall keys g,
  state g0 sw s g -> rv_dict g sw ->
  Forall (fun z => is_rv z = true /\ valid g0 z /\ lookup at_ z <> None) keys ->
  exists N g' ts, (forall fuel, N <= fuel -> model_terms fuel pick scope sw at_ g keys = (g', Ok ts)) /\
    state g0 sw s g' /\ extends g g' /\ adds s g g' /\
    Forall2 (fun z t => t_key t = z /\ copy_term s g' z t /\ lookup at_ z = Some (t_value t)) keys ts.
Proof.
  intros scope s sw at_ Hs. induction keys as [|z keys IH]; intros g Hst Hd Hk.
  - exists 0, g, []. split; [reflexivity|]. split; auto. split; [apply extends_refl|]. split; [apply adds_refl|constructor].
  - inversion Hk as [|? ? [Rz [Vz Lz]] Hk']; subst. destruct z as [r|t|t|t]; try discriminate. simpl in Vz.
    destruct (nth_error (rvs g0) r) as [d|] eqn:Ed; [|apply nth_error_None in Ed; lia].
    destruct (copy_rv_ok sw scope s g r d Hs Hst Hd Ed) as [N1 [g1 [r' [d' [E1 [Hst1 [He1 [Ha1 [Hso1 [Hnm1 Hd1]]]]]]]]]].
    destruct (IH g1 Hst1 (rv_dict_ext _ _ _ He1 Hd) Hk') as [N2 [g2 [ts [E2 [Hst2 [He2 [Ha2 F2]]]]]]].
    assert (Hw2 : wf g2) by apply (w_wf _ _ (s_world _ _ _ _ Hst2)).
    destruct (lookup at_ (XRV r)) as [y|] eqn:Ey; [|congruence].
    exists (N1 + N2), g2, (mkterm (XRV r) r' y :: ts). split.
    { intros fuel Hf. simpl. unfold model_term. rewrite E1 by lia. rewrite Ey. rewrite E2 by lia. reflexivity. }
    split; auto. split; [eapply extends_trans; eauto|]. split; [eapply adds_trans; eauto|]. constructor; auto.
    split; auto. split; auto. exists r, d. split; auto. split; auto. simpl. eapply rv_named_ext; eauto.
Qed.

(** From the scope with nothing swapped to the dictionary. *)
Lemma swap_state : forall s qs g sw, state g0 [] s g -> covered s qs g -> rv_dict g sw ->
  unrelated g0 (map fst sw) qs -> state g0 sw s g.
Proof.
  intros s qs g sw Hst Hc Hd Hu. assert (He : extends g0 g) by apply (w_ext _ _ (s_world _ _ _ _ Hst)).
  destruct (rv_dict_swap g sw He Hd) as [Hs _].
  eapply state_swap; [exact Hst|exact Hs|]. intros o d src ds i Ho Hsr En Hi. split; [reflexivity|].
  destruct (replacement g sw i) as [t'|] eqn:E; auto. exfalso.
  destruct (repl_some g sw i t' He Hd E) as [r [dr [y [Hr [-> [Hl _]]]]]].
  destruct (Hc _ _ _ _ Ho Hsr En) as [q [Hq [Rq Hdep]]].
  apply (Hu (XRV r) q); auto; [apply (in_map fst) in Hl || (apply lookup_in in Hl; apply (in_map fst) in Hl); exact Hl|].
  simpl. rewrite Hr. eapply depends_trans; [exact Hdep|]. econstructor; [exact Hsr|exact Hi|constructor].
Qed.

(** ** Values *)

Lemma world_refl : world g0 g0.
Proof. constructor; auto; [apply extends_refl|exists h; auto|apply new_values_refl]. Qed.

Section Values.
Context {V M : Type}.
Variable sem : nat -> M -> list V -> V.
Variable st : nat -> V.
Variable noise : nat -> M.
Variable score : nat -> nat -> list V -> V -> R.
Variable k0 : nat.

Lemma ev_det : forall nz g t v v', ev sem st nz g t v -> ev sem st nz g t v' -> v = v'.
Proof.
  intros nz g t v v' H. revert v'.
  apply (ev_ind2 V M sem st nz g (fun t v _ => forall v', ev sem st nz g t v' -> v = v')
    (fun l vs _ => forall vs', evs sem st nz g l vs' -> vs = vs')); auto.
  - intros o d Hd Hl v' E. inversion E as [a d' H1 H2|a d' ty vs H1 H2 H3]; subst; auto.
    assert (d' = d) by congruence. subst. rewrite H2 in Hl. discriminate.
  - intros o d ty vs Hd Hk _ IH v' E. inversion E as [a d' H1 H2|a d' ty' vs' H1 H2 H3]; subst.
    + assert (d' = d) by congruence. subst. rewrite Hk in H2. discriminate.
    + assert (d' = d) by congruence. subst. assert (ty' = ty) by congruence. subst. now rewrite (IH _ H3).
  - intros vs' E. now inversion E.
  - intros o w l vs _ IH1 _ IH2 vs' E. inversion E; subst. f_equal; auto.
Qed.

Lemma ev_total : forall nz g h1, wf g -> acyclic g h1 -> forall t, t < length (ops g) -> exists v, ev sem st nz g t v.
Proof.
  intros nz g h1 Hw Ha. apply (proj1 (sev_total g h1 [] Hw Ha (conj (Forall_nil _) (NoDup_nil _)) V M sem st nz nz)).
Qed.

Definition env_at (g : graph) (sw : swap) (env : nat -> option V) : Prop :=
  forall t, match replacement g sw t with
            | Some t' => exists v, env t = Some v /\ ev sem st noise g t' v
            | None => env t = None
            end.

Lemma env_exists : forall g sw, world g0 g -> rv_dict g sw -> exists env, env_at g sw env.
Proof.
  intros g sw Hw [HF _]. unfold env_at, replacement. induction HF as [|[k y] sw [_ [Hy _]] _ [env IH]].
  - exists (fun _ => None). reflexivity.
  - destruct (w_ac _ _ Hw) as [h1 Ha]. simpl in Hy.
    destruct (ev_total noise g h1 (w_wf _ _ Hw) Ha (tensor_of g y) (valid_lt _ _ (w_wf _ _ Hw) Hy)) as [v Hv].
    exists (fun t => if Nat.eqb (tensor_of g k) t then Some v else env t). intros t. simpl.
    destruct (Nat.eqb (tensor_of g k) t); simpl; eauto. apply IH.
Qed.

Lemma env_earlier : forall g g' sw env, world g0 g -> extends g g' -> rv_dict g sw -> env_at g' sw env -> env_at g sw env.
Proof.
  intros g g' sw env Hw He Hd H t. specialize (H t). destruct (rv_dict_swap g sw (w_ext _ _ Hw) Hd) as [Hs _].
  rewrite (repl_ext g0 g g' sw t (w_ext _ _ Hw) He Hs) in H.
  destruct (replacement g sw t) as [t'|] eqn:E; auto. destruct H as [v [H1 H2]]. exists v. split; auto.
  exact (proj1 (ev_later g0 sem st noise g g' t' v Hw He
    (repl_lt g0 g sw (fun i => i) (w_ext _ _ Hw) (w_wf _ _ Hw) Hs _ _ E)) H2).
Qed.

Lemma env_lookup : forall g sw env r d y, extends g0 g -> rv_dict g sw -> env_at g sw env ->
  nth_error (rvs g0) r = Some d -> lookup sw (XRV r) = Some y ->
  forall v, env (rvalue d) = Some v <-> ev sem st noise g (tensor_of g y) v.
Proof.
  intros g sw env r d y He Hd Henv Hr Hl v. specialize (Henv (rvalue d)).
  rewrite (repl_lookup g sw r d He Hd Hr), Hl in Henv. simpl in Henv. destruct Henv as [w [E1 E2]]. rewrite E1. split.
  - intros E. injection E as <-. auto.
  - intros E. f_equal. eapply ev_det; eauto.
Qed.

Lemma env_some : forall g sw env t, extends g0 g -> rv_dict g sw -> env_at g sw env -> env t <> None ->
  exists r d y, nth_error (rvs g0) r = Some d /\ t = rvalue d /\ lookup sw (XRV r) = Some y.
Proof.
  intros g sw env t He Hd Henv Ht. specialize (Henv t). destruct (replacement g sw t) as [t'|] eqn:E; [|congruence].
  destruct (repl_some g sw t t' He Hd E) as [r [d [y [H1 [H2 [H3 _]]]]]]. exists r, d, y. auto.
Qed.

(** Substituting and holding are the same. *)
Lemma sev_held : forall g sw env noise', world g0 g -> env_at g sw env ->
  forall n t v, h t < n -> t < n0 ->
  (sev_tensor sem st noise noise' g sw t v <-> held sem st noise' env g0 t v).
Proof.
  intros g sw env noise' Hw Henv. induction n as [|n IH]; intros t v Hn Ht; [lia|].
  pose proof (Henv t) as Ee.
  destruct (nth_error (ops g0) t) as [d|] eqn:Ed; [|apply nth_error_None in Ed; lia].
  pose proof (proj1 (w_ext _ _ Hw) _ _ Ed) as Edg.
  pose proof (Hac _ _ Ed) as Hlow. pose proof (wf_closed _ Hwf _ _ Ed) as Hcl.
  assert (Hall : forall l, Forall (fun i => h i < h t) l -> Forall (fun i => i < n0) l -> forall vs,
            (sevs sem st noise noise' g sw l vs <-> helds sem st noise' env g0 l vs)).
  { induction l as [|i l IHl]; intros F1 F2 vs.
    - split; intros E; inversion E; constructor.
    - inversion F1; inversion F2; subst.
      split; intros E; inversion E; subst; constructor; try (apply IHl; auto); apply IH; auto; lia. }
  destruct (replacement g sw t) as [t'|] eqn:Er.
  - destruct Ee as [w [Ew Evw]]. split; intros E.
    + inversion E as [a b c H1 H2|a b H1 H2]; subst; [|congruence]. assert (b = t') by congruence. subst.
      rewrite (ev_det _ _ _ _ _ H2 Evw). now constructor.
    + inversion E as [a b H1|a b H1|a b c e H1]; subst; try congruence.
      assert (v = w) by congruence. subst. eapply sev_swap; eauto.
  - split; intros E.
    + inversion E as [a b c H1 H2|a b H1 H2]; subst; [congruence|].
      inversion H2 as [o d' Hd' Hl|o d' ty vs Hd' Hk Hvs]; subst.
      * assert (d' = d) by congruence. subst. eapply held_leaf; eauto.
      * assert (d' = d) by congruence. subst. eapply held_op; eauto. now apply Hall.
    + inversion E as [a b H1|a d' H1 Hd' Hl|a d' ty vs H1 Hd' Hk Hvs]; subst; [congruence| |].
      * assert (d' = d) by congruence. subst. apply sev_noswap; auto. eapply sev_leaf; eauto.
      * assert (d' = d) by congruence. subst. apply sev_noswap; auto. eapply sev_op; eauto. now apply Hall.
Qed.

Lemma sevs_held : forall g sw env noise', world g0 g -> env_at g sw env ->
  forall l vs, Forall (fun i => i < n0) l ->
  (sevs sem st noise noise' g sw l vs <-> helds sem st noise' env g0 l vs).
Proof.
  intros g sw env noise' Hw Henv l. induction l as [|i l IH]; intros vs HF.
  - split; intros E; inversion E; constructor.
  - inversion HF; subst. split; intros E; inversion E; subst; constructor; try (apply IH; auto);
      eapply (sev_held g sw env noise' Hw Henv (S (h i))); eauto.
Qed.

(** Nothing held: evaluation. *)
Lemma helds_none : forall nz l vs, helds sem st nz (fun _ => None) g0 l vs <-> evs sem st nz g0 l vs.
Proof.
  intros nz.
  assert (H1 : forall n t v, h t < n -> (held sem st nz (fun _ => None) g0 t v <-> ev sem st nz g0 t v)).
  { induction n as [|n IH]; intros t v Hn; [lia|].
    assert (Hall : forall l, Forall (fun i => h i < h t) l -> forall vs,
              (helds sem st nz (fun _ => None) g0 l vs <-> evs sem st nz g0 l vs)).
    { induction l as [|i l IHl]; intros F1 vs.
      - split; intros E; inversion E; constructor.
      - inversion F1; subst. split; intros E; inversion E; subst; constructor; try (apply IHl; auto); apply IH; auto; lia. }
    split; intros E.
    - inversion E as [a b H1|a d' H1 Hd' Hl|a d' ty vs H1 Hd' Hk Hvs]; subst; [discriminate|econstructor; eauto|].
      eapply ev_op; eauto. apply Hall; auto.
    - inversion E as [o d' Hd' Hl|o d' ty vs Hd' Hk Hvs]; subst; [eapply held_leaf; eauto|].
      eapply held_op; eauto. apply Hall; auto. }
  induction l as [|i l IHl]; intros vs.
  - split; intros E; inversion E; constructor.
  - split; intros E; inversion E; subst; constructor; try (apply IHl; auto); eapply (H1 (S (h i))); eauto.
Qed.

Lemma args_lt : forall i dx, nth_error (rvs g0) i = Some dx -> Forall (fun t => t < n0) (map (tensor_of g0) (rargs dx)).
Proof.
  intros i dx Hi. pose proof (wf_rvs _ Hwf) as HF. rewrite Forall_forall in HF.
  destruct (HF dx (nth_error_In _ _ Hi)) as [Ha _]. rewrite Forall_forall in *. intros t Ht. apply in_map_iff in Ht.
  destruct Ht as [x [<- Hx]]. apply valid_lt; auto. now apply Ha.
Qed.

Lemma copy_args : forall sw s g gF env x t, state g0 sw s g -> world g0 gF -> extends g gF -> rv_dict g sw ->
  env_at gF sw env -> copy_term s g x t ->
  exists i dx d', x = XRV i /\ nth_error (rvs g0) i = Some dx /\ nth_error (rvs gF) (t_copy t) = Some d' /\ rclass d' = rclass dx /\
    forall vs, evs sem st noise gF (map (tensor_of gF) (rargs d')) vs <->
      helds sem st (fun o => noise (renamed g0 k0 s gF o)) env g0 (map (tensor_of g0) (rargs dx)) vs.
Proof.
  intros sw s g gF env x t Hst HwF He Hd Henv [i [dx [-> [Hi Hnm]]]].
  destruct (copied_rv g0 Hwf sw s g i dx (t_copy t) Hst Hi Hnm) as [d' [Hd' [Hc [_ Him]]]].
  exists i, dx, d'. split; auto. split; auto. split; [now apply He|]. split; auto. intros vs.
  assert (Ht : map (tensor_of gF) (rargs d') = map (tensor_of g) (rargs d')).
  { apply map_ext_in. intros a Ha. apply tensor_extends; auto.
    pose proof (wf_rvs _ (w_wf _ _ (s_world _ _ _ _ Hst))) as HF. rewrite Forall_forall in HF.
    destruct (HF d' (nth_error_In _ _ Hd')) as [HA _]. rewrite Forall_forall in HA. now apply HA. }
  rewrite Ht. rewrite (evs_image g0 h Hac sem st noise k0 sw s g gF _ _ Hst HwF He (args_lt _ _ Hi) Him vs).
  apply sevs_held; [apply Hst| |eapply args_lt; eauto]. eapply env_earlier; eauto. apply Hst.
Qed.

(** A term in the final graph is a density in the program. *)
Lemma term_density : forall sw s g gF at_ env env' z x t, state g0 sw s g -> world g0 gF -> extends g gF -> rv_dict g sw ->
  env_at gF sw env -> copy_term s g x t -> t_key t = z -> is_rv z = true -> valid g0 z ->
  rv_dict gF at_ -> env_at gF at_ env' -> lookup at_ z = Some (t_value t) ->
  forall a, term_is sem st score noise gF t a <->
    density_at sem st score (fun o => noise (renamed g0 k0 s gF o)) env env' g0 z x a.
Proof.
  intros sw s g gF at_ env env' z x t Hst HwF He Hd Henv Hct Hk Rz Vz Hat Henv' Hl a.
  destruct (copy_args sw s g gF env x t Hst HwF He Hd Henv Hct) as [j [dx [d' [-> [Hj [Hd' [Hc Hargs]]]]]]].
  destruct (rv_tensor gF z (w_ext _ _ HwF) Rz Vz) as [i [dz [-> [Hi _]]]].
  pose proof (env_lookup gF at_ env' i dz _ (w_ext _ _ HwF) Hat Henv' Hi Hl) as Hv. split.
  - intros [i' [d2 [vs [v [E1 [E2 [E3 [E4 ->]]]]]]]]. assert (d2 = d') by congruence. subst.
    assert (i' = i) by congruence. subst.
    exists i, dz, j, dx, vs, v. split; auto. split; auto. split; auto. split; auto. split; [now apply Hargs|].
    split; [now apply Hv|]. now rewrite Hc.
  - intros [i' [dz' [j' [dx' [vs [v [E1 [E2 [E3 [E4 [E5 [E6 ->]]]]]]]]]]]]. injection E1 as <-. injection E3 as <-.
    assert (dz' = dz) by congruence. assert (dx' = dx) by congruence. subst.
    exists i, d', vs, v. split; auto. split; auto. split; [now apply Hargs|]. split; [now apply Hv|]. now rewrite Hc.
Qed.

Lemma term_total : forall sw s g gF z x t, state g0 sw s g -> world g0 gF -> extends g gF ->
  copy_term s g x t -> t_key t = z -> is_rv z = true -> valid gF (t_value t) ->
  exists a, term_is sem st score noise gF t a.
Proof.
  intros sw s g gF z x t Hst HwF He [j [dx [-> [Hj Hnm]]]] Hk Rz Vt. destruct (w_ac _ _ HwF) as [hF HaF].
  apply rv_named_some in Hnm. destruct Hnm as [d' [Hd' _]]. apply He in Hd'.
  assert (Hvs : exists vs, evs sem st noise gF (map (tensor_of gF) (rargs d')) vs).
  { pose proof (wf_rvs _ (w_wf _ _ HwF)) as HF. rewrite Forall_forall in HF.
    destruct (HF d' (nth_error_In _ _ Hd')) as [HA _]. clear - HA HwF HaF. induction HA as [|y l [Hy _] _ [vs IH]]; [exists []; constructor|].
    destruct (ev_total noise gF hF (w_wf _ _ HwF) HaF (tensor_of gF y) (valid_lt _ _ (w_wf _ _ HwF) Hy)) as [v Hv].
    exists (v :: vs). now constructor. }
  destruct Hvs as [vs Hvs].
  destruct (ev_total noise gF hF (w_wf _ _ HwF) HaF (tensor_of gF (t_value t)) (valid_lt _ _ (w_wf _ _ HwF) Vt)) as [v Hv].
  destruct z as [i|?|?|?]; try discriminate. exists (score i (rclass d') vs v), i, d', vs, v. auto.
Qed.

(** What a binding holds. *)
Lemma bound_value : forall s g gF q y, state g0 [] s g -> world g0 gF -> extends g gF -> bound s g q y ->
  valid g0 q ->
  forall v, ev sem st noise gF (tensor_of gF y) v <->
    sampled sem st noise (fun o => noise (renamed g0 k0 s gF o)) g0 q v.
Proof.
  intros s g gF q y Hst HwF He Hb Hv v. unfold sampled, given. destruct q as [i|t|t|t]; simpl in Hb.
  - simpl. destruct Hb as [dq [r' [d' [Hi [Hnm [Hd' ->]]]]]]. rewrite Hi. simpl.
    destruct (copied_rv g0 Hwf [] s g i dq r' Hst Hi Hnm) as [d2 [Hd2 [_ [Hni _]]]].
    assert (d2 = d') by congruence. subst.
    rewrite (ev_node g0 h Hac sem st noise k0 [] s g gF _ _ v Hst HwF He Hni).
    assert (Hlt : rvalue dq < n0) by (eapply rv_value_lt0; eauto).
    assert (E0 : env_at g [] (fun _ => None)) by (intros t; reflexivity).
    pose proof (sev_held g [] _ (fun o => noise (renamed g0 k0 s gF o)) (s_world _ _ _ _ Hst) E0 (S (h (rvalue dq))) (rvalue dq) v (le_n _) Hlt) as H1.
    pose proof (helds_none (fun o => noise (renamed g0 k0 s gF o)) [rvalue dq] [v]) as H2.
    assert (H3 : sev_tensor sem st noise (fun o => noise (renamed g0 k0 s gF o)) g [] (rvalue dq) v <->
                 sev_node sem st noise (fun o => noise (renamed g0 k0 s gF o)) g [] (rvalue dq) v).
    { split; intros E; [inversion E as [a b c E1|]; subst; [discriminate|auto]|now apply sev_noswap]. }
    rewrite <- H3, H1. split; intros E.
    + assert (E2 : evs sem st (fun o => noise (renamed g0 k0 s gF o)) g0 [rvalue dq] [v]) by (apply H2; constructor; [exact E|constructor]).
      now inversion E2.
    + assert (E2 : helds sem st (fun o => noise (renamed g0 k0 s gF o)) (fun _ => None) g0 [rvalue dq] [v]) by (apply H2; constructor; [exact E|constructor]).
      now inversion E2.
  - subst y. exact (ev_later g0 sem st noise g0 gF _ v world_refl (w_ext _ _ HwF) Hv).
  - subst y. destruct Hv as [d [Hd _]].
    exact (ev_later g0 sem st noise g0 gF _ v world_refl (w_ext _ _ HwF) (nth_lt _ _ _ Hd)).
  - subst y. exact (ev_later g0 sem st noise g0 gF _ v world_refl (w_ext _ _ HwF) Hv).
Qed.
End Values.

(** ** The algorithms *)

(** The terms of the model as a sum of densities. *)
Lemma sum_terms : forall V M (sem : nat -> M -> list V -> V) st noise score k sw s g gF at_ env env' keys ts,
  state g0 sw s g -> world g0 gF -> extends g gF -> rv_dict g sw -> env_at sem st noise gF sw env ->
  rv_dict gF at_ -> env_at sem st noise gF at_ env' ->
  Forall (fun z => is_rv z = true /\ valid g0 z) keys ->
  Forall2 (fun z t => t_key t = z /\ copy_term s g z t /\ lookup at_ z = Some (t_value t)) keys ts ->
  (exists a, sum_is (term_is sem st score noise gF) ts a) /\
  forall a, sum_is (term_is sem st score noise gF) ts a <->
            sum_is (fun z => density_at sem st score (fun o => noise (renamed g0 k s gF o)) env env' g0 z z) keys a.
Proof.
  intros V M sem st noise score k sw s g gF at_ env env' keys ts Hst HwF He Hd Henv Hat Henv' Hk HF. split.
  - apply sum_total. induction HF as [|z t keys ts [H1 [H2 H3]] _ IH]; constructor.
    + inversion Hk as [|? ? [Rz Vz] _]; subst. eapply (term_total sem st noise score sw s g gF _ _ t); eauto.
      destruct Hat as [Hat _]. rewrite Forall_forall in Hat. apply lookup_in in H3. now destruct (Hat _ H3) as [_ [? _]].
    + apply IH. now inversion Hk.
  - apply sum_iff. induction HF as [|z t keys ts [H1 [H2 H3]] _ IH]; constructor.
    + intros a. inversion Hk as [|? ? [Rz Vz] _]; subst.
      eapply (term_density sem st noise score k sw s g gF at_ env env' _ _ t); eauto.
    + apply IH. now inversion Hk.
Qed.

Lemma new_noise_renamed : forall k s gF, fresh_scope g0 s -> extends g0 gF -> new_noise g0 (renamed g0 k s gF).
Proof. intros k s gF Hf He. split; [now apply renamed_new|apply renamed_inj; auto]. Qed.

(** The environment of a dictionary that was bound. *)
Lemma env_holds : forall V M (sem : nat -> M -> list V -> V) st noise k0 s g gF sw env items,
  state g0 [] s g -> world g0 gF -> extends g gF -> rv_dict gF sw -> env_at sem st noise gF sw env ->
  bindings g0 items ->
  (forall k q, In (k, q) items -> exists y, lookup sw k = Some y /\ bound s g q y) ->
  (forall k, lookup sw k <> None -> In k (map fst items)) ->
  holds g0 (sampled sem st noise (fun o => noise (renamed g0 k0 s gF o)) g0) items env.
Proof.
  intros V M sem st noise k0 s g gF sw env items Hst HwF He Hd Henv Hb L1 L2. unfold bindings in Hb. rewrite Forall_forall in Hb. split.
  - intros k q Hi. destruct (Hb _ Hi) as [[Rk Vk] [Vq _]]. simpl in *. destruct (L1 _ _ Hi) as [y [Hl Hbd]].
    destruct (rv_tensor gF k (w_ext _ _ HwF) Rk Vk) as [r [d [-> [Hr [-> _]]]]].
    pose proof (env_lookup sem st noise gF sw env r d y (w_ext _ _ HwF) Hd Henv Hr Hl) as Hev.
    pose proof (bound_value sem st noise k0 s g gF q y Hst HwF He Hbd Vq) as Hbv.
    destruct (w_ac _ _ HwF) as [hF HaF].
    assert (Hy : valid gF y).
    { destruct Hd as [Hd _]. rewrite Forall_forall in Hd. apply lookup_in in Hl. now destruct (Hd _ Hl) as [_ [? _]]. }
    destruct (ev_total sem st noise gF hF (w_wf _ _ HwF) HaF (tensor_of gF y) (valid_lt _ _ (w_wf _ _ HwF) Hy)) as [v Hv].
    exists v. split; [now apply Hev|now apply Hbv].
  - intros t Ht. destruct (env_some sem st noise gF sw env t (w_ext _ _ HwF) Hd Henv Ht) as [r [d [y [Hr [-> Hl]]]]].
    assert (Hi : In (XRV r) (map fst items)) by (apply L2; congruence). apply in_map_iff in Hi.
    destruct Hi as [[k q] [E Hi]]. simpl in E. subst. exists (XRV r), q. split; auto. simpl. now rewrite Hr.
Qed.

Lemma key_dec : forall (k : elem) l, In k l \/ ~ In k l.
Proof.
  intros k l. induction l as [|a l IH]; [right; intros []|]. destruct (elem_dec a k) as [->|Hn]; [left; now left|].
  destruct IH as [Hi|Hi]; [left; now right|right]. intros [E|H]; auto.
Qed.
Lemma NoDup_app_r : forall (l l' : list elem), NoDup (l ++ l')%list -> NoDup l'.
Proof. intros l l'. induction l as [|b l IH]; simpl; auto. intros H. inversion H; auto. Qed.
Lemma NoDup_app_l : forall (l l' : list elem), NoDup (l ++ l')%list -> NoDup l.
Proof.
  intros l l'. induction l as [|b l IH]; simpl; [constructor|]. intros H. inversion H as [|? ? Hn Hd]; subst.
  constructor; auto. intros Hi. apply Hn, in_or_app. auto.
Qed.
Lemma NoDup_app_disjoint : forall (l l' : list elem), NoDup (l ++ l')%list -> forall a, In a l -> In a l' -> False.
Proof.
  intros l l'. induction l as [|b l IH]; intros H a Ha Hb; [destruct Ha|]. simpl in H. inversion H as [|? ? Hn Hd]; subst.
  destruct Ha as [->|Ha]; [apply Hn, in_or_app; auto|]. eapply IH; eauto.
Qed.
Lemma bindings_dict : forall d, bindings g0 d -> NoDup (map fst d) -> rv_dict g0 d.
Proof. intros d H Hn. split; auto. Qed.
Lemma bindings_keys : forall d k, bindings g0 d -> In k (map fst d) -> is_rv k = true /\ valid g0 k.
Proof.
  intros d k H Hi. unfold bindings in H. rewrite Forall_forall in H. apply in_map_iff in Hi. destruct Hi as [kv [<- Hi]].
  now destruct (H _ Hi).
Qed.
Lemma dict_keys : forall sw k, In k (map fst sw) <-> lookup sw k <> None.
Proof.
  intros sw k. split.
  - intros H. destruct (lookup_some_key _ _ H) as [y ->]. discriminate.
  - intros H. destruct (lookup sw k) as [y|] eqn:E; [|congruence]. apply lookup_in in E. apply (in_map fst) in E. exact E.
Qed.

Lemma state_start : forall sw scope s, with_slash scope = Some s -> fresh_scope g0 s -> rv_dict g0 sw -> state g0 sw s g0.
Proof.
  intros sw scope s Hs Hf Hd. apply state_fresh; auto; [apply world_refl|]. now apply rv_dict_swap; [apply extends_refl|].
Qed.

Theorem log_joint_at : forall scope s latents z_sample data, with_slash scope = Some s -> fresh_scope g0 s -> bindings g0 z_sample -> Forall (fun kv => is_rv (snd kv) = false) z_sample ->
  bindings g0 (rv_items data) -> NoDup (map fst (z_sample ++ rv_items data)%list) -> incl latents (map fst z_sample) ->
  unrelated g0 (map fst (z_sample ++ rv_items data)%list) (map snd (rv_items data)) ->
  exists N g' terms,
    (forall fuel, N <= fuel -> log_joint fuel pick scope latents z_sample data g0 = (g', Ok terms)) /\
    world g0 g' /\
    forall gF, world g0 gF -> extends g' gF ->
    forall V M (sem : nat -> M -> list V -> V) st noise score, exists env,
      holds g0 (sampled sem st noise (fun o => noise (renamed g0 0 s gF o)) g0) (z_sample ++ rv_items data)%list env /\
      (exists a, sum_is (term_is sem st score noise gF) terms a) /\
      forall a, sum_is (term_is sem st score noise gF) terms a <->
                sum_is (density sem st score (fun o => noise (renamed g0 0 s gF o)) env g0) (latents ++ observed data)%list a.
Proof.
  intros scope s latents z_sample data Hs Hf Hz Hzr Hdt Hnd Hlat Hun.
  rewrite map_app in Hnd. pose proof (NoDup_app_r _ _ Hnd) as Hnd2. pose proof (NoDup_app_l _ _ Hnd) as Hnd1.
  assert (Hst0 : state g0 [] s g0) by (eapply state_start; eauto; apply rv_dict_nil).
  destruct (bind_data_ok scope s (map snd (rv_items data)) Hs data g0 z_sample Hst0 (covered_fresh _ _ Hf)
     (bindings_dict _ Hz Hnd1) Hdt Hnd2 (incl_refl _))
    as [N1 [g1 [sw [E1 [Hst1 [He1 [_ [Hc1 [Hd1 [L1 L2]]]]]]]]]].
  assert (Hkeys : forall k, lookup sw k <> None -> In k (map fst (z_sample ++ rv_items data)%list)).
  { intros k Hk. rewrite map_app. apply in_or_app. destruct (key_dec k (map fst (rv_items data))) as [Hi|Hi]; auto.
    left. apply dict_keys. now rewrite <- L1. }
  assert (Hitems : forall k q, In (k, q) (z_sample ++ rv_items data)%list -> exists y, lookup sw k = Some y /\ bound s g1 q y).
  { intros k q Hi. apply in_app_or in Hi. destruct Hi as [Hi|Hi]; [|auto]. exists q.
    rewrite L1; [|intros Hi2; eapply NoDup_app_disjoint; eauto; apply (in_map fst) in Hi; exact Hi].
    split; [now apply in_lookup|]. rewrite Forall_forall in Hzr. specialize (Hzr _ Hi). simpl in Hzr.
    destruct q; try discriminate; reflexivity. }
  assert (Hst2 : state g0 sw s g1).
  { apply (swap_state s (map snd (rv_items data))); auto. intros k q Hk. apply Hun. apply Hkeys. now apply dict_keys. }
  assert (Hall : Forall (fun z => is_rv z = true /\ valid g0 z) (latents ++ observed data)%list).
  { rewrite Forall_forall. intros z Hz'. apply in_app_or in Hz'. destruct Hz' as [Hi|Hi].
    - exact (bindings_keys z_sample z Hz (Hlat _ Hi)).
    - rewrite observed_items in Hi. exact (bindings_keys _ z Hdt Hi). }
  assert (Hlk : Forall (fun z => is_rv z = true /\ valid g0 z /\ lookup sw z <> None) (latents ++ observed data)%list).
  { rewrite Forall_forall in *. intros z Hz'. destruct (Hall _ Hz') as [A B]. split; auto. split; auto.
    assert (Hi : In z (map fst (z_sample ++ rv_items data)%list)).
    { rewrite map_app. apply in_or_app. apply in_app_or in Hz'. destruct Hz' as [Hi|Hi]; [left; auto|right].
      now rewrite <- observed_items. }
    apply in_map_iff in Hi. destruct Hi as [[k q] [<- Hi]]. destruct (Hitems _ _ Hi) as [y [E _]]. simpl. congruence. }
  destruct (model_terms_ok scope s sw sw Hs _ g1 Hst2 Hd1 Hlk) as [N2 [g2 [ts [E2 [Hst3 [He2 [_ HF]]]]]]].
  pose proof (s_world _ _ _ _ Hst3) as Hw2.
  exists (N1 + N2), g2, ts. split.
  { intros fuel Hfu. unfold log_joint. rewrite E1 by lia. apply E2. lia. }
  split; [exact Hw2|]. intros gF HwF HeF V M sem st noise score.
  pose proof (rv_dict_ext _ _ _ He2 Hd1) as Hd2. pose proof (rv_dict_ext _ _ _ HeF Hd2) as HdF.
  assert (He1F : extends g1 gF) by (eapply extends_trans; eauto).
  destruct (env_exists sem st noise gF sw HwF HdF) as [env Henv]. exists env. split.
  - eapply (env_holds V M sem st noise 0 s g1 gF sw env); eauto. apply Forall_app. auto.
  - exact (sum_terms V M sem st noise score 0 sw s g2 gF sw env env _ ts Hst3 HwF HeF Hd2 Henv HdF Henv Hall HF).
Qed.

Theorem log_joint_ok : forall scope latents z_sample data,
  new_scope g0 scope -> bindings g0 z_sample -> Forall (fun kv => is_rv (snd kv) = false) z_sample ->
  bindings g0 (rv_items data) -> NoDup (map fst (z_sample ++ rv_items data)%list) -> incl latents (map fst z_sample) ->
  unrelated g0 (map fst (z_sample ++ rv_items data)%list) (map snd (rv_items data)) ->
  exists N g' terms rho,
    (forall fuel, N <= fuel -> log_joint fuel pick scope latents z_sample data g0 = (g', Ok terms)) /\
    extends g0 g' /\ new_noise g0 rho /\
    forall V M (sem : nat -> M -> list V -> V) st noise score, exists env,
      holds g0 (sampled sem st noise (fun o => noise (rho o)) g0) (z_sample ++ rv_items data)%list env /\
      (exists a, sum_is (term_is sem st score noise g') terms a) /\
      forall a, sum_is (term_is sem st score noise g') terms a <->
                sum_is (density sem st score (fun o => noise (rho o)) env g0) (latents ++ observed data)%list a.
Proof.
  intros scope latents z_sample data [s [Hs Hf]] Hz Hzr Hdt Hnd Hlat Hun.
  destruct (log_joint_at scope s latents z_sample data Hs Hf Hz Hzr Hdt Hnd Hlat Hun) as [N [g' [terms [E [Hw HM]]]]].
  exists N, g', terms, (renamed g0 0 s g'). split; auto. split; [apply (w_ext _ _ Hw)|].
  split; [apply new_noise_renamed; auto; apply (w_ext _ _ Hw)|]. exact (HM g' Hw (extends_refl g')).
Qed.

(** ** Variational inference *)

Lemma covered_new : forall s qs g, fresh_scope g s -> covered s qs g.
Proof. intros s qs g [F _] o d src ds Hd _ En. exfalso. eapply F; [eapply nth_error_In; eauto|eauto]. Qed.

Lemma state_new : forall sw s g, world g0 g -> fresh_scope g s -> rv_dict g sw -> state g0 sw s g.
Proof. intros sw s g Hw Hf Hd. apply state_fresh; auto. apply rv_dict_swap; auto. apply Hw. Qed.

(** The q terms: densities of the q at their own samples. *)
Lemma sum_qs : forall V M (sem : nat -> M -> list V -> V) st noise score k s g gF at_ env latents ts,
  state g0 [] s g -> world g0 gF -> extends g gF -> rv_dict gF at_ -> env_at sem st noise gF at_ env ->
  bindings g0 latents ->
  Forall2 (fun kv t => t_key t = fst kv /\ copy_term s g (snd kv) t /\ lookup at_ (fst kv) = Some (t_value t)) latents ts ->
  (exists a, sum_is (term_is sem st score noise gF) ts a) /\
  forall a, sum_is (term_is sem st score noise gF) ts a <->
            sum_is (fun kv => density_at sem st score (fun o => noise (renamed g0 k s gF o)) (fun _ => None) env g0
                                (fst kv) (snd kv)) latents a.
Proof.
  intros V M sem st noise score k s g gF at_ env latents ts Hst HwF He Hat Henv Hb HF. split.
  - apply sum_total. induction HF as [|kv t latents ts [H1 [H2 H3]] _ IH]; constructor.
    + inversion Hb as [|? ? [[Rz Vz] _] _]; subst. eapply (term_total sem st noise score [] s g gF _ _ t); eauto.
      destruct Hat as [Hat _]. rewrite Forall_forall in Hat. apply lookup_in in H3. now destruct (Hat _ H3) as [_ [? _]].
    + apply IH. now inversion Hb.
  - apply sum_iff. induction HF as [|kv t latents ts [H1 [H2 H3]] _ IH]; constructor.
    + intros a. inversion Hb as [|? ? [[Rz Vz] _] _]; subst.
      eapply (term_density sem st noise score k [] s g gF at_ (fun _ => None) env _ _ t); eauto; [apply rv_dict_nil|].
      intros t'. reflexivity.
    + apply IH. now inversion Hb.
Qed.

(** What one sample amounts to. *)
Definition vi_means (k : nat) (s : string) (latents data : swap) (gF : graph) (ts : list term * list term) : Prop :=
  forall V M (sem : nat -> M -> list V -> V) st noise score, exists env,
    let noise' := fun o => noise (renamed g0 k s gF o) in
    holds g0 (sampled sem st noise noise' g0) (latents ++ rv_items data)%list env /\
    (exists a, sum_is (term_is sem st score noise gF) (fst ts) a) /\
    (forall a, sum_is (term_is sem st score noise gF) (fst ts) a <->
       sum_is (fun kv => density_at sem st score noise' (fun _ => None) env g0 (fst kv) (snd kv)) latents a) /\
    (exists a, sum_is (term_is sem st score noise gF) (snd ts) a) /\
    (forall a, sum_is (term_is sem st score noise gF) (snd ts) a <->
       sum_is (density sem st score noise' env g0) (map fst latents ++ observed data)%list a).

Lemma vi_sample_at : forall k scope s latents data g, with_slash scope = Some s -> fresh_scope g s -> world g0 g ->
  bindings g0 latents -> Forall (fun kv => is_rv (snd kv) = true) latents ->
  bindings g0 (rv_items data) -> NoDup (map fst (latents ++ rv_items data)%list) ->
  unrelated g0 (map fst (latents ++ rv_items data)%list) (map snd (latents ++ rv_items data)%list) ->
  exists N g' ts, (forall fuel, N <= fuel -> vi_sample fuel pick scope latents data g = (g', Ok ts)) /\
    world g0 g' /\ extends g g' /\ adds s g g' /\
    forall gF, world g0 gF -> extends g' gF -> vi_means k s latents data gF ts.
Proof.
  intros k scope s latents data g Hs Hf Hw Hz Hzr Hdt Hnd Hun.
  rewrite map_app in Hnd. pose proof (NoDup_app_r _ _ Hnd) as Hnd2. pose proof (NoDup_app_l _ _ Hnd) as Hnd1.
  set (qs := map snd (latents ++ rv_items data)%list) in *.
  destruct (bind_data_ok scope s qs Hs data g [] (state_new _ _ _ Hw Hf (rv_dict_nil g)) (covered_new _ _ _ Hf)
     (rv_dict_nil g) Hdt Hnd2) as [N1 [g1 [sw1 [E1 [Hst1 [He1 [Ha1 [Hc1 [Hd1 [L1 L2]]]]]]]]]].
  { intros q Hq. unfold qs. rewrite map_app. apply in_or_app. auto. }
  destruct (bind_latents_ok scope s qs Hs latents g1 sw1 Hst1 Hc1 Hd1 Hz Hzr Hnd1)
    as [N2 [g2 [sw [ts [E2 [Hst2 [He2 [Ha2 [Hc2 [Hd2 [L3 [L4 HFq]]]]]]]]]]]].
  { intros q Hq. unfold qs. rewrite map_app. apply in_or_app. auto. }
  pose proof (s_world _ _ _ _ Hst2) as Hw2.
  assert (Hkeys : forall k, lookup sw k <> None -> In k (map fst (latents ++ rv_items data)%list)).
  { intros x Hx. rewrite map_app. apply in_or_app. destruct (key_dec x (map fst latents)) as [Hi|Hi]; auto. right.
    rewrite L3 in Hx by auto. destruct (key_dec x (map fst (rv_items data))) as [Hj|Hj]; auto.
    rewrite L1 in Hx by auto. now destruct Hx. }
  assert (Hitems : forall x q, In (x, q) (latents ++ rv_items data)%list -> exists y, lookup sw x = Some y /\ bound s g2 q y).
  { intros x q Hi. apply in_app_or in Hi. destruct Hi as [Hi|Hi]; [now apply L4|].
    destruct (L2 _ _ Hi) as [y [Hy Hb]]. exists y. split; [|eapply bound_ext; eauto; apply Hw2].
    rewrite L3; auto. intros Hi2. eapply NoDup_app_disjoint; eauto. apply (in_map fst) in Hi. exact Hi. }
  assert (Hst3 : state g0 sw s g2).
  { apply (swap_state s qs); auto. intros x q Hx. apply Hun. apply Hkeys. now apply dict_keys. }
  assert (Hall : Forall (fun z => is_rv z = true /\ valid g0 z) (map fst latents ++ observed data)%list).
  { rewrite Forall_forall. intros z Hz'. apply in_app_or in Hz'. destruct Hz' as [Hi|Hi].
    - exact (bindings_keys latents z Hz Hi).
    - rewrite observed_items in Hi. exact (bindings_keys _ z Hdt Hi). }
  assert (Hlk : Forall (fun z => is_rv z = true /\ valid g0 z /\ lookup sw z <> None) (map fst latents ++ observed data)%list).
  { rewrite Forall_forall in *. intros z Hz'. destruct (Hall _ Hz') as [A B]. split; auto. split; auto.
    rewrite observed_items, <- map_app in Hz'.
    apply in_map_iff in Hz'. destruct Hz' as [[x q] [<- Hi]]. destruct (Hitems _ _ Hi) as [y [E _]]. simpl. congruence. }
  destruct (model_terms_ok scope s sw sw Hs _ g2 Hst3 Hd2 Hlk) as [N3 [g3 [ps [E3 [Hst4 [He3 [Ha3 HF]]]]]]].
  pose proof (s_world _ _ _ _ Hst4) as Hw3.
  exists (N1 + N2 + N3), g3, (ts, ps). split.
  { intros fuel Hfu. unfold vi_sample. rewrite E1 by lia. rewrite E2 by lia. rewrite E3 by lia. reflexivity. }
  split; auto. split; [eapply extends_trans; [exact He1|eapply extends_trans; eauto]|].
  split; [exact (adds_trans s g g1 g3 (extends_trans _ _ _ He2 He3) Ha1 (adds_trans s g1 g2 g3 He3 Ha2 Ha3))|].
  intros gF HwF HeF V M sem st noise score.
  pose proof (rv_dict_ext _ _ _ He3 Hd2) as Hd3. pose proof (rv_dict_ext _ _ _ HeF Hd3) as HdF.
  assert (He2F : extends g2 gF) by (eapply extends_trans; eauto).
  destruct (env_exists sem st noise gF sw HwF HdF) as [env Henv]. exists env. cbv zeta. split.
  - eapply (env_holds V M sem st noise k s g2 gF sw env); eauto. apply Forall_app. auto.
  - destruct (sum_qs V M sem st noise score k s g2 gF sw env latents ts Hst2 HwF He2F HdF Henv Hz HFq) as [Q1 Q2].
    destruct (sum_terms V M sem st noise score k sw s g3 gF sw env env _ ps Hst4 HwF HeF Hd3 Henv HdF Henv Hall HF) as [P1 P2].
    split; [exact Q1|]. split; [exact Q2|]. split; [exact P1|exact P2].
Qed.

Lemma vi_samples_at : forall latents data,
  bindings g0 latents -> Forall (fun kv => is_rv (snd kv) = true) latents ->
  bindings g0 (rv_items data) -> NoDup (map fst (latents ++ rv_items data)%list) ->
  unrelated g0 (map fst (latents ++ rv_items data)%list) (map snd (latents ++ rv_items data)%list) ->
  forall scopes ss, Forall2 (fun scope s => with_slash scope = Some s) scopes ss ->
  forall j g, world g0 g -> Forall (fresh_scope g) ss -> ForallOrdPairs apart ss ->
  exists N g' tss, (forall fuel, N <= fuel -> vi_samples fuel pick scopes latents data g = (g', Ok tss)) /\
    world g0 g' /\ extends g g' /\ length tss = length scopes /\
    forall gF, world g0 gF -> extends g' gF -> forall i s ts, nth_error ss i = Some s -> nth_error tss i = Some ts ->
      vi_means ((j + i) * n0) s latents data gF ts.
Proof.
  intros latents data H1 H2 H3 H4 H5 scopes ss HF. induction HF as [|scope s scopes ss Hs _ IH]; intros j g Hw Hfr Hap.
  - exists 0, g, []. split; [reflexivity|]. split; auto. split; [apply extends_refl|]. split; auto.
    intros gF _ _ [|i] s ts Hi; discriminate.
  - inversion Hfr as [|? ? Hf Hfr']; subst. inversion Hap as [|? ? Ha Hap']; subst.
    destruct (vi_sample_at (j * n0) scope s latents data g Hs Hf Hw H1 H2 H3 H4 H5) as [N1 [g1 [ts [E1 [Hw1 [He1 [Ha1 HM1]]]]]]].
    assert (Hfr1 : Forall (fresh_scope g1) ss).
    { rewrite Forall_forall in *. intros s' Hs'. eapply (adds_fresh g g1 s' s); eauto.
      intros n n' E. exact (Ha _ Hs' n' n (eq_sym E)). }
    destruct (IH (S j) g1 Hw1 Hfr1 Hap') as [N2 [g2 [tss [E2 [Hw2 [He2 [Hlen HM2]]]]]]].
    exists (N1 + N2), g2, (ts :: tss). split.
    { intros fuel Hfu. simpl. rewrite E1 by lia. rewrite E2 by lia. reflexivity. }
    split; auto. split; [eapply extends_trans; eauto|]. split; [simpl; auto|].
    intros gF HwF HeF [|i] s' ts' Hi Ht; simpl in Hi, Ht.
    + injection Hi as <-. injection Ht as <-. rewrite Nat.add_0_r. apply HM1; auto. eapply extends_trans; eauto.
    + replace (j + S i) with (S j + i) by lia. eapply HM2; eauto.
Qed.

Lemma ordpairs_nth : forall (ss : list string), ForallOrdPairs apart ss -> forall i i' s s', i < i' ->
  nth_error ss i = Some s -> nth_error ss i' = Some s' -> apart s s'.
Proof.
  intros ss H. induction H as [|a l Ha _ IH]; intros i i' s s' Hlt Hi Hi'; [destruct i; discriminate|].
  destruct i' as [|i']; [lia|]. destruct i as [|i].
  - simpl in *. injection Hi as <-. rewrite Forall_forall in Ha. apply Ha. eapply nth_error_In; eauto.
  - simpl in *. eapply (IH i i'); eauto. lia.
Qed.

Theorem vi_samples_ok : forall scopes ss latents data,
  Forall2 (fun scope s => with_slash scope = Some s /\ fresh_scope g0 s) scopes ss -> ForallOrdPairs apart ss ->
  bindings g0 latents -> Forall (fun kv => is_rv (snd kv) = true) latents ->
  bindings g0 (rv_items data) -> NoDup (map fst (latents ++ rv_items data)%list) ->
  unrelated g0 (map fst (latents ++ rv_items data)%list) (map snd (latents ++ rv_items data)%list) ->
  exists N g' tss rho,
    (forall fuel, N <= fuel -> vi_samples fuel pick scopes latents data g0 = (g', Ok tss)) /\
    extends g0 g' /\ length tss = length scopes /\
    (forall i, i < length scopes -> new_noise g0 (rho i)) /\
    (forall i i' a b, i < length scopes -> i' < length scopes -> a < n0 -> b < n0 -> rho i a = rho i' b -> i = i' /\ a = b) /\
    forall V M (sem : nat -> M -> list V -> V) st noise score i qs ps, nth_error tss i = Some (qs, ps) ->
      exists env, let noise' := fun o => noise (rho i o) in
        holds g0 (sampled sem st noise noise' g0) (latents ++ rv_items data)%list env /\
        (exists a, sum_is (term_is sem st score noise g') qs a) /\
        (forall a, sum_is (term_is sem st score noise g') qs a <->
           sum_is (fun kv => density_at sem st score noise' (fun _ => None) env g0 (fst kv) (snd kv)) latents a) /\
        (exists a, sum_is (term_is sem st score noise g') ps a) /\
        (forall a, sum_is (term_is sem st score noise g') ps a <->
           sum_is (density sem st score noise' env g0) (map fst latents ++ observed data)%list a).
Proof.
  intros scopes ss latents data HF Hap H1 H2 H3 H4 H5.
  assert (HF1 : Forall2 (fun scope s => with_slash scope = Some s) scopes ss).
  { clear - HF. induction HF as [|? ? ? ? [? ?]]; constructor; auto. }
  assert (HF2 : Forall (fresh_scope g0) ss).
  { clear - HF. induction HF as [|? ? ? ? [? ?]]; constructor; auto. }
  assert (HL : length scopes = length ss).
  { clear - HF. induction HF; simpl; auto. }
  destruct (vi_samples_at latents data H1 H2 H3 H4 H5 scopes ss HF1 0 g0 world_refl HF2 Hap)
    as [N [g' [tss [E [Hw [He [Hlen HM]]]]]]].
  assert (Hnth : forall i, i < length scopes -> exists s, nth_error ss i = Some s /\ nth i ss "" = s /\ fresh_scope g0 s).
  { intros i Hi. rewrite HL in Hi. destruct (nth_error ss i) as [s|] eqn:Es; [|apply nth_error_None in Es; lia].
    exists s. split; auto. split; [now apply nth_error_nth|]. rewrite Forall_forall in HF2. eapply HF2, nth_error_In; eauto. }
  exists N, g', tss, (fun i => renamed g0 (i * n0) (nth i ss "") g'). split; auto. split; auto. split; auto. split; [|split].
  - intros i Hi. destruct (Hnth i Hi) as [s [_ [-> Hf]]]. now apply new_noise_renamed.
  - intros i i' a b Hi Hi' Ha Hb Eq. destruct (Hnth i Hi) as [s [Hs [Es _]]]. destruct (Hnth i' Hi') as [s' [Hs' [Es' _]]].
    rewrite Es, Es' in Eq. destruct (Nat.lt_trichotomy i i') as [Hlt|[->|Hlt]].
    + exfalso. assert (i * n0 + n0 <= i' * n0) by nia. revert Eq. apply renamed_apart; auto. eapply ordpairs_nth; eauto.
    + assert (s = s') by congruence. subst. split; auto. eapply renamed_inj; eauto.
    + exfalso. assert (i' * n0 + n0 <= i * n0) by nia. symmetry in Eq. revert Eq. apply renamed_apart; auto. eapply ordpairs_nth; eauto.
  - intros V M sem st noise score i qs ps Hi. assert (Hlt : i < length scopes) by (rewrite <- Hlen; eapply nth_lt; eauto).
    destruct (Hnth i Hlt) as [s [Hs [Es _]]]. cbv beta. rewrite Es.
    exact (HM g' Hw (extends_refl g') i s (qs, ps) Hs Hi V M sem st noise score).
Qed.

(** ** MAP *)

Lemma direct_valid : forall y, valid g0 y -> is_op y = false ->
  valid g0 (direct_value g0 y) /\ is_op (direct_value g0 y) = false /\ tensor_of g0 (direct_value g0 y) = tensor_of g0 y.
Proof.
  intros [r|t|t|t] Hv Ho; simpl; auto. unfold value_of. simpl in Hv.
  destruct (nth_error (rvs g0) r) as [d|] eqn:E; [|apply nth_error_None in E; lia]. simpl. split; auto.
  eapply rv_value_lt0; eauto.
Qed.

Lemma direct_dict : forall data sw, rv_dict g0 sw -> bindings g0 (rv_items data) -> NoDup (map fst (rv_items data)) ->
  let sw' := fold_left (fun a kv => if is_rv (fst kv) then swap_set a (fst kv) (direct_value g0 (snd kv)) else a) data sw in
  rv_dict g0 sw' /\ (forall k, ~ In k (map fst (rv_items data)) -> lookup sw' k = lookup sw k) /\
  (forall k q, In (k, q) (rv_items data) -> lookup sw' k = Some (direct_value g0 q)).
Proof.
  induction data as [|[x qx] data IH]; intros sw Hd Hb Hn; simpl.
  - split; auto. split; auto. intros k q [].
  - unfold rv_items in *. simpl in *. destruct (is_rv x) eqn:Ex; [|exact (IH sw Hd Hb Hn)].
    inversion Hb as [|? ? [[_ Vx] [Vq Oq]] Hb']; subst. inversion Hn as [|? ? Hx Hn']; subst. simpl in *.
    destruct (direct_valid qx Vq Oq) as [V1 [V2 _]].
    destruct (IH (swap_set sw x (direct_value g0 qx)) (rv_dict_set _ _ _ _ Hd Ex Vx V1 V2) Hb' Hn') as [A [B C]].
    split; auto. split.
    + intros k Hk. rewrite B by tauto. apply lookup_set_other. intros ->. apply Hk. now left.
    + intros k q [E|Hi]; [|auto]. injection E as <- <-. rewrite B by auto. apply lookup_set_same.
Qed.

Theorem map_loss_ok : forall scope latents data,
  new_scope g0 scope -> bindings g0 latents -> bindings g0 (rv_items data) ->
  NoDup (map fst (latents ++ rv_items data)%list) ->
  exists N g' terms rho,
    (forall fuel, N <= fuel -> map_loss fuel pick scope latents data g0 = (g', Ok terms)) /\
    extends g0 g' /\ new_noise g0 rho /\
    forall V M (sem : nat -> M -> list V -> V) st noise score, exists env,
      holds g0 (given sem st noise g0) (latents ++ rv_items data)%list env /\
      (exists a, sum_is (term_is sem st score noise g') terms a) /\
      forall a, sum_is (term_is sem st score noise g') terms a <->
                sum_is (density sem st score (fun o => noise (rho o)) env g0) (map fst latents ++ observed data)%list a.
Proof.
  intros scope latents data [s [Hs Hf]] Hz Hdt Hnd.
  rewrite map_app in Hnd. pose proof (NoDup_app_r _ _ Hnd) as Hnd2. pose proof (NoDup_app_l _ _ Hnd) as Hnd1.
  assert (Hz0 : rv_dict g0 (map (fun kv => (fst kv, direct_value g0 (snd kv))) latents)).
  { split.
    - unfold bindings in Hz. rewrite Forall_forall in *. intros kv Hi. apply in_map_iff in Hi. destruct Hi as [[x q] [<- Hi]].
      destruct (Hz _ Hi) as [A [B C]]. simpl in *. destruct (direct_valid q B C) as [D [E _]]. auto.
    - rewrite map_map. exact Hnd1. }
  destruct (direct_dict data _ Hz0 Hdt Hnd2) as [Hd [L1 L2]].
  set (sw := fold_left _ data _) in *.
  assert (Hlz : forall k q, In (k, q) latents -> lookup sw k = Some (direct_value g0 q)).
  { intros k q Hi. rewrite L1.
    - apply in_lookup; [rewrite map_map; exact Hnd1|]. apply in_map_iff. exists (k, q). auto.
    - intros Hi2. eapply NoDup_app_disjoint; eauto. apply (in_map fst) in Hi. exact Hi. }
  assert (Hitems : forall k q, In (k, q) (latents ++ rv_items data)%list -> lookup sw k = Some (direct_value g0 q)).
  { intros k q Hi. apply in_app_or in Hi. destruct Hi; auto. }
  assert (Hkeys : forall k, lookup sw k <> None -> In k (map fst (latents ++ rv_items data)%list)).
  { intros k Hk. rewrite map_app. apply in_or_app. destruct (key_dec k (map fst (rv_items data))) as [Hi|Hi]; auto.
    left. rewrite L1 in Hk by auto. apply dict_keys in Hk. rewrite map_map in Hk. exact Hk. }
  assert (Hall : Forall (fun z => is_rv z = true /\ valid g0 z) (map fst latents ++ observed data)%list).
  { rewrite Forall_forall. intros z Hz'. apply in_app_or in Hz'. destruct Hz' as [Hi|Hi].
    - exact (bindings_keys latents z Hz Hi).
    - rewrite observed_items in Hi. exact (bindings_keys _ z Hdt Hi). }
  assert (Hlk : Forall (fun z => is_rv z = true /\ valid g0 z /\ lookup sw z <> None) (map fst latents ++ observed data)%list).
  { rewrite Forall_forall in *. intros z Hz'. destruct (Hall _ Hz') as [A B]. split; auto. split; auto.
    rewrite observed_items, <- map_app in Hz'.
    apply in_map_iff in Hz'. destruct Hz' as [[x q] [<- Hi]]. simpl. rewrite (Hitems _ _ Hi). discriminate. }
  destruct (model_terms_ok scope s sw sw Hs _ g0 (state_new sw s g0 world_refl Hf Hd) Hd Hlk) as [N [g2 [ts [E [Hst [He [_ HF]]]]]]].
  pose proof (s_world _ _ _ _ Hst) as Hw. pose proof (rv_dict_ext _ _ _ He Hd) as Hd2.
  exists N, g2, ts, (renamed g0 0 s g2). split; [exact E|]. split; auto. split; [now apply new_noise_renamed|].
  intros V M sem st noise score. destruct (env_exists sem st noise g2 sw Hw Hd2) as [env Henv]. exists env. split; [split|].
  - intros k q Hi. pose proof (Hitems _ _ Hi) as Hl.
    assert (Hbi : bindings g0 (latents ++ rv_items data)%list) by (apply Forall_app; auto).
    unfold bindings in Hbi. rewrite Forall_forall in Hbi. destruct (Hbi _ Hi) as [[Rk Vk] [Vq Oq]]. simpl in Rk, Vk, Vq, Oq.
    destruct (rv_tensor g2 k He Rk Vk) as [r [d [-> [Hr [-> _]]]]].
    destruct (direct_valid q Vq Oq) as [V1 [_ V3]].
    destruct (ev_total sem st noise g0 h Hwf Hac (tensor_of g0 q) (valid_lt _ _ Hwf Vq)) as [v Hv].
    exists v. split; [|exact Hv]. apply (env_lookup sem st noise g2 sw env r d _ He Hd2 Henv Hr Hl).
    rewrite (tensor_extends g0 g2 _ He V1), V3.
    exact (proj2 (ev_later g0 sem st noise g0 g2 _ v world_refl He (valid_lt _ _ Hwf Vq)) Hv).
  - intros t Ht. destruct (env_some sem st noise g2 sw env t He Hd2 Henv Ht) as [r [d [y [Hr [-> Hl]]]]].
    assert (Hi : In (XRV r) (map fst (latents ++ rv_items data)%list)) by (apply Hkeys; congruence). apply in_map_iff in Hi.
    destruct Hi as [[k q] [Ek Hi]]. simpl in Ek. subst. exists (XRV r), q. split; auto. simpl. now rewrite Hr.
  - exact (sum_terms V M sem st noise score 0 sw s g2 g2 sw env env _ ts Hst Hw (extends_refl g2) Hd2 Henv Hd2 Henv Hall HF).
Qed.

(** ** Metropolis-Hastings *)

(** A new sample: the keys of the proposals at copies of the proposals. *)
Definition proposed (s : string) (g : graph) (p y : elem) : Prop :=
  exists j dp r' d', p = XRV j /\ nth_error (rvs g0) j = Some dp /\ rv_named g (s ++ rname dp) = Some r' /\
    nth_error (rvs g) r' = Some d' /\ y = XT (rvalue d').

Lemma proposed_ext : forall s g g' p y, extends g g' -> wf g' -> proposed s g p y -> proposed s g' p y.
Proof.
  intros s g g' p y He Hw [j [dp [r' [d' [H0 [H1 [H2 [H3 H4]]]]]]]].
  exists j, dp, r', d'. split; auto. split; auto. split; [eapply rv_named_ext; eauto|]. split; auto. now apply He.
Qed.

Lemma propose_ok : forall scope s sw, with_slash scope = Some s -> forall proposals g new,
  state g0 sw s g -> rv_dict g sw -> rv_dict g new -> bindings g0 proposals ->
  Forall (fun kv => is_rv (snd kv) = true) proposals -> NoDup (map fst proposals) ->
  exists N g' new' ts, (forall fuel, N <= fuel -> propose fuel pick scope sw g proposals new = (g', Ok (new', ts))) /\
    state g0 sw s g' /\ extends g g' /\ adds s g g' /\ rv_dict g' new' /\
    (forall k, ~ In k (map fst proposals) -> lookup new' k = lookup new k) /\
    (forall k p, In (k, p) proposals -> exists y, lookup new' k = Some y /\ proposed s g' p y) /\
    Forall2 (fun kv t => t_key t = fst kv /\ copy_term s g' (snd kv) t /\ lookup new' (fst kv) = Some (t_value t)) proposals ts.
Proof.
  intros scope s sw Hs. induction proposals as [|[x qx] data IH]; intros g new Hst Hsw Hd Hb Hrv Hn.
  - exists 0, g, new, []. split; [reflexivity|]. split; auto. split; [apply extends_refl|]. split; [apply adds_refl|].
    split; auto. split; auto. split; [intros k q []|constructor].
  - simpl propose. simpl map in *. inversion Hb as [|? ? [[Ex Vx] [Vq Oq]] Hb']; subst.
    inversion Hn as [|? ? Hx Hn']; subst. inversion Hrv as [|? ? Eq Hrv']; subst. simpl in Ex, Vx, Vq, Oq, Eq.
    destruct qx as [q|t|t|t]; try discriminate. simpl in Vq.
    destruct (nth_error (rvs g0) q) as [dq|] eqn:Edq; [|apply nth_error_None in Edq; lia].
    destruct (copy_rv_ok sw scope s g q dq Hs Hst Hsw Edq)
      as [N1 [g1 [r' [d' [E1 [Hst1 [He1 [Ha1 [_ [Hnm1 Hd1]]]]]]]]]].
    assert (Hw1 : wf g1) by apply (w_wf _ _ (s_world _ _ _ _ Hst1)).
    assert (Hdd1 : rv_dict g1 (swap_set new x (XT (rvalue d')))).
    { apply rv_dict_set; auto; [eapply rv_dict_ext; eauto|eapply value_valid; eauto]. }
    destruct (IH g1 _ Hst1 (rv_dict_ext _ _ _ He1 Hsw) Hdd1 Hb' Hrv' Hn') as [N2 [g2 [sw2 [ts [E2 [Hst2 [He2 [Ha2 [Hd2 [L1 [L2 L3]]]]]]]]]]].
    assert (Hw2 : wf g2) by apply (w_wf _ _ (s_world _ _ _ _ Hst2)).
    exists (N1 + N2), g2, sw2, (mkterm x r' (XT (rvalue d')) :: ts). split.
    { intros fuel Hf. rewrite E1 by lia. unfold value_of. rewrite Hd1. simpl. rewrite E2 by lia. reflexivity. }
    assert (Lx : lookup sw2 x = Some (XT (rvalue d'))) by (rewrite L1 by auto; apply lookup_set_same).
    split; auto. split; [eapply extends_trans; eauto|]. split; [eapply adds_trans; eauto|]. split; auto.
    split; [|split].
    + intros k Hk. rewrite L1 by (intros Hin; apply Hk; right; exact Hin). apply lookup_set_other. intros ->. apply Hk. now left.
    + intros k q0 [E|Hi]; [|eauto]. injection E as <- <-. exists (XT (rvalue d')).
      split; auto. eapply proposed_ext; eauto. exists q, dq, r', d'. auto.
    + constructor; auto. simpl. split; auto. split; auto. exists q, dq. split; auto. split; auto.
      eapply rv_named_ext; eauto.
Qed.

Lemma reverse_ok : forall scope s sw at_, with_slash scope = Some s -> forall proposals g,
  state g0 sw s g -> rv_dict g sw -> bindings g0 proposals ->
  Forall (fun kv => is_rv (snd kv) = true /\ lookup at_ (fst kv) <> None) proposals ->
  exists N g' ts, (forall fuel, N <= fuel -> reverse fuel pick scope sw at_ g proposals = (g', Ok ts)) /\
    state g0 sw s g' /\ extends g g' /\ adds s g g' /\
    Forall2 (fun kv t => t_key t = fst kv /\ copy_term s g' (snd kv) t /\ lookup at_ (fst kv) = Some (t_value t)) proposals ts.
Proof.
  intros scope s sw at_ Hs. induction proposals as [|[x qx] data IH]; intros g Hst Hsw Hb Hrv.
  - exists 0, g, []. split; [reflexivity|]. split; auto. split; [apply extends_refl|]. split; [apply adds_refl|constructor].
  - simpl reverse. inversion Hb as [|? ? [[Ex Vx] [Vq Oq]] Hb']; subst.
    inversion Hrv as [|? ? [Eq Lz] Hrv']; subst. simpl in Ex, Vx, Vq, Oq, Eq, Lz.
    destruct qx as [q|t|t|t]; try discriminate. simpl in Vq.
    destruct (nth_error (rvs g0) q) as [dq|] eqn:Edq; [|apply nth_error_None in Edq; lia].
    destruct (copy_rv_ok sw scope s g q dq Hs Hst Hsw Edq)
      as [N1 [g1 [r' [d' [E1 [Hst1 [He1 [Ha1 [_ [Hnm1 Hd1]]]]]]]]]].
    destruct (IH g1 Hst1 (rv_dict_ext _ _ _ He1 Hsw) Hb' Hrv') as [N2 [g2 [ts [E2 [Hst2 [He2 [Ha2 L3]]]]]]].
    destruct (lookup at_ x) as [y|] eqn:Ey; [|congruence].
    assert (Hw2 : wf g2) by apply (w_wf _ _ (s_world _ _ _ _ Hst2)).
    exists (N1 + N2), g2, (mkterm x r' y :: ts). split.
    { intros fuel Hf. rewrite E1 by lia. rewrite E2 by lia. reflexivity. }
    split; auto. split; [eapply extends_trans; eauto|]. split; [eapply adds_trans; eauto|].
    constructor; auto. simpl. split; auto. split; auto. exists q, dq. split; auto. split; auto.
    eapply rv_named_ext; eauto.
Qed.

Lemma both_terms_ok : forall cn co sn so swn swo atn ato, with_slash cn = Some sn -> with_slash co = Some so ->
  apart sn so -> forall keys g,
  state g0 swn sn g -> rv_dict g swn -> state g0 swo so g -> rv_dict g swo ->
  Forall (fun z => is_rv z = true /\ valid g0 z /\ lookup atn z <> None /\ lookup ato z <> None) keys ->
  exists N g' ts, (forall fuel, N <= fuel -> both_terms fuel pick cn co swn swo atn ato g keys = (g', Ok ts)) /\
    state g0 swn sn g' /\ state g0 swo so g' /\ extends g g' /\
    Forall2 (fun z t => t_key t = z /\ copy_term sn g' z t /\ lookup atn z = Some (t_value t)) keys (map fst ts) /\
    Forall2 (fun z t => t_key t = z /\ copy_term so g' z t /\ lookup ato z = Some (t_value t)) keys (map snd ts).
Proof.
  intros cn co sn so swn swo atn ato Hn Ho Hap. induction keys as [|z keys IH]; intros g Hstn Hdn Hsto Hdo Hk.
  - exists 0, g, []. split; [reflexivity|]. split; auto. split; auto. split; [apply extends_refl|]. split; constructor.
  - inversion Hk as [|? ? [Rz [Vz [Lz Lz']]] Hk']; subst. destruct z as [r|t|t|t]; try discriminate. simpl in Vz.
    destruct (nth_error (rvs g0) r) as [d|] eqn:Ed; [|apply nth_error_None in Ed; lia].
    destruct (copy_rv_ok swn cn sn g r d Hn Hstn Hdn Ed) as [N1 [g1 [r1 [d1 [E1 [Hst1 [He1 [Ha1 [_ [Hnm1 _]]]]]]]]]].
    assert (Hsto1 : state g0 swo so g1).
    { eapply state_foreign; [exact Hsto|apply Hst1|exact He1|]. eapply adds_foreign; [|exact Ha1].
      intros n n' E. exact (Hap n' n (eq_sym E)). }
    destruct (copy_rv_ok swo co so g1 r d Ho Hsto1 (rv_dict_ext _ _ _ He1 Hdo) Ed)
      as [N2 [g2 [r2 [d2 [E2 [Hst2 [He2 [Ha2 [_ [Hnm2 _]]]]]]]]]].
    assert (Hstn2 : state g0 swn sn g2).
    { eapply state_foreign; [exact Hst1|apply Hst2|exact He2|]. eapply adds_foreign; [|exact Ha2]. exact Hap. }
    assert (He12 : extends g g2) by (eapply extends_trans; eauto).
    destruct (IH g2 Hstn2 (rv_dict_ext _ _ _ He12 Hdn) Hst2 (rv_dict_ext _ _ _ He12 Hdo) Hk')
      as [N3 [g3 [ts [E3 [Hstn3 [Hsto3 [He3 [F1 F2]]]]]]]].
    assert (Hw3 : wf g3) by apply (w_wf _ _ (s_world _ _ _ _ Hstn3)).
    destruct (lookup atn (XRV r)) as [y|] eqn:Ey; [|congruence].
    destruct (lookup ato (XRV r)) as [y'|] eqn:Ey'; [|congruence].
    exists (N1 + N2 + N3), g3, ((mkterm (XRV r) r1 y, mkterm (XRV r) r2 y') :: ts). split.
    { intros fuel Hf. simpl. rewrite E1 by lia. rewrite E2 by lia. rewrite Ey, Ey'. rewrite E3 by lia. reflexivity. }
    split; auto. split; auto. split; [eapply extends_trans; eauto|].
    split; constructor; auto; (split; [reflexivity|]); (split; [|auto]); exists r, d; split; auto; split; auto; simpl.
    + eapply rv_named_ext; [|exact Hw3|exact Hnm1]. eapply extends_trans; eauto.
    + eapply rv_named_ext; [|exact Hw3|exact Hnm2]. auto.
Qed.

(** The value of a proposal is a draw. *)
Lemma proposed_draw : forall V M (sem : nat -> M -> list V -> V) st noise k sw s g gF env p y,
  state g0 sw s g -> world g0 gF -> extends g gF -> rv_dict g sw -> env_at sem st noise gF sw env ->
  proposed s g p y ->
  forall v, ev sem st noise gF (tensor_of gF y) v <-> draw sem st (fun o => noise (renamed g0 k s gF o)) env g0 p v.
Proof.
  intros V M sem st noise k sw s g gF env p y Hst HwF He Hd Henv [j [dp [r' [d' [-> [Hj [Hnm [Hd' ->]]]]]]]] v. simpl.
  destruct (copied_rv g0 Hwf sw s g j dp r' Hst Hj Hnm) as [d2 [Hd2 [_ [Hni _]]]].
  assert (d2 = d') by congruence. subst.
  rewrite (ev_node g0 h Hac sem st noise k sw s g gF _ _ v Hst HwF He Hni).
  pose proof (env_earlier sem st noise g gF sw env (s_world _ _ _ _ Hst) He Hd Henv) as Hg.
  destruct (rv_ok0 g0 Hwf _ _ Hj) as [_ Hop].
  pose proof (proj1 (w_ext _ _ (s_world _ _ _ _ Hst)) _ _ Hop) as Hopg.
  pose proof (sevs_held sem st noise g sw env (fun o => noise (renamed g0 k s gF o)) (s_world _ _ _ _ Hst) Hg) as Hh.
  split.
  - intros E. inversion E as [o d0 H1 H2|o d0 ty vs H1 H2 H3]; subst.
    + rewrite Hopg in H1. injection H1 as <-. discriminate.
    + rewrite Hopg in H1. injection H1 as <-. simpl in H2, H3. injection H2 as <-.
      exists j, dp, vs. split; auto. split; auto. split; auto. apply Hh; auto. eapply args_lt; eauto.
  - intros [j' [dp' [vs [E1 [E2 [E3 ->]]]]]]. injection E1 as <-. assert (dp' = dp) by congruence. subst.
    refine (sev_op sem st noise _ g sw (rvalue dp) _ (rclass dp) vs Hopg eq_refl _). simpl.
    apply Hh; auto. eapply args_lt; eauto.
Qed.

Lemma sum_pairs : forall V M (sem : nat -> M -> list V -> V) st noise score g l a,
  sum_is (pair_is sem st score noise g) l a <->
  exists x y, sum_is (term_is sem st score noise g) (map fst l) x /\ sum_is (term_is sem st score noise g) (map snd l) y /\
    a = (x - y)%R.
Proof.
  intros V M sem st noise score g. induction l as [|p l IH]; intros a; split.
  - intros E. inversion E; subst. exists 0%R, 0%R. split; [constructor|]. split; [constructor|]. ring.
  - intros [x [y [E1 [E2 ->]]]]. inversion E1; inversion E2; subst. replace (0 - 0)%R with 0%R by ring. constructor.
  - intros E. inversion E as [|? ? b c H0 H3]; subst. destruct H0 as [u [w [H1 [H2 ->]]]]. apply IH in H3. destruct H3 as [u' [w' [H3 [H4 ->]]]].
    exists (u + u')%R, (w + w')%R. split; [constructor; auto|]. split; [constructor; auto|]. ring.
  - intros [x [y [E1 [E2 ->]]]]. inversion E1; inversion E2; subst.
    match goal with |- sum_is _ _ (?a + ?b - (?c + ?d))%R => replace (a + b - (c + d))%R with ((a - c) + (b - d))%R by ring end.
    constructor; [unfold pair_is; eauto 6|]. apply IH. eauto 6.
Qed.

Lemma sum_is_app : forall A (P : A -> R -> Prop) l l' a,
  sum_is P (l ++ l')%list a <-> exists x y, sum_is P l x /\ sum_is P l' y /\ a = (x + y)%R.
Proof.
  intros A P. induction l as [|b l IH]; intros l' a; simpl; split.
  - intros E. exists 0%R, a. split; [constructor|]. split; auto. ring.
  - intros [x [y [E1 [E2 ->]]]]. inversion E1; subst. now rewrite Rplus_0_l.
  - intros E. inversion E as [|? ? b' c H1 H2]; subst. apply IH in H2. destruct H2 as [u [w [H2 [H3 ->]]]].
    exists (b' + u)%R, w. split; [constructor; auto|]. split; auto. ring.
  - intros [x [y [E1 [E2 ->]]]]. inversion E1; subst. rewrite Rplus_assoc. constructor; auto. apply IH. eauto.
Qed.

(** The proposal terms. *)
Lemma sum_props : forall V M (sem : nat -> M -> list V -> V) st noise score k sw s g gF at_ env env' props ts,
  state g0 sw s g -> world g0 gF -> extends g gF -> rv_dict g sw -> env_at sem st noise gF sw env ->
  rv_dict gF at_ -> env_at sem st noise gF at_ env' -> bindings g0 props ->
  Forall2 (fun kv t => t_key t = fst kv /\ copy_term s g (snd kv) t /\ lookup at_ (fst kv) = Some (t_value t)) props ts ->
  (exists a, sum_is (term_is sem st score noise gF) ts a) /\
  forall a, sum_is (term_is sem st score noise gF) ts a <->
            sum_is (fun kv => density_at sem st score (fun o => noise (renamed g0 k s gF o)) env env' g0 (fst kv) (snd kv)) props a.
Proof.
  intros V M sem st noise score k sw s g gF at_ env env' props ts Hst HwF He Hd Henv Hat Henv' Hb HF. split.
  - apply sum_total. induction HF as [|kv t props ts [H1 [H2 H3]] _ IH]; constructor.
    + inversion Hb as [|? ? [[Rz Vz] _] _]; subst. eapply (term_total sem st noise score sw s g gF _ _ t); eauto.
      destruct Hat as [Hat _]. rewrite Forall_forall in Hat. apply lookup_in in H3. now destruct (Hat _ H3) as [_ [? _]].
    + apply IH. now inversion Hb.
  - apply sum_iff. induction HF as [|kv t props ts [H1 [H2 H3]] _ IH]; constructor.
    + intros a. inversion Hb as [|? ? [[Rz Vz] _] _]; subst.
      eapply (term_density sem st noise score k sw s g gF at_ env env' _ _ t); eauto.
    + apply IH. now inversion Hb.
Qed.

Lemma forall2_impl : forall A B (P Q : A -> B -> Prop) l l', (forall a b, P a b -> Q a b) -> Forall2 P l l' -> Forall2 Q l l'.
Proof. intros A B P Q l l' H HF. induction HF; constructor; auto. Qed.
Lemma forall2_in : forall A B (P Q : A -> B -> Prop) l l', (forall a b, In a l -> P a b -> Q a b) -> Forall2 P l l' -> Forall2 Q l l'.
Proof.
  intros A B P Q l l' H HF. induction HF as [|a b l l' Hab HF IH]; constructor; [apply H; auto; now left|].
  apply IH. intros x y Hx. apply H. now right.
Qed.

(** The ratio as four sums. *)
Definition sums_are {V M} (sem : nat -> M -> list V -> V) st score noise g (r : ratio) (a : R) : Prop :=
  exists pn po qf qr, sum_is (term_is sem st score noise g) (map fst (r_latent r ++ r_data r)%list) pn /\
    sum_is (term_is sem st score noise g) (map snd (r_latent r ++ r_data r)%list) po /\
    sum_is (term_is sem st score noise g) (r_propose r) qf /\ sum_is (term_is sem st score noise g) (r_reverse r) qr /\
    a = (pn - po - qf + qr)%R.
Lemma ratio_sums_at : forall V M (sem : nat -> M -> list V -> V) st noise score g r a,
  ratio_is sem st score noise g r a <-> sums_are sem st score noise g r a.
Proof.
  intros V M sem st noise score g r a. unfold ratio_is, sums_are. split.
  - intros [f [b [l [d [H1 [H2 [H3 [H4 ->]]]]]]]]. apply sum_pairs in H3. apply sum_pairs in H4.
    destruct H3 as [x [y [A1 [A2 ->]]]]. destruct H4 as [x' [y' [B1 [B2 ->]]]].
    exists (x + x')%R, (y + y')%R, f, b. rewrite !map_app, !sum_is_app.
    split; [eauto 6|]. split; [eauto 6|]. split; auto. split; auto. ring.
  - intros [pn [po [qf [qr [H1 [H2 [H3 [H4 ->]]]]]]]]. rewrite map_app, sum_is_app in H1, H2.
    destruct H1 as [x [x' [A1 [A2 ->]]]]. destruct H2 as [y [y' [B1 [B2 ->]]]].
    exists qf, qr, (x - y)%R, (x' - y')%R. split; auto. split; auto. rewrite !sum_pairs.
    split; [eauto 6|]. split; [eauto 6|]. ring.
Qed.

(** The scope of the data does not matter if no data are random. *)
Lemma bind_data_scope : forall fuel pk scope scope' data g sw, constant_data data ->
  bind_data fuel pk scope g data sw = bind_data fuel pk scope' g data sw.
Proof.
  intros fuel pk scope scope'. induction data as [|[x q] data IH]; intros g sw H; [reflexivity|].
  unfold constant_data, rv_items in *. simpl in *. destruct (is_rv x) eqn:Ex; [|now apply IH].
  inversion H as [|? ? Hq Hd]; subst. simpl in Hq. rewrite Hq. now apply IH.
Qed.

Fixpoint xs (n : nat) : string := match n with 0 => "/" | S n' => String (Ascii.ascii_of_nat 120) (xs n') end.
Lemma xs_length : forall n, String.length (xs n) = S n.
Proof. induction n; simpl; auto. Qed.
Lemma xs_last : forall n, String.get n (xs n) = Some (Ascii.ascii_of_nat 47).
Proof. induction n; simpl; auto. Qed.
Lemma xs_slash : forall n, with_slash (xs n) = Some (xs n).
Proof. intros n. unfold with_slash. rewrite xs_length. simpl. rewrite Nat.sub_0_r, xs_last. reflexivity. Qed.
Lemma app_len : forall a b, String.length (a ++ b) = String.length a + String.length b.
Proof. induction a; intros b; simpl; auto. Qed.

Lemma slash_last : forall scope s, with_slash scope = Some s -> exists p, s = p ++ "/".
Proof.
  intros scope s. unfold with_slash. destruct (String.get _ scope) as [c|] eqn:E; [|discriminate].
  match goal with |- context [Ascii.eqb c ?x] => destruct (Ascii.eqb c x) eqn:Ec end; intros H; injection H as <-; [|eauto]. apply Ascii.eqb_eq in Ec. subst c.
  revert E. induction scope as [|c scope IH]; simpl; [discriminate|]. rewrite Nat.sub_0_r. intros E.
  destruct scope as [|c' scope]; simpl in *.
  - injection E as ->. exists "". reflexivity.
  - rewrite Nat.sub_0_r in IH. destruct (IH E) as [p Hp]. exists (String c p). simpl. now rewrite Hp.
Qed.
Lemma xs_apart : forall n p m m', String.length p < n -> xs n ++ m <> (p ++ "/") ++ m'.
Proof.
  induction n as [|n IH]; intros p m m' Hp E; [lia|]. destruct p as [|c p]; simpl in *; [discriminate|].
  injection E as _ E. eapply IH; [|exact E]. lia.
Qed.
Lemma list_bound : forall (l : list string), exists n, forall x, In x l -> String.length x < n.
Proof.
  induction l as [|x l [n Hn]]; [exists 0; intros x []|]. exists (n + S (String.length x)). intros y [<-|Hy]; [lia|].
  apply Hn in Hy. lia.
Qed.

(** There is always a scope that nothing has a name in. *)
Lemma scope_exists : forall ss, Forall (fun s => exists scope, with_slash scope = Some s) ss ->
  exists c, with_slash c = Some c /\ fresh_scope g0 c /\ Forall (apart c) ss.
Proof.
  intros ss Hss. destruct (list_bound (ss ++ map oname (ops g0) ++ map rname (rvs g0))%list) as [n Hn].
  exists (xs n). split; [apply xs_slash|]. split.
  - split; intros d m Hd E.
    + assert (Hl : String.length (oname d) < n) by (apply Hn; rewrite !in_app_iff; right; left; now apply in_map).
      rewrite E, app_len, xs_length in Hl. lia.
    + assert (Hl : String.length (rname d) < n) by (apply Hn; rewrite !in_app_iff; right; right; now apply in_map).
      rewrite E, app_len, xs_length in Hl. lia.
  - rewrite Forall_forall in *. intros s Hs. destruct (Hss s Hs) as [scope Hsc]. apply slash_last in Hsc. destruct Hsc as [p ->].
    intros m m'. apply xs_apart. assert (Hl : String.length (p ++ "/") < n) by (apply Hn; rewrite in_app_iff; auto).
    rewrite app_len in Hl. simpl in Hl. lia.
Qed.

Lemma mh_ratio_in_ok : forall cond sc base so sn latents old proposals data, with_slash cond = Some sc ->
  with_slash (base ++ "old") = Some so -> with_slash (base ++ "new") = Some sn ->
  fresh_scope g0 sc -> fresh_scope g0 so -> fresh_scope g0 sn ->
  apart sc so -> apart sc sn -> apart so sn ->
  bindings g0 old -> bindings g0 (rv_items data) -> NoDup (map fst (old ++ rv_items data)%list) ->
  bindings g0 proposals -> Forall (fun kv => is_rv (snd kv) = true) proposals -> NoDup (map fst proposals) ->
  incl (map fst proposals) (map fst old) -> incl latents (map fst old) ->
  exists N g' r rho_c rho_o rho_n,
    (forall fuel, N <= fuel -> mh_ratio_in fuel pick cond base latents old proposals data g0 = (g', Ok r)) /\
    extends g0 g' /\ new_noise g0 rho_c /\ new_noise g0 rho_o /\ new_noise g0 rho_n /\
    (forall a b, a < n0 -> b < n0 -> rho_c a <> rho_o b /\ rho_c a <> rho_n b /\ rho_o a <> rho_n b) /\
    forall V M (sem : nat -> M -> list V -> V) st noise score, exists env_old env_new,
      let noise_o := fun o => noise (rho_o o) in let noise_n := fun o => noise (rho_n o) in
      mh_states sem st noise (fun o => noise (rho_c o)) noise_o g0 old proposals data env_old env_new /\
      (forall k, In k (map fst old) -> exists y v, lookup (r_new r) k = Some y /\ env_new (tensor_of g0 k) = Some v /\
         given sem st noise g' y v) /\
      (exists a, ratio_is sem st score noise g' r a) /\
      (forall a, ratio_is sem st score noise g' r a <-> exists pn po qf qr,
         sum_is (density sem st score noise_n env_new g0) (latents ++ observed data)%list pn /\
         sum_is (density sem st score noise_o env_old g0) (latents ++ observed data)%list po /\
         sum_is (fun kv => density_at sem st score noise_o env_old env_new g0 (fst kv) (snd kv)) proposals qf /\
         sum_is (fun kv => density_at sem st score noise_n env_new env_old g0 (fst kv) (snd kv)) proposals qr /\
         a = (pn - po - qf + qr)%R).
Proof.
  intros cond sc base so sn latents old proposals data Hsc Hso Hsn Hfc Hfo Hfn Aco Acn Aon Hold Hdt Hnd Hpb Hprv Hpn Hpo Hlat.
  pose proof Hnd as Hnd0. rewrite map_app in Hnd. pose proof (NoDup_app_r _ _ Hnd) as Hnd2. pose proof (NoDup_app_l _ _ Hnd) as Hnd1.
  destruct (bind_data_ok cond sc (map snd (rv_items data)) Hsc data g0 [] (state_new _ _ _ world_refl Hfc (rv_dict_nil g0))
     (covered_new _ _ _ Hfc) (rv_dict_nil g0) Hdt Hnd2 (incl_refl _)) as [N1 [g1 [sw [E1 [Hst1 [He1 [Ha1 [_ [Hd1 [L1 L2]]]]]]]]]].
  pose proof (s_world _ _ _ _ Hst1) as Hw1.
  pose proof (rv_dict_ext _ _ _ He1 (bindings_dict old Hold Hnd1)) as Hold1.
  set (sw_old := swap_update sw old).
  assert (Hswo1 : rv_dict g1 sw_old) by (apply rv_dict_update; auto).
  assert (Rco : apart so sc) by (intros n n' E; exact (Aco n' n (eq_sym E))).
  assert (Rcn : apart sn sc) by (intros n n' E; exact (Acn n' n (eq_sym E))).
  assert (Rno : apart sn so) by (intros n n' E; exact (Aon n' n (eq_sym E))).
  assert (Hsto1 : state g0 sw_old so g1) by (apply state_new; auto; eapply (adds_fresh g0 g1 so sc); eauto).
  destruct (propose_ok (base ++ "old") so sw_old Hso proposals g1 old Hsto1 Hswo1 Hold1 Hpb Hprv Hpn)
    as [N2 [g2 [new [pt [E2 [Hsto2 [He2 [Ha2 [Hnew2 [M1 [M2 M3]]]]]]]]]]].
  pose proof (s_world _ _ _ _ Hsto2) as Hw2.
  set (sw_new := swap_update sw new).
  assert (Hswn2 : rv_dict g2 sw_new) by (apply rv_dict_update; auto; eapply rv_dict_ext; eauto).
  assert (Hstn2 : state g0 sw_new sn g2).
  { apply state_new; auto. eapply (adds_fresh g1 g2 sn so); eauto. eapply (adds_fresh g0 g1 sn sc); eauto. }
  (* dictionaries *)
  assert (Lold : forall k y, lookup old k = Some y -> lookup sw_old k = Some y).
  { intros k y Hk. unfold sw_old. rewrite update_lookup by auto. now rewrite Hk. }
  assert (Ldat : forall k, ~ In k (map fst old) -> lookup sw_old k = lookup sw k).
  { intros k Hk. unfold sw_old. rewrite update_lookup by auto. now rewrite lookup_none. }
  assert (Nkey : forall k, lookup new k <> None <-> In k (map fst old)).
  { intros k. destruct (key_dec k (map fst proposals)) as [Hi|Hi].
    - split; auto. intros _. apply in_map_iff in Hi. destruct Hi as [[z p] [<- Hi]]. simpl. destruct (M2 _ _ Hi) as [y [-> _]]. discriminate.
    - rewrite M1 by auto. split; [apply dict_keys|]. intros Hk. apply lookup_some_key in Hk. destruct Hk as [y ->]. discriminate. }
  assert (NnewD : NoDup (map fst new)) by apply Hnew2.
  assert (Lnew : forall k y, lookup new k = Some y -> lookup sw_new k = Some y).
  { intros k y Hk. unfold sw_new. rewrite update_lookup by auto. now rewrite Hk. }
  assert (Lndat : forall k, ~ In k (map fst old) -> lookup sw_new k = lookup sw k).
  { intros k Hk. unfold sw_new. rewrite update_lookup by auto. destruct (lookup new k) eqn:E; auto.
    exfalso. apply Hk. apply Nkey. congruence. }
  assert (Hdo : forall k, In k (observed data) -> ~ In k (map fst old)).
  { intros k Hk Hi. rewrite observed_items in Hk. eapply NoDup_app_disjoint; eauto. }
  assert (Lsw : forall k, lookup sw k <> None -> In k (observed data)).
  { intros k Hk. rewrite observed_items. destruct (key_dec k (map fst (rv_items data))) as [Hi|Hi]; auto.
    rewrite L1 in Hk by auto. now destruct Hk. }
  assert (Lsw2 : forall k, In k (observed data) -> lookup sw k <> None).
  { intros k Hk. rewrite observed_items in Hk. apply in_map_iff in Hk. destruct Hk as [[x q] [<- Hi]]. simpl.
    destruct (L2 _ _ Hi) as [y [-> _]]. discriminate. }
  assert (Hrv : Forall (fun z => is_rv z = true /\ valid g0 z) (latents ++ observed data)%list).
  { rewrite Forall_forall. intros z Hz'. apply in_app_or in Hz'. destruct Hz' as [Hi|Hi].
    - exact (bindings_keys old z Hold (Hlat _ Hi)).
    - rewrite observed_items in Hi. exact (bindings_keys _ z Hdt Hi). }
  (* reverse *)
  destruct (reverse_ok (base ++ "new") sn sw_new sw_old Hsn proposals g2 Hstn2 Hswn2 Hpb) as [N3 [g3 [rt [E3 [Hstn3 [He3 [Ha3 M4]]]]]]].
  { rewrite Forall_forall in *. intros [z p] Hi. split; [exact (Hprv _ Hi)|]. simpl.
    assert (Hz : In z (map fst old)) by (apply Hpo; apply (in_map fst) in Hi; exact Hi).
    apply lookup_some_key in Hz. destruct Hz as [y Hy]. rewrite (Lold _ _ Hy). discriminate. }
  pose proof (s_world _ _ _ _ Hstn3) as Hw3.
  assert (Hsto3 : state g0 sw_old so g3) by exact (state_foreign g0 sw_old so g2 g3 Hsto2 Hw3 He3 (adds_foreign g2 g3 so sn Aon Ha3)).
  assert (He13 : extends g1 g3) by (eapply extends_trans; eauto).
  (* latents *)
  destruct (both_terms_ok (base ++ "new") (base ++ "old") sn so sw_new sw_old sw_new sw_old Hsn Hso Rno latents g3 Hstn3
     (rv_dict_ext _ _ _ He3 Hswn2) Hsto3 (rv_dict_ext _ _ _ He13 Hswo1)) as [N4 [g4 [lt [E4 [Hstn4 [Hsto4 [He4 [M5 M6]]]]]]]].
  { rewrite Forall_forall in *. intros z Hz. destruct (Hrv z (in_or_app _ _ _ (or_introl Hz))) as [A B].
    pose proof (Hlat _ Hz) as Hk. split; auto. split; auto. split.
    - apply Nkey in Hk. destruct (lookup new z) as [y|] eqn:Ey; [|congruence]. rewrite (Lnew _ _ Ey). discriminate.
    - apply lookup_some_key in Hk. destruct Hk as [y Hy]. rewrite (Lold _ _ Hy). discriminate. }
  assert (He24 : extends g2 g4) by (eapply extends_trans; eauto).
  assert (He14 : extends g1 g4) by (eapply extends_trans; eauto).
  (* data *)
  destruct (both_terms_ok (base ++ "new") (base ++ "old") sn so sw_new sw_old sw sw Hsn Hso Rno (observed data) g4 Hstn4
     (rv_dict_ext _ _ _ He24 Hswn2) Hsto4 (rv_dict_ext _ _ _ He14 Hswo1)) as [N5 [g5 [dt [E5 [Hstn5 [Hsto5 [He5 [M7 M8]]]]]]]].
  { rewrite Forall_forall in *. intros z Hz. destruct (Hrv z (in_or_app _ _ _ (or_intror Hz))) as [A B].
    pose proof (Lsw2 _ Hz). auto. }
  pose proof (s_world _ _ _ _ Hstn5) as Hw5.
  assert (He25 : extends g2 g5) by (eapply extends_trans; eauto).
  assert (He15 : extends g1 g5) by (eapply extends_trans; eauto).
  assert (He35 : extends g3 g5) by (eapply extends_trans; eauto).
  exists (N1 + N2 + N3 + N4 + N5), g5, (mkratio new pt rt lt dt), (renamed g0 0 sc g5), (renamed g0 n0 so g5), (renamed g0 (n0 + n0) sn g5).
  split.
  { intros fuel Hf. unfold mh_ratio_in. rewrite E1 by lia. cbv zeta. fold sw_old. rewrite E2 by lia. fold sw_new.
    rewrite E3 by lia. rewrite E4 by lia. rewrite E5 by lia. reflexivity. }
  split; [apply (w_ext _ _ Hw5)|].
  split; [apply new_noise_renamed; auto; apply (w_ext _ _ Hw5)|]. split; [apply new_noise_renamed; auto; apply (w_ext _ _ Hw5)|].
  split; [apply new_noise_renamed; auto; apply (w_ext _ _ Hw5)|]. split.
  { intros a b Ha Hb. split; [|split]; apply renamed_apart; auto; lia. }
  pose proof (rv_dict_ext _ _ _ He15 Hswo1) as Hswo5. pose proof (rv_dict_ext _ _ _ He25 Hswn2) as Hswn5.
  assert (Hfin : forall V M (sem : nat -> M -> list V -> V) st noise score eo en,
    env_at sem st noise g5 sw_old eo -> env_at sem st noise g5 sw_new en ->
    (exists a, sums_are sem st score noise g5 (mkratio new pt rt lt dt) a) /\
    forall a, sums_are sem st score noise g5 (mkratio new pt rt lt dt) a <-> exists pn po qf qr,
         sum_is (density sem st score (fun o => noise (renamed g0 (n0 + n0) sn g5 o)) en g0) (latents ++ observed data)%list pn /\
         sum_is (density sem st score (fun o => noise (renamed g0 n0 so g5 o)) eo g0) (latents ++ observed data)%list po /\
         sum_is (fun kv => density_at sem st score (fun o => noise (renamed g0 n0 so g5 o)) eo en g0 (fst kv) (snd kv)) proposals qf /\
         sum_is (fun kv => density_at sem st score (fun o => noise (renamed g0 (n0 + n0) sn g5 o)) en eo g0 (fst kv) (snd kv)) proposals qr /\
         a = (pn - po - qf + qr)%R).
  { intros V M sem st noise score eo en Heo Hen.
    assert (M3' : Forall2 (fun kv t => t_key t = fst kv /\ copy_term so g2 (snd kv) t /\ lookup sw_new (fst kv) = Some (t_value t)) proposals pt).
    { eapply forall2_impl; [|exact M3]. intros kv t [A [B C]]. split; auto. }
    assert (F1 : Forall2 (fun z t => t_key t = z /\ copy_term sn g5 z t /\ lookup sw_new z = Some (t_value t))
                   (latents ++ observed data)%list (map fst (lt ++ dt)%list)).
    { rewrite map_app. apply Forall2_app.
      - eapply forall2_impl; [|exact M5]. intros z t [A [B C]]. split; auto. split; auto. apply (copy_term_ext _ g4 g5); auto. apply (w_wf _ _ Hw5).
      - eapply forall2_in; [|exact M7]. intros z t Hz [A [B C]]. split; auto. split; auto. rewrite Lndat; auto. }
    assert (F2 : Forall2 (fun z t => t_key t = z /\ copy_term so g5 z t /\ lookup sw_old z = Some (t_value t))
                   (latents ++ observed data)%list (map snd (lt ++ dt)%list)).
    { rewrite map_app. apply Forall2_app.
      - eapply forall2_impl; [|exact M6]. intros z t [A [B C]]. split; auto. split; auto. apply (copy_term_ext _ g4 g5); auto. apply (w_wf _ _ Hw5).
      - eapply forall2_in; [|exact M8]. intros z t Hz [A [B C]]. split; auto. split; auto. rewrite Ldat; auto. }
    destruct (sum_props V M sem st noise score n0 sw_old so g2 g5 sw_new eo en proposals pt Hsto2 Hw5 He25
        (rv_dict_ext _ _ _ He2 Hswo1) Heo Hswn5 Hen Hpb M3') as [[f Q1] Q2].
    destruct (sum_props V M sem st noise score (n0 + n0) sw_new sn g3 g5 sw_old en eo proposals rt Hstn3 Hw5 He35
        (rv_dict_ext _ _ _ He3 Hswn2) Hen Hswo5 Heo Hpb M4) as [[b R1] R2].
    destruct (sum_terms V M sem st noise score (n0 + n0) sw_new sn g5 g5 sw_new en en _ _ Hstn5 Hw5 (extends_refl g5) Hswn5 Hen Hswn5 Hen Hrv F1)
      as [[x S1] S2].
    destruct (sum_terms V M sem st noise score n0 sw_old so g5 g5 sw_old eo eo _ _ Hsto5 Hw5 (extends_refl g5) Hswo5 Heo Hswo5 Heo Hrv F2)
      as [[y T1] T2].
    split.
    - exists (x - y - f + b)%R, x, y, f, b. simpl. auto.
    - intros a. unfold sums_are. simpl.
      split; intros [pn [po [qf [qr [H1 [H2 [H3 [H4 ->]]]]]]]]; exists pn, po, qf, qr.
      + apply S2 in H1. apply T2 in H2. apply Q2 in H3. apply R2 in H4. auto.
      + apply S2 in H1. apply T2 in H2. apply Q2 in H3. apply R2 in H4. auto. }
  intros V M sem st noise score.
  destruct (env_exists sem st noise g5 sw_old Hw5 Hswo5) as [eo Heo]. destruct (env_exists sem st noise g5 sw_new Hw5 Hswn5) as [en Hen].
  exists eo, en. cbv zeta.
  assert (Vo : forall k y, is_rv k = true -> valid g0 k -> lookup sw_old k = Some y -> valid g5 y -> exists v,
             eo (tensor_of g0 k) = Some v /\ ev sem st noise g5 (tensor_of g5 y) v).
  { intros k y Rk Vk Hl Hy. destruct (rv_tensor g5 k (w_ext _ _ Hw5) Rk Vk) as [r [d [-> [Hr [-> _]]]]].
    destruct (w_ac _ _ Hw5) as [h5 Ha5].
    destruct (ev_total sem st noise g5 h5 (w_wf _ _ Hw5) Ha5 (tensor_of g5 y) (valid_lt _ _ (w_wf _ _ Hw5) Hy)) as [v Hv].
    exists v. split; auto. now apply (env_lookup sem st noise g5 sw_old eo r d y (w_ext _ _ Hw5) Hswo5 Heo Hr Hl). }
  assert (Vn : forall k y, is_rv k = true -> valid g0 k -> lookup sw_new k = Some y -> valid g5 y -> exists v,
             en (tensor_of g0 k) = Some v /\ ev sem st noise g5 (tensor_of g5 y) v).
  { intros k y Rk Vk Hl Hy. destruct (rv_tensor g5 k (w_ext _ _ Hw5) Rk Vk) as [r [d [-> [Hr [-> _]]]]].
    destruct (w_ac _ _ Hw5) as [h5 Ha5].
    destruct (ev_total sem st noise g5 h5 (w_wf _ _ Hw5) Ha5 (tensor_of g5 y) (valid_lt _ _ (w_wf _ _ Hw5) Hy)) as [v Hv].
    exists v. split; auto. now apply (env_lookup sem st noise g5 sw_new en r d y (w_ext _ _ Hw5) Hswn5 Hen Hr Hl). }
  assert (Hval : forall sw' k y, rv_dict g5 sw' -> lookup sw' k = Some y -> valid g5 y).
  { intros sw' k y [HF _] Hl. apply lookup_in in Hl. rewrite Forall_forall in HF. now destruct (HF _ Hl) as [_ [? _]]. }
  assert (Hdet : forall y v w, valid g5 y -> ev sem st noise g5 (tensor_of g5 y) v -> ev sem st noise g5 (tensor_of g5 y) w -> v = w).
  { intros y v w _ Ea Eb. destruct (w_ac _ _ Hw5) as [h5 Ha5]. eapply ev_det; eauto. }
  split; [|split; [|split]].
  - (* the states *)
    split; [|split; [|split; [|split]]].
    + intros k q Hi. unfold bindings in Hold. rewrite Forall_forall in Hold. destruct (Hold _ Hi) as [[Rk Vk] [Vq Oq]]. simpl in *.
      pose proof (Lold _ _ (in_lookup _ _ _ Hnd1 Hi)) as Hl.
      destruct (Vo k q Rk Vk Hl (Hval _ _ _ Hswo5 Hl)) as [v [A B]]. exists v. split; auto.
      rewrite (tensor_extends g0 g5 q (w_ext _ _ Hw5) Vq) in B.
      exact (proj1 (ev_later g0 sem st noise g0 g5 _ v world_refl (w_ext _ _ Hw5) (valid_lt _ _ Hwf Vq)) B).
    + intros k q Hi. unfold bindings in Hdt. rewrite Forall_forall in Hdt. destruct (Hdt _ Hi) as [[Rk Vk] [Vq Oq]]. simpl in *.
      destruct (L2 _ _ Hi) as [y [Hy Hb]].
      assert (Hk : ~ In k (map fst old)) by (apply Hdo; rewrite observed_items; apply (in_map fst) in Hi; exact Hi).
      assert (Hlo : lookup sw_old k = Some y) by now rewrite Ldat.
      assert (Hln : lookup sw_new k = Some y) by now rewrite Lndat.
      destruct (Vo k y Rk Vk Hlo (Hval _ _ _ Hswo5 Hlo)) as [v [A B]].
      destruct (Vn k y Rk Vk Hln (Hval _ _ _ Hswn5 Hln)) as [w [A' B']].
      exists v. split; auto. split; [rewrite A'; f_equal; exact (Hdet y w v (Hval _ _ _ Hswo5 Hlo) B' B)|].
      exact (proj1 (bound_value sem st noise 0 sc g1 g5 q y Hst1 Hw5 He15 Hb Vq v) B).
    + intros k p Hi. unfold bindings in Hpb. rewrite Forall_forall in Hpb. destruct (Hpb _ Hi) as [[Rk Vk] [Vq Oq]]. simpl in *.
      destruct (M2 _ _ Hi) as [y [Hy Hp]]. pose proof (Lnew _ _ Hy) as Hl.
      destruct (Vn k y Rk Vk Hl (Hval _ _ _ Hswn5 Hl)) as [v [A B]]. exists v. split; auto.
      exact (proj1 (proposed_draw V M sem st noise n0 sw_old so g2 g5 eo p y Hsto2 Hw5 He25 (rv_dict_ext _ _ _ He2 Hswo1) Heo Hp v) B).
    + intros k Hk Hkp. destruct (bindings_keys old k Hold Hk) as [Rk Vk]. apply lookup_some_key in Hk. destruct Hk as [y Hy].
      pose proof (Lold _ _ Hy) as Hlo. rewrite <- M1 in Hy by auto. pose proof (Lnew _ _ Hy) as Hln.
      destruct (Vo k y Rk Vk Hlo (Hval _ _ _ Hswo5 Hlo)) as [v [A B]].
      destruct (Vn k y Rk Vk Hln (Hval _ _ _ Hswn5 Hln)) as [w [A' B']].
      rewrite A, A'. f_equal. exact (Hdet y w v (Hval _ _ _ Hswo5 Hlo) B' B).
    + intros t Ht. assert (Hx : exists r d, nth_error (rvs g0) r = Some d /\ t = rvalue d /\
        (lookup sw_old (XRV r) <> None \/ lookup sw_new (XRV r) <> None)).
      { destruct Ht as [Ht|Ht].
        - destruct (env_some sem st noise g5 sw_old eo t (w_ext _ _ Hw5) Hswo5 Heo Ht) as [r [d [y [Hr [Er Hl]]]]].
          exists r, d. split; auto. split; auto. left. congruence.
        - destruct (env_some sem st noise g5 sw_new en t (w_ext _ _ Hw5) Hswn5 Hen Ht) as [r [d [y [Hr [Er Hl]]]]].
          exists r, d. split; auto. split; auto. right. congruence. }
      destruct Hx as [r [d [Hr [-> Hl]]]]. exists (XRV r). split; [|simpl; now rewrite Hr].
      apply in_or_app. destruct (key_dec (XRV r) (map fst old)) as [Hi|Hi]; auto. right. rewrite <- observed_items. apply Lsw.
      rewrite Ldat, Lndat in Hl by auto. tauto.
  - intros k Hk. destruct (bindings_keys old k Hold Hk) as [Rk Vk]. apply Nkey in Hk.
    destruct (lookup new k) as [y|] eqn:Hy; [|congruence]. pose proof (Lnew _ _ Hy) as Hl.
    destruct (Vn k y Rk Vk Hl (Hval _ _ _ Hswn5 Hl)) as [v [A B]]. exists y, v. simpl. auto.
  - destruct (proj1 (Hfin V M sem st noise score eo en Heo Hen)) as [a Ha]. exists a. now apply ratio_sums_at.
  - intros a. rewrite ratio_sums_at. exact (proj2 (Hfin V M sem st noise score eo en Heo Hen) a).
Qed.

Theorem mh_ratio_ok : forall base so sn latents old proposals data, 
  with_slash (base ++ "old") = Some so -> with_slash (base ++ "new") = Some sn ->
  fresh_scope g0 so -> fresh_scope g0 sn -> apart so sn ->
  constant_data data \/ (fresh_scope g0 "conditional/" /\ apart "conditional/" so /\ apart "conditional/" sn) ->
  bindings g0 old -> bindings g0 (rv_items data) -> NoDup (map fst (old ++ rv_items data)%list) ->
  bindings g0 proposals -> Forall (fun kv => is_rv (snd kv) = true) proposals -> NoDup (map fst proposals) ->
  incl (map fst proposals) (map fst old) -> incl latents (map fst old) ->
  exists N g' r rho_c rho_o rho_n,
    (forall fuel, N <= fuel -> mh_ratio fuel pick base latents old proposals data g0 = (g', Ok r)) /\
    extends g0 g' /\ new_noise g0 rho_c /\ new_noise g0 rho_o /\ new_noise g0 rho_n /\
    (forall a b, a < n0 -> b < n0 -> rho_c a <> rho_o b /\ rho_c a <> rho_n b /\ rho_o a <> rho_n b) /\
    forall V M (sem : nat -> M -> list V -> V) st noise score, exists env_old env_new,
      let noise_o := fun o => noise (rho_o o) in let noise_n := fun o => noise (rho_n o) in
      mh_states sem st noise (fun o => noise (rho_c o)) noise_o g0 old proposals data env_old env_new /\
      (forall k, In k (map fst old) -> exists y v, lookup (r_new r) k = Some y /\ env_new (tensor_of g0 k) = Some v /\
         given sem st noise g' y v) /\
      (exists a, ratio_is sem st score noise g' r a) /\
      (forall a, ratio_is sem st score noise g' r a <-> exists pn po qf qr,
         sum_is (density sem st score noise_n env_new g0) (latents ++ observed data)%list pn /\
         sum_is (density sem st score noise_o env_old g0) (latents ++ observed data)%list po /\
         sum_is (fun kv => density_at sem st score noise_o env_old env_new g0 (fst kv) (snd kv)) proposals qf /\
         sum_is (fun kv => density_at sem st score noise_n env_new env_old g0 (fst kv) (snd kv)) proposals qr /\
         a = (pn - po - qf + qr)%R).
Proof.
  intros base so sn latents old proposals data Hso Hsn Hfo Hfn Aon [Hc|[Hfc [Aco Acn]]].
  - intros H1 H2 H3 H4 H5 H6 H7 H8.
    destruct (scope_exists [so; sn]) as [c [Hs [Hf Ha]]]; [repeat constructor; eauto|].
    inversion Ha as [|? ? A1 Ha']; subst. inversion Ha' as [|? ? A2 _]; subst.
    destruct (mh_ratio_in_ok c c base so sn latents old proposals data Hs Hso Hsn Hf Hfo Hfn A1 A2 Aon H1 H2 H3 H4 H5 H6 H7 H8)
      as [N [g' [r [rc [ro [rn [E HM]]]]]]].
    exists N, g', r, rc, ro, rn. split; [|exact HM]. intros fuel Hfu. rewrite <- (E fuel Hfu).
    unfold mh_ratio, mh_ratio_in. now rewrite (bind_data_scope fuel pick "conditional" c data g0 [] Hc).
  - exact (mh_ratio_in_ok "conditional" "conditional/" base so sn latents old proposals data eq_refl Hso Hsn Hfc Hfo Hfn Aco Acn Aon).
Qed.

(** ** Replica exchange *)

Section Replica.
Variable latents : list elem.
Variable data sw : swap.
Hypothesis Hdt : bindings g0 (rv_items data).
Hypothesis Hsw : forall k, lookup sw k <> None <-> In k (observed data).

(** The samples of the replicas. *)
Definition sample_ok (sample : swap) : Prop :=
  bindings g0 sample /\ NoDup (map fst (sample ++ rv_items data)%list) /\ incl latents (map fst sample).

Lemma replica_at : forall samples ss,
  Forall2 (fun p s => with_slash (fst p) = Some s) samples ss -> Forall sample_ok (map snd samples) ->
  forall j g, world g0 g -> rv_dict g sw -> Forall (fresh_scope g) ss -> ForallOrdPairs apart ss ->
  exists N g' tss, (forall fuel, N <= fuel -> replica_terms fuel pick latents data sw g samples = (g', Ok tss)) /\
    world g0 g' /\ extends g g' /\ length tss = length samples /\
    forall gF, world g0 gF -> extends g' gF -> forall i s p ts, nth_error ss i = Some s -> nth_error samples i = Some p ->
      nth_error tss i = Some ts ->
      rv_dict gF (swap_update sw (snd p)) /\
      forall V M (sem : nat -> M -> list V -> V) st noise score env, env_at sem st noise gF (swap_update sw (snd p)) env ->
        (exists a, sum_is (term_is sem st score noise gF) ts a) /\
        forall a, sum_is (term_is sem st score noise gF) ts a <->
          sum_is (density sem st score (fun o => noise (renamed g0 ((j + i) * n0) s gF o)) env g0) (latents ++ observed data)%list a.
Proof.
  intros samples ss HF. induction HF as [|[scope sample] s samples ss Hs _ IH]; intros Hok j g Hw Hd Hfr Hap.
  - exists 0, g, []. split; [reflexivity|]. split; auto. split; [apply extends_refl|]. split; auto.
    intros gF _ _ [|i] s p ts Hi; discriminate.
  - inversion Hok as [|? ? [Hb [Hn Hl]] Hok']; subst. inversion Hfr as [|? ? Hf Hfr']; subst.
    inversion Hap as [|? ? Ha Hap']; subst. simpl in Hs. rewrite map_app in Hn.
    pose proof (NoDup_app_l _ _ Hn) as Hn1.
    set (swi := swap_update sw sample).
    assert (Hdi : rv_dict g swi).
    { apply rv_dict_update; auto. eapply rv_dict_ext; [apply (w_ext _ _ Hw)|]. now apply bindings_dict. }
    assert (Ls : forall k, In k (map fst sample) -> lookup swi k <> None).
    { intros k Hk. unfold swi. rewrite update_lookup by auto. apply lookup_some_key in Hk. destruct Hk as [y ->]. discriminate. }
    assert (Lx : forall k, In k (observed data) -> lookup swi k = lookup sw k).
    { intros k Hk. unfold swi. rewrite update_lookup by auto. rewrite lookup_none; auto. intros Hi.
      rewrite observed_items in Hk. eapply NoDup_app_disjoint; eauto. }
    assert (Hrv : Forall (fun z => is_rv z = true /\ valid g0 z) (latents ++ observed data)%list).
    { rewrite Forall_forall. intros z Hz'. apply in_app_or in Hz'. destruct Hz' as [Hi|Hi].
      - exact (bindings_keys sample z Hb (Hl _ Hi)).
      - rewrite observed_items in Hi. exact (bindings_keys _ z Hdt Hi). }
    destruct (model_terms_ok scope s swi swi Hs latents g (state_new _ _ _ Hw Hf Hdi) Hdi) as [N1 [g1 [ts [E1 [Hst1 [He1 [Ha1 F1]]]]]]].
    { rewrite Forall_forall in *. intros z Hz. destruct (Hrv z (in_or_app _ _ _ (or_introl Hz))). auto. }
    destruct (model_terms_ok scope s swi sw Hs (observed data) g1 Hst1 (rv_dict_ext _ _ _ He1 Hdi)) as [N2 [g2 [xs [E2 [Hst2 [He2 [Ha2 F2]]]]]]].
    { rewrite Forall_forall in *. intros z Hz. destruct (Hrv z (in_or_app _ _ _ (or_intror Hz))). split; auto. split; auto. now apply Hsw. }
    pose proof (s_world _ _ _ _ Hst2) as Hw2.
    assert (He02 : extends g g2) by (eapply extends_trans; eauto).
    assert (Hfr2 : Forall (fresh_scope g2) ss).
    { rewrite Forall_forall in *. intros s' Hs'. eapply (adds_fresh g g2 s' s); eauto; [|exact (adds_trans s g g1 g2 He2 Ha1 Ha2)].
      intros n n' E. exact (Ha _ Hs' n' n (eq_sym E)). }
    destruct (IH Hok' (S j) g2 Hw2 (rv_dict_ext _ _ _ He02 Hd) Hfr2 Hap') as [N3 [g3 [tss [E3 [Hw3 [He3 [Hlen HM]]]]]]].
    exists (N1 + N2 + N3), g3, ((ts ++ xs)%list :: tss). split.
    { intros fuel Hfu. simpl. fold swi. rewrite E1 by lia. rewrite E2 by lia. rewrite E3 by lia. reflexivity. }
    split; auto. split; [eapply extends_trans; eauto|]. split; [simpl; auto|].
    intros gF HwF HeF [|i] s' p ts' Hi Hp Ht; simpl in Hi, Hp, Ht.
    + injection Hi as <-. injection Ht as <-. injection Hp as <-. rewrite Nat.add_0_r. simpl. fold swi.
      assert (He2F : extends g2 gF) by (eapply extends_trans; eauto).
      assert (HdF : rv_dict gF swi) by (eapply rv_dict_ext; [|exact Hdi]; eapply extends_trans; eauto).
      split; auto. intros V M sem st noise score env Henv.
      apply (sum_terms V M sem st noise score (j * n0) swi s g2 gF swi env env _ _ Hst2 HwF He2F (rv_dict_ext _ _ _ He02 Hdi) Henv HdF Henv Hrv).
      apply Forall2_app.
      * eapply forall2_impl; [|exact F1]. intros z t [A [B C]]. split; auto. split; auto.
        apply (copy_term_ext _ g1 g2); auto. apply (w_wf _ _ Hw2).
      * eapply forall2_in; [|exact F2]. intros z t Hz [A [B C]]. split; auto. split; auto. rewrite Lx; auto.
    + replace (j + S i) with (S j + i) by lia. eapply HM; eauto.
Qed.
End Replica.

Lemma replica_ratio_in_ok : forall cond sc samples ss latents data, with_slash cond = Some sc ->
  Forall2 (fun p s => with_slash (fst p) = Some s /\ fresh_scope g0 s) samples ss ->
  fresh_scope g0 sc -> ForallOrdPairs apart (sc :: ss) ->
  bindings g0 (rv_items data) ->
  Forall (fun p => bindings g0 (snd p) /\ Forall (fun kv => is_rv (snd kv) = false) (snd p) /\
                   NoDup (map fst (snd p ++ rv_items data)%list) /\ incl latents (map fst (snd p))) samples ->
  samples <> [] ->
  exists N g' tss rho_c rho,
    (forall fuel, N <= fuel -> replica_ratio_in fuel pick cond latents data g0 samples = (g', Ok tss)) /\
    extends g0 g' /\ length tss = length samples /\ new_noise g0 rho_c /\
    (forall i, i < length samples -> new_noise g0 (rho i)) /\
    (forall i a b, i < length samples -> a < n0 -> b < n0 -> rho_c a <> rho i b) /\
    (forall i i' a b, i < length samples -> i' < length samples -> a < n0 -> b < n0 -> rho i a = rho i' b -> i = i' /\ a = b) /\
    forall V M (sem : nat -> M -> list V -> V) st noise score i scope sample ts,
      nth_error samples i = Some (scope, sample) -> nth_error tss i = Some ts ->
      exists env,
        holds g0 (sampled sem st noise (fun o => noise (rho_c o)) g0) (sample ++ rv_items data)%list env /\
        (exists a, sum_is (term_is sem st score noise g') ts a) /\
        (forall a, sum_is (term_is sem st score noise g') ts a <->
           sum_is (density sem st score (fun o => noise (rho i o)) env g0) (latents ++ observed data)%list a).
Proof.
  intros cond sc samples ss latents data Hsc HF Hfc Hap Hdt Hsam Hne.
  assert (Hnd2 : NoDup (map fst (rv_items data))).
  { destruct samples as [|p samples]; [congruence|]. inversion Hsam as [|? ? [_ [_ [Hn _]]] _]; subst. rewrite map_app in Hn.
    now apply NoDup_app_r in Hn. }
  inversion Hap as [|? ? Hac' Hap']; subst.
  assert (HF1 : Forall2 (fun p s => with_slash (fst p) = Some s) samples ss).
  { eapply forall2_impl; [|exact HF]. now intros a b [? _]. }
  assert (HF2 : Forall (fresh_scope g0) ss).
  { clear - HF. induction HF as [|? ? ? ? [? ?]]; constructor; auto. }
  assert (HL : length samples = length ss).
  { clear - HF. induction HF; simpl; auto. }
  destruct (bind_data_ok cond sc (map snd (rv_items data)) Hsc data g0 [] (state_new _ _ _ world_refl Hfc (rv_dict_nil g0))
     (covered_new _ _ _ Hfc) (rv_dict_nil g0) Hdt Hnd2 (incl_refl _)) as [N1 [g1 [sw [E1 [Hst1 [He1 [Ha1 [_ [Hd1 [L1 L2]]]]]]]]]].
  pose proof (s_world _ _ _ _ Hst1) as Hw1.
  assert (Lsw : forall k, lookup sw k <> None <-> In k (observed data)).
  { intros k. rewrite observed_items. split.
    - intros Hk. destruct (key_dec k (map fst (rv_items data))) as [Hi|Hi]; auto. rewrite L1 in Hk by auto. now destruct Hk.
    - intros Hk. apply in_map_iff in Hk. destruct Hk as [[x q] [<- Hi]]. simpl. destruct (L2 _ _ Hi) as [y [-> _]]. discriminate. }
  assert (Hfr1 : Forall (fresh_scope g1) ss).
  { rewrite Forall_forall in *. intros s' Hs'. eapply (adds_fresh g0 g1 s' sc); eauto.
    intros n n' E. exact (Hac' _ Hs' n' n (eq_sym E)). }
  assert (Hok : Forall (sample_ok latents data) (map snd samples)).
  { rewrite Forall_forall in *. intros sm Hi. apply in_map_iff in Hi. destruct Hi as [p [<- Hi]].
    destruct (Hsam _ Hi) as [A [_ [B C]]]. split; auto. }
  destruct (replica_at latents data sw Hdt Lsw samples ss HF1 Hok 1 g1 Hw1 Hd1 Hfr1 Hap') as [N2 [g2 [tss [E2 [Hw2 [He2 [Hlen HM]]]]]]].
  assert (Hnth : forall i, i < length samples -> exists s, nth_error ss i = Some s /\ nth i ss "" = s /\ fresh_scope g0 s).
  { intros i Hi. rewrite HL in Hi. destruct (nth_error ss i) as [s|] eqn:Es; [|apply nth_error_None in Es; lia].
    exists s. split; auto. split; [now apply nth_error_nth|]. rewrite Forall_forall in HF2. eapply HF2, nth_error_In; eauto. }
  exists (N1 + N2), g2, tss, (renamed g0 0 sc g2), (fun i => renamed g0 ((1 + i) * n0) (nth i ss "") g2).
  split; [intros fuel Hf; unfold replica_ratio_in; rewrite E1 by lia; apply E2; lia|].
  split; [apply (w_ext _ _ Hw2)|]. split; auto. split; [apply new_noise_renamed; auto; apply (w_ext _ _ Hw2)|]. split; [|split; [|split]].
  - intros i Hi. destruct (Hnth i Hi) as [s [_ [-> Hf]]]. apply new_noise_renamed; auto. apply (w_ext _ _ Hw2).
  - intros i a b Hi Ha Hb. destruct (Hnth i Hi) as [s [Hs [-> _]]]. apply renamed_apart; auto; [|nia].
    rewrite Forall_forall in Hac'. apply Hac'. eapply nth_error_In; eauto.
  - intros i i' a b Hi Hi' Ha Hb Eq. destruct (Hnth i Hi) as [s [Hs [Es _]]]. destruct (Hnth i' Hi') as [s' [Hs' [Es' _]]].
    rewrite Es, Es' in Eq. destruct (Nat.lt_trichotomy i i') as [Hlt|[->|Hlt]].
    + exfalso. assert ((1 + i) * n0 + n0 <= (1 + i') * n0) by nia. revert Eq. apply renamed_apart; auto. eapply ordpairs_nth; eauto.
    + assert (s = s') by congruence. subst. split; auto. eapply renamed_inj; eauto.
    + exfalso. assert ((1 + i') * n0 + n0 <= (1 + i) * n0) by nia. symmetry in Eq. revert Eq. apply renamed_apart; auto. eapply ordpairs_nth; eauto.
  - intros V M sem st noise score i scope sample ts Hi Ht. destruct (Hnth i (nth_lt _ _ _ Hi)) as [s [Hs [Es _]]]. cbv beta. rewrite Es.
    destruct (HM g2 Hw2 (extends_refl g2) i s (scope, sample) ts Hs Hi Ht) as [HdF HM']. simpl in HdF.
    destruct (env_exists sem st noise g2 (swap_update sw sample) Hw2 HdF) as [env Henv]. exists env.
    rewrite Forall_forall in Hsam. destruct (Hsam _ (nth_error_In _ _ Hi)) as [Hb [Hnr [Hn Hl]]]. simpl in *.
    rewrite map_app in Hn. pose proof (NoDup_app_l _ _ Hn) as Hn1.
    split; [|exact (HM' V M sem st noise score env Henv)].
    eapply (env_holds V M sem st noise 0 sc g1 g2); eauto.
    + apply Forall_app; auto.
    + intros k q Hk. rewrite update_lookup by auto. apply in_app_or in Hk. destruct Hk as [Hk|Hk].
      * exists q. split; [now rewrite (in_lookup _ _ _ Hn1 Hk)|]. rewrite Forall_forall in Hnr. apply Hnr in Hk.
        destruct q; simpl in *; auto. discriminate.
      * destruct (L2 _ _ Hk) as [y [Hy Hbd]]. exists y. split; auto. rewrite lookup_none; auto. intros Hi2.
        eapply NoDup_app_disjoint; eauto. apply (in_map fst) in Hk. exact Hk.
    + intros k. rewrite update_lookup by auto. rewrite map_app. intros Hk. apply in_or_app.
      destruct (lookup sample k) eqn:E; [left; apply dict_keys; congruence|right]. rewrite <- observed_items. now apply Lsw.
Qed.

Theorem replica_ratio_ok : forall samples ss latents data,
  Forall2 (fun p s => with_slash (fst p) = Some s /\ fresh_scope g0 s) samples ss ->
  ForallOrdPairs apart ss ->
  constant_data data \/ (fresh_scope g0 "conditional/" /\ Forall (apart "conditional/") ss) ->
  bindings g0 (rv_items data) ->
  Forall (fun p => bindings g0 (snd p) /\ Forall (fun kv => is_rv (snd kv) = false) (snd p) /\
                   NoDup (map fst (snd p ++ rv_items data)%list) /\ incl latents (map fst (snd p))) samples ->
  samples <> [] ->
  exists N g' tss rho_c rho,
    (forall fuel, N <= fuel -> replica_ratio fuel pick latents data g0 samples = (g', Ok tss)) /\
    extends g0 g' /\ length tss = length samples /\ new_noise g0 rho_c /\
    (forall i, i < length samples -> new_noise g0 (rho i)) /\
    (forall i a b, i < length samples -> a < n0 -> b < n0 -> rho_c a <> rho i b) /\
    (forall i i' a b, i < length samples -> i' < length samples -> a < n0 -> b < n0 -> rho i a = rho i' b -> i = i' /\ a = b) /\
    forall V M (sem : nat -> M -> list V -> V) st noise score i scope sample ts,
      nth_error samples i = Some (scope, sample) -> nth_error tss i = Some ts ->
      exists env,
        holds g0 (sampled sem st noise (fun o => noise (rho_c o)) g0) (sample ++ rv_items data)%list env /\
        (exists a, sum_is (term_is sem st score noise g') ts a) /\
        (forall a, sum_is (term_is sem st score noise g') ts a <->
           sum_is (density sem st score (fun o => noise (rho i o)) env g0) (latents ++ observed data)%list a).
Proof.
  intros samples ss latents data HF Hap [Hc|[Hfc Hac']].
  - intros H1 H2 H3. destruct (scope_exists ss) as [c [Hs [Hf Ha]]].
    { clear - HF. induction HF as [|p s samples ss [H _] _ IH]; constructor; eauto. }
    destruct (replica_ratio_in_ok c c samples ss latents data Hs HF Hf ltac:(constructor; assumption) H1 H2 H3)
      as [N [g' [tss [rc [rho [E HM]]]]]].
    exists N, g', tss, rc, rho. split; [|exact HM]. intros fuel Hfu. rewrite <- (E fuel Hfu).
    unfold replica_ratio, replica_ratio_in. now rewrite (bind_data_scope fuel pick "conditional" c data g0 [] Hc).
  - exact (replica_ratio_in_ok "conditional" "conditional/" samples ss latents data eq_refl HF Hfc ltac:(constructor; assumption)).
Qed.

End Build.
