From Coq Require Import List Arith Bool Lia.
From Verif Require Import Checks ChecksSpec.
Import ListNotations.

Lemma dims_compat_spec : forall a b, dims_compat a b = true <->
  exists c, instance c (Some a) /\ instance c (Some b).
Proof.
  unfold instance. induction a as [|x a IH]; intros [|y b]; simpl.
  - split; auto. exists []; auto.
  - split; [discriminate|]. intros (c & H1 & H2). inversion H1; subst; inversion H2.
  - split; [discriminate|]. intros (c & H1 & H2). inversion H2; subst; inversion H1.
  - rewrite andb_true_iff, IH. split.
    + intros (Hd & c & H1 & H2).
      exists (match x with Some m => m | None => match y with Some m => m | None => 0 end end :: c).
      split; constructor; auto; intros m Hm; subst; simpl; auto.
      destruct x; auto. simpl in Hd. apply Nat.eqb_eq in Hd; auto.
    + intros (c & H1 & H2). inversion H1 as [|n d c' ? Hx Hc]; subst. inversion H2 as [|? ? ? ? Hy Hc2]; subst. split.
      * destruct x as [m|], y as [p|]; simpl; auto. apply Nat.eqb_eq.
        rewrite <- (Hx _ eq_refl), <- (Hy _ eq_refl); auto.
      * exists c'. auto.
Qed.

Lemma known_instance : forall c s, instance c (known s) <-> c = s.
Proof.
  unfold known, instance. induction c as [|x c IH]; intros [|y s]; simpl; split; intros H; try discriminate;
    try (inversion H; fail); auto.
  - inversion H; subst. f_equal; auto. apply IH; auto.
  - inversion H; subst. constructor; [congruence|]. apply IH; auto.
Qed.

Lemma shape_compat_spec : forall a b, shape_compat a b = true <-> compatible a b.
Proof.
  unfold compatible. destruct a as [a|], b as [b|]; simpl.
  - apply dims_compat_spec.
  - split; auto. intros _. exists (map (fun d => match d with Some m => m | None => 0 end) a). split; auto.
    induction a as [|x a IH]; simpl; constructor; auto. intros m ->; auto.
  - split; auto. intros _. exists (map (fun d => match d with Some m => m | None => 0 end) b). split; auto.
    induction b as [|x b IH]; simpl; constructor; auto. intros m ->; auto.
  - split; auto. intros _. exists []; auto.
Qed.

Lemma shape_compat_known : forall s c, shape_compat s (known c) = true <-> instance c s.
Proof.
  intros s c. rewrite shape_compat_spec. unfold compatible. split.
  - intros (c' & H1 & H2). apply known_instance in H2. subst; auto.
  - intros H. exists c. split; auto. apply known_instance; auto.
Qed.

Section P.
Context {V : Type}.
Variable pl : nat -> tshape * nat.
Variable conv : nat -> V -> option V.

Lemma rv_or_tensor_spec : forall (x : obj V) s dt, rv_or_tensor pl x = Some (s, dt) <-> graph_obj pl x s dt.
Proof.
  intros x s dt. split.
  - destruct x; simpl; intros E; inversion E; subst; try constructor.
    assert (s = fst (pl id)) by (rewrite H0; auto). assert (dt = snd (pl id)) by (rewrite H0; auto).
    subst; constructor.
  - intros H; inversion H; subst; simpl; auto. destruct (pl i); auto.
Qed.

Lemma rv_or_tensor_none : forall (x : obj V), rv_or_tensor pl x = None <-> forall s dt, ~ graph_obj pl x s dt.
Proof.
  intros x. split.
  - intros E s dt H. apply rv_or_tensor_spec in H. congruence.
  - intros H. destruct (rv_or_tensor pl x) as [[s dt]|] eqn:E; auto. apply rv_or_tensor_spec in E. destruct (H _ _ E).
Qed.

Lemma observable_item : forall (k v : obj V) s dt, observable k s dt ->
  check_item pl (k, v) = match rv_or_tensor pl v with
      | Some (s', dt') => shape_compat s s' && Nat.eqb dt dt'
      | None => match v with
          | OPy s' _ => shape_compat s (known s')
          | ONp s' nk _ => shape_compat s (known s') && np_ok nk
          | _ => false end end.
Proof. intros k v s dt H; inversion H; subst; reflexivity. Qed.

Lemma np_ok_spec : forall k, np_ok k = true <-> In k [NFloat; NInt; NStr].
Proof. intros []; simpl; split; auto; try discriminate. intros [|[|[|[]]]]; discriminate. Qed.

Lemma py_not_graph : forall v s' x, @py_data V v s' x -> rv_or_tensor pl v = None.
Proof. intros v s' x H; inversion H; subst; reflexivity. Qed.

Lemma observable_check : forall (k v : obj V) s dt, observable k s dt ->
  (check_item pl (k, v) = true <->
   (exists s', graph_obj pl v s' dt /\ compatible s s') \/ (exists s' x, py_data v s' x /\ instance s' s)).
Proof.
  intros k v s dt Ho. rewrite (observable_item k v s dt Ho). split.
  - destruct (rv_or_tensor pl v) as [[s' dt']|] eqn:E.
    + rewrite andb_true_iff, shape_compat_spec, Nat.eqb_eq. intros [H1 <-]. left. exists s'. split; auto.
      apply rv_or_tensor_spec; auto.
    + destruct v; try discriminate.
      * rewrite shape_compat_known. intros H. right. exists s0, v; split; auto. constructor.
      * rewrite andb_true_iff, shape_compat_known, np_ok_spec. intros [H1 H2]. right. exists s0, v; split; auto.
        constructor; auto.
  - intros [(s' & Hg & Hc)|(s' & x & Hp & Hi)].
    + apply rv_or_tensor_spec in Hg. rewrite Hg. rewrite andb_true_iff, shape_compat_spec, Nat.eqb_eq. auto.
    + rewrite (py_not_graph _ _ _ Hp). inversion Hp; subst.
      * apply shape_compat_known; auto.
      * rewrite andb_true_iff, shape_compat_known, np_ok_spec. auto.
Qed.

Lemma check_item_spec : forall k v, check_item pl (k, v) = true <-> item_ok (V := V) pl k v.
Proof.
  intros k v. split.
  - intros H. destruct k.
    + simpl in H. constructor. apply rv_or_tensor_none. destruct (rv_or_tensor pl v); auto; discriminate.
    + apply (observable_check _ _ s dt) in H; [|constructor].
      destruct H as [(s' & Hg & Hc)|(s' & x & Hp & Hi)].
      * eapply io_graph; eauto; constructor.
      * eapply io_value; eauto; constructor.
    + apply (observable_check _ _ s dt) in H; [|constructor].
      destruct H as [(s' & Hg & Hc)|(s' & x & Hp & Hi)].
      * eapply io_graph; eauto; constructor.
      * eapply io_value; eauto; constructor.
    + discriminate.
    + discriminate.
    + discriminate.
  - intros H. inversion H; subst.
    + simpl. apply rv_or_tensor_none in H0. rewrite H0; auto.
    + apply (observable_check _ _ s dt); auto. left; eauto.
    + apply (observable_check _ _ s dt); auto. right; eauto.
Qed.

Lemma check_items_spec : forall d, forallb (check_item pl) d = true <-> (forall k v, In (k, v) d -> item_ok (V := V) pl k v).
Proof.
  intros d. rewrite forallb_forall. split.
  - intros H k v Hi. apply check_item_spec; auto.
  - intros H [k v] Hi. apply check_item_spec; auto.
Qed.

Lemma check_latent_item_spec : forall k v, check_latent_item pl (k, v) = true <-> latent_ok (V := V) pl k v.
Proof.
  intros k v. unfold check_latent_item, latent_ok. simpl. split.
  - destruct (rv_or_tensor pl k) as [[s dt]|] eqn:E1; try discriminate.
    destruct (rv_or_tensor pl v) as [[s' dt']|] eqn:E2; try discriminate.
    rewrite andb_true_iff, shape_compat_spec, Nat.eqb_eq. intros [H <-].
    exists s, s', dt. rewrite <- !rv_or_tensor_spec. auto.
  - intros (s & s' & dt & H1 & H2 & H3). apply rv_or_tensor_spec in H1, H2. rewrite H1, H2.
    rewrite andb_true_iff, shape_compat_spec, Nat.eqb_eq. auto.
Qed.

Lemma check_latent_spec : forall d,
  forallb (check_latent_item pl) d = true <-> (forall k v, In (k, v) d -> latent_ok (V := V) pl k v).
Proof.
  intros d. rewrite forallb_forall. split.
  - intros H k v Hi. apply check_latent_item_spec; auto.
  - intros H [k v] Hi. apply check_latent_item_spec; auto.
Qed.

(** ** Storing *)

Definition kept_list (d : list (obj V * obj V)) (r : list (obj V * stored)) : Prop :=
  Forall2 (fun kv ks => fst ks = fst kv /\ kept pl conv (fst kv) (snd kv) (snd ks)) d r.

Lemma store_ok : forall d, (forall k v, In (k, v) d -> item_ok pl k v) ->
  (exists r, store pl conv d = Ret r /\ kept_list d r) \/
  (store pl conv d = Raise EConvert /\
   exists k v s dt s' x, In (k, v) d /\ observable k s dt /\ py_data v s' x /\ conv dt x = None).
Proof.
  induction d as [|[k v] d IH]; intros H.
  - left. exists []. split; auto. constructor.
  - assert (Hrest : forall ks, kept pl conv k v ks ->
      (exists r, match store pl conv d with Ret y => Ret ([(k, ks)] ++ y) | Raise e => Raise e end = Ret r /\
                 kept_list ((k, v) :: d) r) \/
      (match store pl conv d with Ret y => Ret ([(k, ks)] ++ y) | Raise e => Raise e end = Raise EConvert /\
       exists k0 v0 s dt s' x, In (k0, v0) ((k, v) :: d) /\ observable k0 s dt /\ py_data v0 s' x /\ conv dt x = None)).
    { intros ks Hk. destruct IH as [(r & E & Hr)|(E & k0 & v0 & s & dt & s' & x & Hi & Ho & Hp & Hc)].
      - intros; apply H; right; auto.
      - left. rewrite E. exists ((k, ks) :: r). split; auto. constructor; auto.
      - right. rewrite E. split; auto. exists k0, v0, s, dt, s', x. split; auto. right; auto. }
    assert (Hobs : forall s dt, observable k s dt ->
       store pl conv ((k, v) :: d) =
       (let rest (x : list (obj V * stored)) :=
           match store pl conv d with Ret y => Ret (x ++ y) | Raise e => Raise e end in
         match rv_or_tensor pl v with
          | Some _ => rest [(k, SObj v)]
          | None => match v with
              | OPy s x | ONp s _ x => match conv dt x with Some x' => rest [(k, SVar dt s x')] | None => Raise EConvert end
              | _ => rest [] end end)).
    { intros s dt Ho. inversion Ho; subst; reflexivity. }
    specialize (H k v (or_introl eq_refl)). inversion H; subst.
    + apply Hrest. constructor.
    + rewrite (Hobs _ _ H0). cbv zeta. pose proof H1 as Hg. apply rv_or_tensor_spec in H1. rewrite H1.
      apply Hrest. eapply kp_graph; eauto.
    + rewrite (Hobs _ _ H0). cbv zeta. rewrite (py_not_graph _ _ _ H1).
      assert (Hfail : conv dt x = None -> exists k0 v0 s dt s' x, In (k0, v0) ((k, v) :: d) /\
                observable k0 s dt /\ py_data v0 s' x /\ conv dt x = None).
      { intros Hc. exists k, v, s, dt, s', x. repeat split; auto. left; auto. }
      inversion H1; subst; destruct (conv dt x) eqn:Ec; auto; apply Hrest; eapply kp_value; eauto.
Qed.

Lemma construct_spec : forall l d,
  let lok := exists l0, items l l0 /\ forall k v, In (k, v) l0 -> latent_ok pl k v in
  let dok := exists d0, items d d0 /\ forall k v, In (k, v) d0 -> item_ok pl k v in
  (~ (lok /\ dok) /\ construct pl conv l d = Raise ETypeError) \/
  (exists l0 d0, items l l0 /\ items d d0 /\ (forall k v, In (k, v) l0 -> latent_ok pl k v) /\
     (forall k v, In (k, v) d0 -> item_ok pl k v) /\
     ((exists r, construct pl conv l d = Ret (mkinf l0 r) /\ kept_list d0 r) \/
      (construct pl conv l d = Raise EConvert /\ ~ convertible conv d0))).
Proof.
  intros l d lok dok. unfold construct.
  destruct (or_empty l) as [l0|] eqn:El.
  2:{ left. split; auto. intros [(l1 & Hl & _) _]. destruct l as [[]|]; simpl in *; try discriminate; auto. }
  assert (Hl : items l l0) by (destruct l as [[]|]; simpl in *; inversion El; auto).
  destruct (or_empty d) as [d0|] eqn:Ed.
  2:{ left. split; auto. intros [_ (l1 & Hd & _)]. destruct d as [[]|]; simpl in *; try discriminate; auto. }
  assert (Hd : items d d0) by (destruct d as [[]|]; simpl in *; inversion Ed; auto).
  assert (Hfun : forall a (x y : list (obj V * obj V)), items a x -> items a y -> x = y).
  { intros [[]|] x y; simpl; intros; subst; tauto. }
  destruct (forallb (check_latent_item pl) l0) eqn:E1.
  2:{ left. split; auto. intros [(l1 & Hl1 & H1) _]. rewrite <- (Hfun _ _ _ Hl Hl1) in H1.
      apply check_latent_spec in H1. congruence. }
  destruct (forallb (check_item pl) d0) eqn:E2.
  2:{ left. split; auto. intros [_ (l1 & Hl1 & H1)]. rewrite <- (Hfun _ _ _ Hd Hl1) in H1.
      apply check_items_spec in H1. congruence. }
  right. exists l0, d0. pose proof (proj1 (check_latent_spec _) E1) as H1. pose proof (proj1 (check_items_spec _) E2) as H2.
  repeat split; auto.
  destruct (store_ok d0 H2) as [(r & E & Hr)|(E & k & v & s & dt & s' & x & Hi & Ho & Hp & Hc)]; rewrite E.
  - left; eauto.
  - right. split; auto. intros Hcv. eapply Hcv; eauto.
Qed.

Lemma kept_list_keys : forall d r, kept_list d r -> map fst r = map fst d.
Proof. induction 1; simpl; auto. destruct H. f_equal; auto. Qed.

Lemma data_never_dropped : forall l d,
  match construct pl conv l d with
  | Ret i => exists d0, items d d0 /\ map fst (i_data i) = map fst d0 /\
      Forall2 (fun kv ks => kept pl conv (fst kv) (snd kv) (snd ks)) d0 (i_data i) /\
      forall k v, In (k, v) d0 -> item_ok pl k v
  | Raise ETypeError =>
      ~ ((exists l0, items l l0 /\ forall k v, In (k, v) l0 -> latent_ok pl k v) /\
         (exists d0, items d d0 /\ forall k v, In (k, v) d0 -> item_ok pl k v))
  | Raise EConvert => exists d0, items d d0 /\ ~ convertible conv d0
  end.
Proof.
  intros l d. destruct (construct_spec l d) as [[H E]|(l0 & d0 & Hl & Hd & H1 & H2 & [(r & E & Hr)|(E & Hc)])]; rewrite E.
  - exact H.
  - exists d0. simpl. split; auto. split; [apply kept_list_keys; auto|]. split; auto.
    clear -Hr. induction Hr as [|? ? ? ? []]; constructor; auto.
  - exists d0; auto.
Qed.

Lemma latent_checked : forall l d,
  (forall i, construct pl conv l d = Ret i ->
     items l (i_latent i) /\ forall k v, In (k, v) (i_latent i) -> latent_ok pl k v) /\
  (~ (exists l0, items l l0 /\ forall k v, In (k, v) l0 -> latent_ok pl k v) ->
   construct pl conv l d = Raise ETypeError) /\
  (forall l0 d0, items l l0 -> items d d0 -> (forall k v, In (k, v) l0 -> latent_ok pl k v) ->
     (forall k v, In (k, v) d0 -> item_ok pl k v) -> convertible conv d0 ->
     exists r, construct pl conv l d = Ret (mkinf l0 r)).
Proof.
  intros l d. destruct (construct_spec l d) as [[H E]|(l0 & d0 & Hl & Hd & H1 & H2 & [(r & E & Hr)|(E & Hc)])]; rewrite E.
  - split; [intros; discriminate|]. split; auto. intros l0 d0 A B C D. destruct H. split; eauto.
  - split. { intros i Ei; inversion Ei; subst; auto. }
    split. { intros Hn. destruct Hn; eauto. }
    intros l1 d1 A B C D _. exists r. do 2 f_equal. destruct l as [[]|]; simpl in *; subst; tauto.
  - split; [intros; discriminate|]. split. { intros Hn. destruct Hn; eauto. }
    intros l1 d1 A B C D Hcv. destruct Hc. assert (d0 = d1) by (destruct d as [[]|]; simpl in *; subst; tauto).
    subst; auto.
Qed.
End P.
