(** * Proofs for C45. *)
From Coq Require Import List Arith Bool Lia.
From Verif Require Import RandomVar RandomVarSpec.
Import ListNotations.

Lemma listed_set : forall w d g l d' g', listed (set_entry w d g l) d' g' = if andb (Nat.eqb d' d) (Nat.eqb g' g) then l else listed w d' g'.
Proof. intros. unfold listed, set_entry. destruct (andb _ _); auto. Qed.

Lemma append_listed : forall g x c w w', append_to g x c w = inl w' -> forall d g',
  listed w' d g' = listed w d g' ++ (if andb (names d c) (Nat.eqb g' g) then [x] else []).
Proof.
  intros g x c w w' H d g'. destruct c as [|d0 default|]; simpl in H; [| |discriminate].
  - injection H as <-. rewrite listed_set. cbn [names]. destruct (Nat.eqb_spec d 0); simpl; [|rewrite app_nil_r; auto].
    destruct (Nat.eqb_spec g' g); [|rewrite app_nil_r; auto]. subst. reflexivity.
  - cbn [names]. destruct (w d0 g) as [l|] eqn:E.
    + injection H as <-. rewrite listed_set. destruct (Nat.eqb_spec d d0); simpl; [|rewrite app_nil_r; auto].
      destruct (Nat.eqb_spec g' g); [|rewrite app_nil_r; auto]. subst. unfold listed. rewrite E. auto.
    + destruct default; [|discriminate]. injection H as <-. rewrite listed_set. destruct (Nat.eqb_spec d d0); simpl; [|rewrite app_nil_r; auto].
      destruct (Nat.eqb_spec g' g); [|rewrite app_nil_r; auto]. subst. unfold listed. rewrite E. auto.
Qed.

Lemma register_listed : forall g x cs w w', register g x cs w = (w', None) -> forall d g',
  listed w' d g' = listed w d g' ++ (if Nat.eqb g' g then repeat x (times_named d cs) else []).
Proof.
  intros g x cs. induction cs as [|c cs IH]; intros w w' H d g'; cbn [register] in H.
  - injection H as <-. unfold times_named. simpl. destruct (Nat.eqb g' g); rewrite app_nil_r; auto.
  - destruct (append_to g x c w) as [w1|e] eqn:E; [|discriminate].
    rewrite (IH _ _ H), (append_listed _ _ _ _ _ E). rewrite <- app_assoc. f_equal. unfold times_named. cbn [filter].
    destruct (Nat.eqb g' g); [|rewrite andb_false_r; auto]. rewrite andb_true_r. destruct (names d c); auto.
Qed.

Lemma usable_append : forall g x c w, usable w g c -> exists w', append_to g x c w = inl w'.
Proof.
  intros g x [|d default|] w H; simpl in *; [eauto| |contradiction].
  destruct (w d g) eqn:E; [eauto|]. destruct H as [->|H]; [eauto|congruence].
Qed.

Lemma usable_kept : forall g x c c' w w', append_to g x c w = inl w' -> usable w g c' -> usable w' g c'.
Proof.
  intros g x c c' w w' H U. destruct c' as [|d default|]; auto. destruct U as [U|U]; [left; auto|]. right.
  assert (K : forall d0 l, set_entry w d0 g l d g <> None) by (intros d0 l; unfold set_entry; destruct (andb _ _); auto; discriminate).
  destruct c as [|d0 def|]; simpl in H; [injection H as <-; apply K| |discriminate].
  destruct (w d0 g); [injection H as <-; apply K|]. destruct def; [injection H as <-; apply K|discriminate].
Qed.

Lemma usable_register : forall g x cs w, Forall (usable w g) cs -> exists w', register g x cs w = (w', None).
Proof.
  intros g x cs. induction cs as [|c cs IH]; intros w H; [simpl; eauto|]. inversion H as [|? ? Hc Hcs]; subst.
  destruct (usable_append g x c w Hc) as (w1 & E). cbn [register]. rewrite E. apply IH.
  revert Hcs. apply Forall_impl. intros c' Hc'. eapply usable_kept; eauto.
Qed.

Definition run_inner (g : nat) : list construction -> world -> world * option rv_error :=
  fix run l w := match l with
    | [] => (w, None)
    | c' :: l' => let (w', e) := construct g c' w in match e with None => run l' w' | Some _ => (w', e) end
    end.

Lemma construct_eq : forall g x inner a cs w, construct g (Construct x inner a cs) w =
  let (w', e) := run_inner g inner w in
  match e with Some _ => (w', e) | None => match value_step a with Some e' => (w', Some e') | None => register g x cs w' end end.
Proof. reflexivity. Qed.

(** A construction without inner ones. *)
Lemma leaf_construct : forall g x a cs w, Forall (usable w g) cs ->
  match value_step a with
  | Some e => construct g (Construct x [] a cs) w = (w, Some e)
  | None => exists w', construct g (Construct x [] a cs) w = (w', None) /\
      forall d g', listed w' d g' = listed w d g' ++ (if Nat.eqb g' g then repeat x (times_named d cs) else [])
  end.
Proof.
  intros g x a cs w U. rewrite construct_eq. cbn [run_inner]. destruct (value_step a); auto.
  destruct (usable_register g x cs w U) as (w' & E). exists w'. split; auto. intros d g'. apply register_listed; auto.
Qed.

(** What a successful construction appends. *)
Fixpoint construct_listed (g : nat) (c : construction) {struct c} : forall w w', construct g c w = (w', None) -> forall d g',
  listed w' d g' = listed w d g' ++ (if Nat.eqb g' g then appends d c else []).
Proof.
  destruct c as [x inner a cs]. intros w w' H d g'. rewrite construct_eq in H.
  assert (K : forall w w', run_inner g inner w = (w', None) -> listed w' d g' = listed w d g' ++ (if Nat.eqb g' g then flat_map (appends d) inner else [])).
  { clear w w' H. induction inner as [|c inner IH]; intros w w' H; cbn [run_inner] in H.
    - injection H as <-. simpl. destruct (Nat.eqb g' g); rewrite app_nil_r; auto.
    - destruct (construct g c w) as [w1 [e|]] eqn:E; [discriminate|]. fold (run_inner g) in H.
      rewrite (IH _ _ H). rewrite (construct_listed g c _ _ E). rewrite <- app_assoc. f_equal. cbn [flat_map].
      destruct (Nat.eqb g' g); auto. }
  destruct (run_inner g inner w) as [w1 [e|]] eqn:E; [discriminate|]. destruct (value_step a); [discriminate|].
  rewrite (register_listed _ _ _ _ _ H), (K _ _ E). rewrite <- app_assoc. f_equal. cbn [appends]. destruct (Nat.eqb g' g); auto.
Qed.

(** Other graphs never change, whatever happens. *)
Lemma register_other : forall g x cs w d g', g' <> g -> fst (register g x cs w) d g' = w d g'.
Proof.
  intros g x cs. induction cs as [|c cs IH]; intros w d g' N; auto. cbn [register].
  destruct (append_to g x c w) as [w1|e] eqn:E; auto. rewrite IH by auto.
  assert (K : forall d0 l, set_entry w d0 g l d g' = w d g').
  { intros d0 l. unfold set_entry. destruct (Nat.eqb_spec g' g); [congruence|]. rewrite andb_false_r. auto. }
  destruct c as [|d0 def|]; simpl in E; [injection E as <-; apply K| |discriminate].
  destruct (w d0 g); [injection E as <-; apply K|]. destruct def; [injection E as <-; apply K|discriminate].
Qed.

Fixpoint construct_other (g : nat) (c : construction) {struct c} : forall w d g', g' <> g -> fst (construct g c w) d g' = w d g'.
Proof.
  destruct c as [x inner a cs]. intros w d g' N. rewrite construct_eq.
  assert (K : forall w, fst (run_inner g inner w) d g' = w d g').
  { induction inner as [|c inner IH]; intros w0; auto. cbn [run_inner]. fold (run_inner g).
    pose proof (construct_other g c w0 d g' N) as E. destruct (construct g c w0) as [w1 [e|]]; auto. rewrite IH. auto. }
  specialize (K w). destruct (run_inner g inner w) as [w1 [e|]]; auto. destruct (value_step a); auto. rewrite register_other by auto. auto.
Qed.

(** Programs of plain constructions into the default collection: creation order. *)
Lemma creation_order : forall (p : list (nat * (nat * rv_args))) w g,
  random_variables (run_program (map (fun u => (fst u, Construct (fst (snd u)) [] (snd (snd u)) [RandomVariables])) p) w) g =
  random_variables w g ++ map (fun u => fst (snd u)) (filter (fun u => andb (Nat.eqb (fst u) g) (match value_step (snd (snd u)) with None => true | _ => false end)) p).
Proof.
  induction p as [|[g0 [x a]] p IH]; intros w g; [simpl; rewrite app_nil_r; auto|].
  cbn [map fst snd run_program fold_left]. fold (run_program (map (fun u => (fst u, Construct (fst (snd u)) [] (snd (snd u)) [RandomVariables])) p)).
  unfold run_program in IH. rewrite IH. cbn [filter fst snd].
  pose proof (leaf_construct g0 x a [RandomVariables] w (Forall_cons RandomVariables I (Forall_nil _))) as L.
  destruct (value_step a) as [e|].
  - rewrite L. rewrite andb_false_r. reflexivity.
  - destruct L as (w' & E & L). rewrite E. cbn [fst]. specialize (L 0 g). unfold listed in L.
    unfold random_variables at 1. rewrite L. unfold random_variables. rewrite (Nat.eqb_sym g g0). destruct (Nat.eqb g0 g); simpl.
    + rewrite <- app_assoc. auto.
    + rewrite app_nil_r. auto.
Qed.

(** Bad collections after good ones. *)
Lemma half_registered : exists a cs w w' e, construct 0 (Construct 7 [] a cs) w = (w', Some e) /\ In 7 (random_variables w' 0) /\ ~ In 7 (random_variables w 0).
Proof.
  exists (mkargs false (known []) (known []) (known []) None true), [RandomVariables; NotADict], (fun _ _ => None).
  eexists _, TypeError. split; [reflexivity|]. split; [vm_compute; auto|]. vm_compute. auto.
Qed.

Lemma documented_collections : forall g x a w, value_step a = None -> construct g (Construct x [] a [NotADict]) w = (w, Some TypeError).
Proof. intros g x a w H. rewrite construct_eq. cbn [run_inner]. rewrite H. reflexivity. Qed.

Lemma inner_stays : exists x cat a b w w' e, construct 0 (Construct x [Construct cat [] a [RandomVariables]] b [RandomVariables]) w = (w', Some e) /\
  In cat (random_variables w' 0) /\ ~ In cat (random_variables w 0).
Proof.
  exists 7, 5, (mkargs false (known []) (known []) (known []) None true), (mkargs true (known []) (known []) (known []) None true), (fun _ _ => None).
  eexists _, ConstructorError. split; [reflexivity|]. split; [vm_compute; auto|]. vm_compute. auto.
Qed.

(** The check of the argument value. *)
Lemma dims_known : forall a b, dims_compatible (map Some a) (map Some b) = true <-> a = b.
Proof.
  induction a as [|x a IH]; intros [|y b]; simpl; split; intros H; try discriminate; auto.
  - apply andb_true_iff in H. destruct H as [H1 H2]. apply Nat.eqb_eq in H1. apply IH in H2. congruence.
  - injection H as -> ->. rewrite Nat.eqb_refl. apply IH. auto.
Qed.

Lemma value_checked : forall sample batch event value can,
  (value_step (mkargs false (known sample) (known batch) (known event) (Some (known value)) can) = None <-> value = sample ++ batch ++ event) /\
  (value <> sample ++ batch ++ event -> value_step (mkargs false (known sample) (known batch) (known event) (Some (known value)) can) = Some ValueError).
Proof.
  intros sample batch event value can. unfold value_step, known. cbn [a_init_raises a_value a_sample_shape a_batch_shape a_event_shape concatenate shape_compatible].
  rewrite <- !map_app, <- app_assoc. pose proof (dims_known value (sample ++ batch ++ event)) as D.
  destruct (dims_compatible _ _); split.
  - split; auto. intros _. apply D. auto.
  - intros N. exfalso. apply N, D. auto.
  - split; [discriminate|]. intros E. apply D in E. discriminate.
  - auto.
Qed.

Lemma value_unknown : forall a s, a_init_raises a = false -> a_value a = Some s -> s = None \/ a_sample_shape a = None \/ a_batch_shape a = None \/ a_event_shape a = None -> value_step a = None.
Proof.
  intros a s H1 H2 H3. unfold value_step. rewrite H1, H2.
  assert (E : shape_compatible s (concatenate (concatenate (a_sample_shape a) (a_batch_shape a)) (a_event_shape a)) = true).
  { destruct s as [s|]; auto. destruct (a_sample_shape a), (a_batch_shape a), (a_event_shape a); auto. exfalso. intuition discriminate. }
  rewrite E. auto.
Qed.

(** ** The outcome of a construction *)
Definition allowed (d : option nat) (n : nat) : Prop := d = None \/ d = Some n.

Lemma allows_app : forall a b l, allows (concatenate (Some a) (Some b)) l <-> exists l1 l2, l = l1 ++ l2 /\ allows (Some a) l1 /\ allows (Some b) l2.
Proof.
  intros a b l. simpl. split.
  - intros H. apply Forall2_app_inv_l in H. destruct H as (l1 & l2 & H1 & H2 & ->). eauto.
  - intros (l1 & l2 & -> & H1 & H2). apply Forall2_app; auto.
Qed.

Lemma dims_common : forall a b, dims_compatible a b = true <-> exists l, Forall2 allowed a l /\ Forall2 allowed b l.
Proof.
  induction a as [|x a IH]; intros [|y b]; simpl.
  - split; auto. intros _. exists []. split; constructor.
  - split; [discriminate|]. intros (l & H1 & H2). inversion H1; subst. inversion H2.
  - split; [discriminate|]. intros (l & H1 & H2). inversion H2; subst. inversion H1.
  - rewrite andb_true_iff, IH. split.
    + intros (Hd & l & H1 & H2). destruct x as [m|]; [|destruct y as [n|]].
      * exists (m :: l). split; constructor; auto; unfold allowed; auto. destruct y as [n|]; auto.
        simpl in Hd. apply Nat.eqb_eq in Hd. subst; auto.
      * exists (n :: l). split; constructor; auto; unfold allowed; auto.
      * exists (0 :: l). split; constructor; auto; unfold allowed; auto.
    + intros (l & H1 & H2). inversion H1 as [|? n ? l' E1 F1]; subst. inversion H2 as [|? ? ? ? E2 F2]; subst. split; [|eauto].
      destruct x as [m|], y as [k|]; auto; simpl. destruct E1, E2; try discriminate. apply Nat.eqb_eq. congruence.
Qed.

Lemma all_allowed : forall a, exists l, Forall2 allowed a l.
Proof.
  induction a as [|[n|] a [l IH]]; [exists []; constructor|exists (n :: l)|exists (0 :: l)]; constructor; auto; unfold allowed; auto.
Qed.

Lemma fits_compatible : forall s b e v, shape_compatible v (concatenate (concatenate s b) e) = true <-> fits s b e v.
Proof.
  intros s b e v. unfold fits. destruct s as [s|]; [|simpl; destruct v; tauto]. destruct b as [b|]; [|simpl; destruct v; tauto].
  destruct e as [e|]; [|simpl; destruct v; tauto].
  assert (T : (exists l, allows v l /\ allows (concatenate (concatenate (Some s) (Some b)) (Some e)) l) <->
    (Some s = None \/ Some b = None \/ Some e = None \/
     exists l1 l2 l3, allows (Some s) l1 /\ allows (Some b) l2 /\ allows (Some e) l3 /\ allows v (l1 ++ l2 ++ l3))).
  { split.
    - intros (l & Hv & H). do 3 right. simpl in H. apply Forall2_app_inv_l in H. destruct H as (l12 & l3 & H12 & H3 & ->).
      apply Forall2_app_inv_l in H12. destruct H12 as (l1 & l2 & H1 & H2 & ->). exists l1, l2, l3. rewrite app_assoc. simpl. auto.
    - intros [E|[E|[E|(l1 & l2 & l3 & H1 & H2 & H3 & Hv)]]]; try discriminate. exists (l1 ++ l2 ++ l3). split; auto.
      simpl. rewrite app_assoc. repeat apply Forall2_app; auto. }
  rewrite <- T. clear T. destruct v as [v|].
  - simpl. rewrite dims_common. reflexivity.
  - simpl. split; auto. intros _. destruct (all_allowed ((s ++ b) ++ e)) as [l Hl]. exists l. auto.
Qed.

Lemma construct_outcome : forall a,
  let fit s := fits (a_sample_shape a) (a_batch_shape a) (a_event_shape a) s in
  (value_step a = Some ConstructorError <-> a_init_raises a = true) /\
  (value_step a = Some NotImplementedError <-> a_init_raises a = false /\ a_value a = None /\ a_can_sample a = false) /\
  (value_step a = Some ValueError <-> a_init_raises a = false /\ exists s, a_value a = Some s /\ ~ fit s) /\
  (value_step a = None <-> a_init_raises a = false /\
     ((a_value a = None /\ a_can_sample a = true) \/ exists s, a_value a = Some s /\ fit s)).
Proof.
  intros a fit. unfold value_step. destruct (a_init_raises a).
  { split; [tauto|]. split; [split; [discriminate|intuition congruence]|]. split; split; try discriminate; intuition congruence. }
  destruct (a_value a) as [s|].
  - assert (F := fits_compatible (a_sample_shape a) (a_batch_shape a) (a_event_shape a) s). fold (fit s) in F.
    cbv zeta. destruct (shape_compatible s _).
    + assert (Hf : fit s) by (apply F; auto). split; [split; discriminate|]. split; [split; [discriminate|intuition congruence]|].
      split; split; auto; try discriminate.
      * intros (_ & s' & E & N). injection E as <-. tauto.
      * intros _. split; auto. right. eauto.
    + assert (Hf : ~ fit s) by (intros H; apply F in H; discriminate). split; [split; discriminate|]. split; [split; [discriminate|intuition congruence]|].
      split; split; auto; try discriminate.
      * intros _. split; auto. eauto.
      * intros (_ & [[E _]|(s' & E & N)]); [discriminate|]. injection E as <-. tauto.
  - destruct (a_can_sample a).
    + split; [split; discriminate|]. split; [split; [discriminate|intuition congruence]|]. split; split; auto; try discriminate.
      intros (_ & s' & E & _). discriminate.
    + split; [split; discriminate|]. split; [split; auto|]. split; split; try discriminate.
      * intros (_ & s' & E & _). discriminate.
      * intros (_ & [[_ E]|(s' & E & _)]); discriminate.
Qed.

Lemma identity : forall x y, (rv_eq x y = true <-> x = y) /\ (rv_eq x y = true -> rv_hash x = rv_hash y).
Proof. intros x y. unfold rv_eq, rv_hash. rewrite Nat.eqb_eq. tauto. Qed.
