(** * Proofs for C44, C58 and C59. *)
From Coq Require Import Reals Ascii String List Arith Bool Lia Lra.
From Verif Require Import Graph GraphProofs Transform TransformProofs VIProofs GAN GANSpec.
Import ListNotations.
Local Open Scope string_scope.

Lemma memb_In : forall v l, memb v l = true <-> In v l.
Proof.
  intros v l. unfold memb. rewrite existsb_exists. split.
  - intros (x & H & E). apply Nat.eqb_eq in E. subst. auto.
  - intros H. exists v. split; auto. apply Nat.eqb_refl.
Qed.

Lemma memb_not_In : forall v l, memb v l = false <-> ~ In v l.
Proof. intros v l. rewrite <- memb_In. destruct (memb v l); split; congruence. Qed.

Lemma rest_splits : forall items scope, splits items (rest (map fst items) (get_collection items scope)) (get_collection items scope).
Proof.
  intros items scope i Hi. unfold rest. rewrite filter_In. destruct (memb i (get_collection items scope)) eqn:E.
  - right. apply memb_In in E. split; auto. intros [_ H]. discriminate.
  - left. apply memb_not_In in E. auto.
Qed.

Lemma collection_In : forall items scope i, NoDup (map fst items) -> forall name, In (i, name) items ->
  (In i (get_collection items scope) <-> prefix scope name = true).
Proof.
  intros items scope i ND name Hi. unfold get_collection. rewrite in_map_iff. split.
  - intros ((j & n) & E & H). apply filter_In in H. destruct H as [H P]. simpl in *. subst j.
    assert (n = name); [|subst; auto]. clear P. induction items as [|[k m] items IH]; [destruct H|]. simpl in ND. inversion ND as [|? ? Hn ND']; subst.
    destruct H as [H|H]; destruct Hi as [Hi|Hi].
    + congruence.
    + exfalso. apply Hn. injection H as E1 E2. subst k. apply (in_map fst) in Hi. auto.
    + exfalso. apply Hn. injection Hi as E1 E2. subst k. apply (in_map fst) in H. auto.
    + auto.
  - intros P. exists (i, name). split; auto. apply filter_In. auto.
Qed.

Lemma prefix_app : forall a b, prefix a (a ++ b) = true.
Proof. induction a as [|c a IH]; intros b; [destruct b; reflexivity|]. cbn. destruct (ascii_dec c c); [apply IH|congruence]. Qed.

(** Every side of a variable: by default. *)
Lemma gan_sides : forall trainable, NoDup (map fst trainable) ->
  let (gen, disc) := gan_var_lists trainable None in
  splits trainable gen disc /\
  (forall i name, In (i, name) trainable -> in_scope "Disc" name -> In i disc) /\
  ((forall i name, In (i, name) trainable -> prefix "Disc" name = true -> in_scope "Disc" name) ->
   forall i name, In (i, name) trainable -> In i disc -> in_scope "Disc" name) /\
  (forall i, In i gen \/ In i disc -> In i (map fst trainable)).
Proof.
  intros trainable ND. unfold gan_var_lists. split; [apply rest_splits|]. split; [|split].
  - intros i name Hi (s & ->). apply (collection_In trainable "Disc" i ND _ Hi). apply prefix_app.
  - intros H i name Hi Hd. apply (collection_In trainable "Disc" i ND _ Hi) in Hd. eapply H; eauto.
  - intros i [H|H].
    + unfold rest in H. apply filter_In in H. tauto.
    + unfold get_collection in H. rewrite in_map_iff in H. destruct H as (j & <- & H). apply filter_In in H. apply in_map. tauto.
Qed.

(** "Discount/w" is in the collection of the scope "Disc". *)
Lemma scope_prefix : exists trainable : list item, NoDup (map fst trainable) /\
  exists i name, In (i, name) trainable /\ ~ in_scope "Disc" name /\ In i (snd (gan_var_lists trainable None)).
Proof.
  exists [(0, "Discount/w"); (1, "Disc/w"); (2, "Gen/w")]. split; [repeat constructor; simpl; lia|].
  exists 0, "Discount/w". split; [simpl; auto|]. split; [|vm_compute; auto]. intros (s & E). discriminate.
Qed.

(** Inside a scope the discriminator's variables go to the generator. *)
Lemma outer_scope : forall c outer created gen, 
  c <> "D"%char -> (forall i name, In (i, name) gen -> prefix "Disc" name = false) ->
  let trainable := (gen ++ disc_created (String c outer) created)%list in
  gan_var_lists trainable None = (map fst trainable, []) /\ can_apply (gan_var_lists trainable None) = false.
Proof.
  intros c outer created gen Hc Hg trainable.
  assert (E : get_collection trainable "Disc" = []).
  { unfold get_collection, trainable. rewrite filter_app, map_app.
    assert (E1 : filter (fun i : item => prefix "Disc" (snd i)) gen = []).
    { clear -Hg. induction gen as [|[i n] gen IH]; auto. simpl.
      pose proof (Hg i n (or_introl eq_refl)) as H. simpl in H. rewrite H. apply IH. intros j m Hj. apply (Hg j m). right. auto. }
    assert (E2 : filter (fun i : item => prefix "Disc" (snd i)) (disc_created (String c outer) created) = []).
    { unfold disc_created. clear -Hc. induction created as [|i l IH]; auto. cbn [map filter fst snd].
      replace (prefix "Disc" (String c outer ++ "Disc/" ++ snd i)) with false; auto. cbn [append prefix].
      destruct (ascii_dec "D" c); [exfalso; apply Hc; auto|reflexivity]. }
    transitivity (map fst ([] : list item) ++ map fst ([] : list item))%list; [|reflexivity].
    f_equal; f_equal; assumption. }
  unfold gan_var_lists. rewrite E. split.
  - f_equal. unfold rest. clear. induction (map fst trainable) as [|x l IH]; auto. simpl. f_equal. auto.
  - unfold can_apply. destruct (rest _ []); auto.
Qed.

(** BiGAN: a variable in neither scope is trained by nobody. *)
Lemma bigan_neither : exists trainable : list item, exists var_list, NoDup (map fst trainable) /\ can_apply (bigan_var_lists trainable var_list) = true /\
  exists i, In i (map fst trainable) /\ (exists l, var_list = Some l /\ In i l) /\
    ~ In i (fst (bigan_var_lists trainable var_list)) /\ ~ In i (snd (bigan_var_lists trainable var_list)).
Proof.
  exists [(0, "Disc/w"); (1, "Gen/w"); (2, "encoder/w")], (Some [1; 2]). split; [repeat constructor; simpl; lia|]. split; [reflexivity|].
  exists 2. split; [simpl; auto|]. split; [exists [1; 2]; simpl; auto|]. split; vm_compute; intros H; repeat (destruct H as [H|H]; [discriminate|]); auto.
Qed.

Lemma prefix_disjoint : forall name, prefix "Disc" name = true -> prefix "Gen" name = true -> False.
Proof.
  intros [|c n]; cbn [prefix]; [discriminate|]. destruct (ascii_dec "D" c); [|discriminate]. intros _. subst c.
  destruct (ascii_dec "G" "D"); discriminate.
Qed.

(** BiGAN: what the two scopes hold, and nothing is on both sides. *)
Lemma bigan_sides : forall trainable var_list, NoDup (map fst trainable) ->
  (forall i name, In (i, name) trainable -> in_scope "Disc" name \/ in_scope "Gen" name) ->
  splits trainable (fst (bigan_var_lists trainable var_list)) (snd (bigan_var_lists trainable var_list)) /\
  forall i name, In (i, name) trainable -> (In i (snd (bigan_var_lists trainable var_list)) <-> in_scope "Disc" name).
Proof.
  intros trainable vl ND H.
  assert (K : forall i name, In (i, name) trainable ->
    (In i (get_collection trainable "Disc") <-> in_scope "Disc" name) /\ (In i (get_collection trainable "Gen") <-> in_scope "Gen" name)).
  { intros i name Hi. rewrite (collection_In _ "Disc" _ ND _ Hi), (collection_In _ "Gen" _ ND _ Hi).
    assert (P : forall s n, in_scope s n -> prefix s n = true) by (intros s n (r & ->); apply prefix_app).
    destruct (H _ _ Hi) as [Hs|Hs]; pose proof (P _ _ Hs) as P1.
    - split; [tauto|]. split; [intros P2; destruct (prefix_disjoint _ P1 P2)|]. intros P2. destruct (prefix_disjoint _ P1 (P _ _ P2)).
    - split; [|tauto]. split; [intros P2; destruct (prefix_disjoint _ P2 P1)|]. intros P2. destruct (prefix_disjoint _ (P _ _ P2) P1). }
  split.
  - intros i Hi. apply in_map_iff in Hi. destruct Hi as ((j & name) & <- & Hi). simpl. destruct (K _ _ Hi) as [K1 K2]. unfold bigan_var_lists. simpl.
    rewrite K1, K2. destruct (H _ _ Hi) as [Hs|Hs].
    + right. split; auto. intros Hg. destruct Hs as (s & ->), Hg as (s' & E). discriminate.
    + left. split; auto. intros Hg. destruct Hs as (s & ->), Hg as (s' & E). discriminate.
  - intros i name Hi. apply K; auto.
Qed.

(** ** update *)

Lemma assign_in : forall vars new value v, In v vars -> assign vars new value v = new v.
Proof. intros. unfold assign. apply memb_In in H. rewrite H. auto. Qed.

Lemma assign_out : forall vars new value v, ~ In v vars -> assign vars new value v = value v.
Proof. intros. unfold assign. apply memb_not_In in H. rewrite H. auto. Qed.

Lemma gan_update_touches : forall gen disc debug v r s,
  let s' := fst (gan_update (gen, disc) debug v r s) in
  (v = Some "Gen" -> g_slots_d s' = g_slots_d s /\ (forall w, ~ In w gen -> g_value s' w = g_value s w)) /\
  (v = Some "Disc" -> g_slots s' = g_slots s /\ (forall w, ~ In w disc -> g_value s' w = g_value s w)) /\
  (v = None -> forall w, ~ In w gen -> ~ In w disc -> g_value s' w = g_value s w) /\
  (accepted v -> g_t s' = S (g_t s) /\
     (snd (gan_update (gen, disc) debug v r s) = inl (S (g_t s)) \/ debug = true /\ snd (gan_update (gen, disc) debug v r s) = inr InvalidArgumentError)) /\
  (~ accepted v -> gan_update (gen, disc) debug v r s = (s, inr NotImplementedError)).
Proof.
  intros gen disc debug v r s s'. subst s'. unfold gan_update. split; [|split; [|split; [|split]]].
  - intros ->. simpl. split; auto. intros w Hw. apply assign_out; auto.
  - intros ->. simpl. split; auto. intros w Hw. apply assign_out; auto.
  - intros ->. simpl. intros w H1 H2. destruct (r_gen_last r); rewrite !assign_out; auto.
  - intros [->|[->| ->]]; simpl; (split; [reflexivity|]); destruct debug; simpl; auto; destruct (r_check_fails r); auto.
  - intros H. destruct v as [v|]; [|exfalso; apply H; left; auto].
    destruct (String.eqb_spec v "Gen"); [exfalso; apply H; subst; right; left; auto|].
    destruct (String.eqb_spec v "Disc"); [exfalso; apply H; subst; right; right; auto|]. reflexivity.
Qed.

Lemma accepted_dec : forall v, accepted_b v = true <-> accepted v.
Proof.
  intros [v|]; simpl; unfold accepted.
  - rewrite orb_true_iff, !String.eqb_eq. split; intros [H|H]; subst; auto; try discriminate.
    destruct H as [H|H]; injection H as ->; auto.
  - split; auto.
Qed.

Lemma gan_history : forall gen disc debug h s,
  let s' := gan_run (gen, disc) debug h s in
  g_t s' = (g_t s + length (filter (fun u => accepted_b (fst u)) h))%nat /\
  ((forall u, In u h -> fst u <> None /\ fst u <> Some "Disc") -> g_slots_d s' = g_slots_d s /\ forall w, ~ In w gen -> g_value s' w = g_value s w) /\
  ((forall u, In u h -> fst u <> None /\ fst u <> Some "Gen") -> g_slots s' = g_slots s /\ forall w, ~ In w disc -> g_value s' w = g_value s w).
Proof.
  intros gen disc debug h. induction h as [|[v r] h IH]; intros s; [simpl; split; [lia|split; auto]|].
  change (gan_run (gen, disc) debug ((v, r) :: h) s) with (gan_run (gen, disc) debug h (fst (gan_update (gen, disc) debug v r s))).
  specialize (IH (fst (gan_update (gen, disc) debug v r s))).
  cbn zeta in IH. destruct IH as (T & G & D).
  destruct (gan_update_touches gen disc debug v r s) as (Ug & Ud & Un & Ua & Ur).
  cbn zeta. set (s1 := fst (gan_update (gen, disc) debug v r s)) in *. split; [|split].
  - rewrite T. cbn [filter fst]. destruct (accepted_b v) eqn:E.
    + apply accepted_dec in E. destruct (Ua E) as [-> _]. simpl. lia.
    + assert (N : ~ accepted v) by (rewrite <- accepted_dec; congruence). unfold s1. rewrite (Ur N). reflexivity.
  - intros H. destruct G as [G1 G2]; [intros u Hu; apply H; right; auto|].
    assert (S1 : g_slots_d s1 = g_slots_d s /\ forall w, ~ In w gen -> g_value s1 w = g_value s w).
    { destruct (H (v, r) (or_introl eq_refl)) as [N1 N2]. cbn in N1, N2. destruct (accepted_b v) eqn:E.
      - apply accepted_dec in E. destruct E as [->|[->| ->]]; try congruence. apply Ug; auto.
      - assert (N : ~ accepted v) by (rewrite <- accepted_dec; congruence). unfold s1. rewrite (Ur N). simpl. auto. }
    destruct S1 as [S1 S2]. split; [congruence|]. intros w Hw. rewrite G2, S2; auto.
  - intros H. destruct D as [G1 G2]; [intros u Hu; apply H; right; auto|].
    assert (S1 : g_slots s1 = g_slots s /\ forall w, ~ In w disc -> g_value s1 w = g_value s w).
    { destruct (H (v, r) (or_introl eq_refl)) as [N1 N2]. cbn in N1, N2. destruct (accepted_b v) eqn:E.
      - apply accepted_dec in E. destruct E as [->|[->| ->]]; try congruence. apply Ud; auto.
      - assert (N : ~ accepted v) by (rewrite <- accepted_dec; congruence). unfold s1. rewrite (Ur N). simpl. auto. }
    destruct S1 as [S1 S2]. split; [congruence|]. intros w Hw. rewrite G2, S2; auto.
Qed.

(** A caller's var_list may hold a variable of the discriminator. *)
Lemma var_list_shared : exists (trainable : list item) (l : list nat) (r : run_result) (s : gan_state) w,
  NoDup (map fst trainable) /\ incl l (map fst trainable) /\ In w (snd (gan_var_lists trainable (Some l))) /\
  g_value (fst (gan_update (gan_var_lists trainable (Some l)) false (Some "Gen") r s)) w <> g_value s w.
Proof.
  exists [(0, "Disc/w"); (1, "Gen/w")], [0; 1], (mkrun (fun _ => 1%R) (fun _ => 1%R) (fun _ => 0%R) (fun _ => 0%R) true false),
    (mkgan (fun _ => 0%R) (fun _ => 0%R) (fun _ => 0%R) 0), 0.
  split; [repeat constructor; simpl; lia|]. split; [intros x Hx; auto|]. split; [vm_compute; auto|].
  cbn. lra.
Qed.

(** ** Clipping *)

Local Open Scope R_scope.

Lemma clip_range : forall w c, 0 <= c -> - c <= clip_by_value w c <= c.
Proof. intros w c Hc. unfold clip_by_value, Rmax, Rmin. repeat destruct (Rle_dec _ _); lra. Qed.

Lemma clip_same : forall w c, - c <= w <= c -> clip_by_value w c = w.
Proof. intros w c Hw. unfold clip_by_value, Rmax, Rmin. repeat destruct (Rle_dec _ _); lra. Qed.

(** The weights are within the bounds after an update of the discriminator that
    returns, and until an update of the discriminator raises. *)
Lemma wgan_after : forall gen disc debug c v r s, 0 <= c -> (forall w, In w gen -> ~ In w disc) ->
  let out := wgan_update (gen, disc) debug (Some c) v r s in
  (touches_disc v -> (exists t, snd out = inl t) -> forall w, In w disc -> - c <= g_value (fst out) w <= c) /\
  (~ touches_disc v -> forall w, In w disc -> g_value (fst out) w = g_value s w).
Proof.
  intros gen disc debug c v r s Hc Hd out. subst out. split.
  - intros Hv (t & Ht) w Hw. unfold wgan_update in *. destruct (gan_update (gen, disc) debug v r s) as [s' [info|e]] eqn:E; [|discriminate].
    assert (B : match v with None => true | Some v0 => String.eqb v0 "Disc" end = true) by (destruct Hv as [->| ->]; reflexivity).
    rewrite B. cbn [fst snd g_value]. rewrite assign_in by auto. apply clip_range; auto.
  - intros Hv w Hw. unfold wgan_update.
    destruct (gan_update_touches gen disc debug v r s) as (Ug & _ & _ & _ & Ur). cbn zeta in *.
    assert (B : match v with None => true | Some v0 => String.eqb v0 "Disc" end = false).
    { destruct v as [v|]; [|exfalso; apply Hv; left; auto]. destruct (String.eqb_spec v "Disc"); auto. subst. exfalso. apply Hv. right. auto. }
    assert (V : g_value (fst (gan_update (gen, disc) debug v r s)) w = g_value s w).
    { destruct (accepted_b v) eqn:A.
      - apply accepted_dec in A. destruct A as [->|[->| ->]]; [exfalso; apply Hv; left; auto| |exfalso; apply Hv; right; auto].
        apply Ug; auto. intros Hg. apply (Hd w); auto.
      - rewrite Ur; auto. rewrite <- accepted_dec. congruence. }
    destruct (gan_update (gen, disc) debug v r s) as [s' [info|e]]; auto. rewrite B. auto.
Qed.

Lemma wgan_history : forall gen disc debug c h1 v r h2 s, 0 <= c -> (forall w, In w gen -> ~ In w disc) ->
  touches_disc v -> (exists t, snd (wgan_update (gen, disc) debug (Some c) v r (wgan_run (gen, disc) debug (Some c) h1 s)) = inl t) ->
  (debug = false \/ forall u, In u h2 -> touches_disc (fst u) -> r_check_fails (snd u) = false) ->
  forall w, In w disc -> - c <= g_value (wgan_run (gen, disc) debug (Some c) (h1 ++ (v, r) :: h2)%list s) w <= c.
Proof.
  intros gen disc debug c h1 v r h2 s Hc Hd Hv Ht Hok w Hw.
  unfold wgan_run. rewrite fold_left_app. cbn [fold_left]. fold (wgan_run (gen, disc) debug (Some c) h1 s).
  cbn [fst snd]. set (s1 := wgan_run (gen, disc) debug (Some c) h1 s) in *.
  destruct (wgan_after gen disc debug c v r s1 Hc Hd) as [K _]. pose proof (K Hv Ht w Hw) as K1. clear K.
  revert K1. generalize (fst (wgan_update (gen, disc) debug (Some c) v r s1)). clear Ht.
  induction h2 as [|[v2 r2] h2 IH]; intros s2 K1; [exact K1|]. cbn [fold_left fst snd]. apply IH.
  - destruct Hok as [Hok|Hok]; auto. right. intros u Hu. apply Hok. right. auto.
  - destruct (wgan_after gen disc debug c v2 r2 s2 Hc Hd) as [A B]. cbn zeta in *.
    assert (D : touches_disc v2 \/ ~ touches_disc v2).
    { unfold touches_disc. destruct v2 as [v2|]; auto. destruct (String.eqb_spec v2 "Disc"); [subst; auto|]. right. intros [H|H]; congruence. }
    destruct D as [D|D].
    + apply A; auto. unfold wgan_update.
      assert (NF : andb debug (r_check_fails r2) = false).
      { destruct Hok as [->|Hok]; auto. pose proof (Hok (v2, r2) (or_introl eq_refl) D) as NF. cbn in NF. rewrite NF. apply andb_false_r. }
      destruct D as [->| ->]; cbn; rewrite NF; cbn; eauto.
    + rewrite B; auto.
Qed.

(** A failing check leaves weights out of bounds, and a later update of the
    generator returns with them. *)
Lemma clip_skipped : exists trainable h s w t, exists c, 0 < c /\ NoDup (map fst trainable) /\
  (let lists := gan_var_lists trainable None in
   In w (snd lists) /\ (exists r, In (Some "Disc"%string, r) h) /\
   (exists h' v r, h = (h' ++ [(v, r)])%list /\ snd (wgan_update lists true (Some c) v r (wgan_run lists true (Some c) h' s)) = inl t) /\
   - c <= g_value s w <= c /\ c < g_value (wgan_run lists true (Some c) h s) w).
Proof.
  set (r := mkrun (fun _ => 1) (fun _ => 1) (fun _ => 0) (fun _ => 0) true true).
  set (r' := mkrun (fun _ => 1) (fun _ => 1) (fun _ => 0) (fun _ => 0) true false).
  exists [(0%nat, "Disc/w"%string); (1%nat, "Gen/w"%string)], [(Some "Disc"%string, r); (Some "Gen"%string, r')], (mkgan (fun _ => 0) (fun _ => 0) (fun _ => 0) 0), 0%nat, 2%nat, 0.5.
  split; [lra|]. split; [repeat constructor; simpl; lia|]. cbn zeta. split; [vm_compute; auto|]. split; [exists r; simpl; auto|]. split.
  - exists [(Some "Disc"%string, r)], (Some "Gen"%string), r'. split; [reflexivity|]. cbn. reflexivity.
  - split; cbn; lra.
Qed.

(** ** Losses *)

Lemma exp_ln_ratio : forall r, 0 < exp r. Proof. intros; apply exp_pos. Qed.

(** The numerically stable formula is the cross entropy of a Bernoulli with
    probability 1 / (1 + exp(-x)). *)
Lemma cross_entropy_eq : forall z x,
  cross_entropy z x = - (z * ln (/ (1 + exp (- x))) + (1 - z) * ln (1 - / (1 + exp (- x)))).
Proof.
  intros z x. unfold cross_entropy.
  assert (P : forall y, 0 < 1 + exp y) by (intros y; pose proof (exp_pos y); lra).
  assert (E2 : 1 - / (1 + exp (- x)) = / (1 + exp x)).
  { assert (X : exp (- x) * exp x = 1) by (rewrite <- exp_plus; replace (- x + x) with 0 by lra; apply exp_0).
    pose proof (P x). pose proof (P (- x)). field_simplify_eq; [|lra]. nra. }
  rewrite E2, !ln_Rinv by apply P.
  assert (E3 : ln (1 + exp x) = x + ln (1 + exp (- x))).
  { rewrite <- (ln_exp x) at 2. rewrite <- ln_mult by (try apply exp_pos; apply P). f_equal.
    rewrite Rmult_plus_distr_l, <- exp_plus. replace (x + - x) with 0 by lra. rewrite exp_0. lra. }
  unfold Rmax, Rabs. destruct (Rle_dec x 0), (Rcase_abs x); try (exfalso; lra).
  - rewrite Ropp_involutive, E3. ring.
  - assert (x = 0) by lra. subst. rewrite E3. ring.
  - rewrite E3. ring.
Qed.

Lemma ln_lt_sub : forall x, 0 < x -> ln x <= x - 1 /\ (ln x = x - 1 -> x = 1).
Proof.
  intros x Hx. destruct (Req_EM_T x 1) as [->|N]; [rewrite ln_1; lra|].
  assert (H : ln x < x - 1); [|split; [lra|intros E; lra]].
  assert (L : ln x <> 0) by (intros E; apply N; rewrite <- (exp_ln x Hx), E; apply exp_0).
  pose proof (exp_ineq1 (ln x) L) as H. rewrite exp_ln in H by auto. lra.
Qed.

(** a real and b fake occurrences of a point. *)
Lemma pointwise : forall a b r, 0 < a -> 0 < b ->
  let best := a * cross_entropy 1 (ln (a / b)) + b * cross_entropy 0 (ln (a / b)) in
  best <= a * cross_entropy 1 r + b * cross_entropy 0 r /\
  (a * cross_entropy 1 r + b * cross_entropy 0 r = best -> exp r = a / b).
Proof.
  intros a b r Ha Hb best. subst best. rewrite !cross_entropy_eq.
  assert (P : forall y, 0 < 1 + exp y) by (intros y; pose proof (exp_pos y); lra).
  assert (Hab : 0 < a / b) by (apply Rdiv_lt_0_compat; auto).
  assert (EX : exp (- ln (a / b)) = b / a) by (rewrite exp_Ropp, exp_ln by auto; field; lra).
  rewrite EX. replace (/ (1 + b / a)) with (a / (a + b)) by (field; lra).
  replace (1 - a / (a + b)) with (b / (a + b)) by (field; lra).
  set (s := / (1 + exp (- r))).
  assert (Hs : 0 < s < 1).
  { unfold s. pose proof (exp_pos (- r)). pose proof (P (- r)). split; [apply Rinv_0_lt_compat; lra|]. rewrite <- Rinv_1 at 2. apply Rinv_lt_contravar; lra. }
  set (S := a / (a + b)). set (T := b / (a + b)).
  assert (HS : 0 < S) by (apply Rdiv_lt_0_compat; lra). assert (HT : 0 < T) by (apply Rdiv_lt_0_compat; lra).
  assert (A1 : 0 < s / S) by (apply Rdiv_lt_0_compat; lra). assert (A2 : 0 < (1 - s) / T) by (apply Rdiv_lt_0_compat; lra).
  destruct (ln_lt_sub _ A1) as [L1 L1']. destruct (ln_lt_sub _ A2) as [L2 L2'].
  unfold Rdiv in L1, L1', L2, L2'. rewrite ln_mult, ln_Rinv in L1, L1', L2, L2' by (try lra; apply Rinv_0_lt_compat; lra).
  assert (W : a * (s * / S - 1) + b * ((1 - s) * / T - 1) = 0) by (unfold S, T; field; lra).
  assert (M1 : a * (ln s + - ln S) <= a * (s * / S - 1)) by (apply Rmult_le_compat_l; lra).
  assert (M2 : b * (ln (1 - s) + - ln T) <= b * ((1 - s) * / T - 1)) by (apply Rmult_le_compat_l; lra).
  split; [lra|]. intros E.
  assert (Q : s * / S = 1).
  { apply L1'. apply (Rmult_eq_reg_l a); [|lra]. lra. }
  assert (Es : s = S) by (apply (Rmult_eq_reg_r (/ S)); [rewrite Q; field; lra|apply Rinv_neq_0_compat; lra]).
  assert (Ei : 1 + exp (- r) = (a + b) / a) by (rewrite <- (Rinv_involutive (1 + exp (- r))) by (pose proof (P (- r)); lra); fold s; rewrite Es; unfold S; field; lra).
  assert (En : exp (- r) = b / a) by (replace (exp (- r)) with ((1 + exp (- r)) - 1) by lra; rewrite Ei; field; lra).
  replace r with (- - r) by lra. rewrite exp_Ropp, En. field; lra.
Qed.

Section Batch.
Context {A : Type} (dec : forall a b : A, {a = b} + {a <> b}).

Lemma count_sum : forall (f : A -> R) (pts : list A) l, NoDup pts -> incl l pts ->
  sumR (map f l) = sumR (map (fun x => INR (count dec x l) * f x) pts).
Proof.
  intros f pts l ND. induction l as [|y l IH]; intros Hi.
  - simpl. replace (map _ pts) with (map (fun _ : A => 0) pts) by (apply map_ext; intros; lra).
    clear. induction pts as [|x pts IH]; auto. change (0 = 0 + sumR (map (fun _ => 0) pts)). rewrite <- IH. lra.
  - change (f y + sumR (map f l) = sumR (map (fun x => INR (count dec x (y :: l)) * f x) pts)).
    rewrite IH by (intros z Hz; apply Hi; right; auto).
    assert (Hy : In y pts) by (apply Hi; left; auto). clear IH Hi.
    revert Hy. induction ND as [|x pts Hx ND IH]; [intros []|]. intros [->|Hy].
    + change (f y + (INR (count dec y l) * f y + sumR (map (fun x => INR (count dec x l) * f x) pts)) =
        INR (count dec y (y :: l)) * f y + sumR (map (fun x => INR (count dec x (y :: l)) * f x) pts)).
      replace (map (fun x => INR (count dec x (y :: l)) * f x) pts) with (map (fun x => INR (count dec x l) * f x) pts).
      * cbn [count]. destruct (dec y y); [|congruence]. rewrite S_INR. lra.
      * apply map_ext_in. intros z Hz. cbn [count]. destruct (dec y z); auto. subst. contradiction.
    + change (f y + (INR (count dec x l) * f x + sumR (map (fun x => INR (count dec x l) * f x) pts)) =
        INR (count dec x (y :: l)) * f x + sumR (map (fun x => INR (count dec x (y :: l)) * f x) pts)).
      rewrite <- (IH Hy). cbn [count]. destruct (dec y x); [subst; contradiction|]. lra.
Qed.

Lemma sum_le : forall (f g : A -> R) l, (forall x, In x l -> f x <= g x) ->
  sumR (map f l) <= sumR (map g l) /\ (sumR (map g l) = sumR (map f l) -> forall x, In x l -> g x = f x).
Proof.
  intros f g l. induction l as [|y l IH]; intros H; [simpl; split; [lra|intros _ x []]|].
  change (sumR (map f (y :: l))) with (f y + sumR (map f l)). change (sumR (map g (y :: l))) with (g y + sumR (map g l)).
  destruct IH as [I1 I2]; [intros; apply H; right; auto|]. pose proof (H y (or_introl eq_refl)) as Hy. split; [lra|].
  intros E x [<-|Hx]; [lra|]. apply I2; auto. lra.
Qed.

Lemma combine_two : forall (f g : R -> R) (d : A -> R) xs ys, length xs = length ys ->
  sumR (map (fun p => f (fst p) + g (snd p)) (combine (map d xs) (map d ys))) = sumR (map (fun x => f (d x)) xs) + sumR (map (fun y => g (d y)) ys).
Proof.
  intros f g d xs. induction xs as [|x xs IH]; intros [|y ys] E; try discriminate; [simpl; lra|].
  injection E as E. cbn [map combine].
  change (f (d x) + g (d y) + sumR (map (fun p => f (fst p) + g (snd p)) (combine (map d xs) (map d ys))) =
    f (d x) + sumR (map (fun x => f (d x)) xs) + (g (d y) + sumR (map (fun y => g (d y)) ys))).
  rewrite IH by auto. lra.
Qed.

Lemma count_pos : forall x l, In x l -> 0 < INR (count dec x l).
Proof.
  intros x l H. apply lt_0_INR. induction l as [|y l IH]; [destruct H|]. cbn [count]. destruct (dec y x); [lia|].
  destruct H as [H|H]; [congruence|auto].
Qed.

(** The discriminator's loss over batches is least at the log ratio of the
    frequencies, and only there. *)
Lemma loss_optimum : forall (xs ys : list A) regs (d best : A -> R), xs <> [] -> length xs = length ys ->
  (forall x, In x xs <-> In x ys) ->
  (forall x, In x xs -> best x = ln (INR (count dec x xs) / INR (count dec x ys))) ->
  gan_loss_d (map best xs) (map best ys) regs <= gan_loss_d (map d xs) (map d ys) regs /\
  (gan_loss_d (map d xs) (map d ys) regs = gan_loss_d (map best xs) (map best ys) regs ->
   forall x, In x xs -> exp (d x) = INR (count dec x xs) / INR (count dec x ys)).
Proof.
  intros xs ys regs d best Hne HL HS HB. unfold gan_loss_d, reduce_mean. rewrite !map_length, !combine_length, !map_length, <- HL, Nat.min_id.
  assert (HN : 0 < / INR (length xs)) by (apply Rinv_0_lt_compat, lt_0_INR; destruct xs; [congruence|simpl; lia]).
  set (pts := nodup dec xs).
  assert (ND : NoDup pts) by apply NoDup_nodup.
  assert (I1 : incl xs pts) by (intros x Hx; apply nodup_In; auto).
  assert (I2 : incl ys pts) by (intros x Hx; apply nodup_In, HS; auto).
  assert (F : forall e : A -> R, sumR (map (fun p => cross_entropy 1 (fst p) + cross_entropy 0 (snd p)) (combine (map e xs) (map e ys))) =
    sumR (map (fun x => INR (count dec x xs) * cross_entropy 1 (e x) + INR (count dec x ys) * cross_entropy 0 (e x)) pts)).
  { intros e. rewrite (combine_two (cross_entropy 1) (cross_entropy 0)) by auto.
    rewrite (count_sum (fun x => cross_entropy 1 (e x)) pts xs ND I1), (count_sum (fun x => cross_entropy 0 (e x)) pts ys ND I2).
    symmetry. apply (sumR_map_add pts (fun x => INR (count dec x xs) * cross_entropy 1 (e x)) (fun x => INR (count dec x ys) * cross_entropy 0 (e x))). }
  rewrite !F.
  set (fb := fun x => INR (count dec x xs) * cross_entropy 1 (best x) + INR (count dec x ys) * cross_entropy 0 (best x)).
  set (fd := fun x => INR (count dec x xs) * cross_entropy 1 (d x) + INR (count dec x ys) * cross_entropy 0 (d x)).
  assert (PW : forall x, In x pts -> fb x <= fd x /\ (fd x = fb x -> exp (d x) = INR (count dec x xs) / INR (count dec x ys))).
  { intros x Hx. apply nodup_In in Hx. unfold fb, fd. rewrite HB by auto. apply pointwise; apply count_pos; auto. apply HS. auto. }
  destruct (sum_le fb fd pts) as [S1 S2]; [intros x Hx; apply PW; auto|]. split.
  - apply Rplus_le_compat_r. unfold Rdiv. apply Rmult_le_compat_r; lra.
  - intros E x Hx. apply PW; [apply I1; auto|]. apply S2; [|apply I1; auto].
    apply (Rmult_eq_reg_r (/ INR (length xs))); [|lra]. unfold Rdiv in E. lra.
Qed.

End Batch.

(** The generator's losses oppose the discriminator's: BiGAN and WGAN. *)
Lemma bigan_swap : forall a b regs, length a = length b -> bigan_loss_d a b regs = gan_loss_d b a regs /\ bigan_loss a b regs = gan_loss_d a b regs.
Proof.
  intros a b regs E. unfold bigan_loss_d, bigan_loss, gan_loss_d. split; f_equal; f_equal.
  - revert b E. induction a as [|x a IH]; intros [|y b] E; try discriminate; auto. cbn [combine map fst snd]. injection E as E. f_equal; auto.
  - apply map_ext. intros p. lra.
Qed.

(** ** ImplicitKLqp *)

Lemma implicit_not_joint : exists (locals data : list (nat * ((draws nat -> nat) * nat))),
  let '((xs, zs, bs), _) := implicit_samples [] locals data in ~ joint_draw bs locals data xs zs.
Proof.
  exists [(0, (fun _ => 1, 2))]%nat, [(1, (fun d => match d with (_, v) :: _ => v | [] => 0 end, 7))]%nat. cbn. intros [_ H]. discriminate.
Qed.

Lemma implicit_other : forall {V} globals (locals data : list (nat * ((draws V -> V) * V))),
  let '((xs, zs, bs), (xs', zs', bs')) := implicit_samples globals locals data in
  bs = globals /\ bs' = globals /\ (forall x d v, In (x, (d, v)) data -> In (x, v) xs') /\ (forall z d v, In (z, (d, v)) locals -> In (z, v) zs') /\ zs = map (fun z => (fst z, fst (snd z) globals)) locals /\ (joint_draw bs locals data xs zs <-> forall x, In x data -> fst (snd x) (globals ++ zs')%list = fst (snd x) (globals ++ zs)%list).
Proof.
  intros V globals locals data. cbn. split; auto. split; auto.
  assert (K : forall l : list (nat * ((draws V -> V) * V)), forall x d v, In (x, (d, v)) l -> In (x, v) (map (fun z => (fst z, snd (snd z))) l)).
  { intros l x d v H. apply in_map_iff. exists (x, (d, v)). auto. }
  split; [apply K|]. split; [apply K|]. split; auto. unfold joint_draw. split.
  - intros [_ H] x Hx. set (u := (globals ++ map (fun z => (fst z, snd (snd z))) locals)%list) in *.
    set (w := (globals ++ map (fun z => (fst z, fst (snd z) globals)) locals)%list) in *. clear -H Hx.
    induction data as [|y data IH]; [destruct Hx|]. injection H as H1 H2. destruct Hx as [->|Hx]; auto.
  - intros H. split; auto. apply map_ext_in. intros x Hx. rewrite H; auto.
Qed.
