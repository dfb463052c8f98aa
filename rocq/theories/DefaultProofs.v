(** * Proofs for C69. *)
From Coq Require Import String List Arith Bool NArith Lia.
From Verif Require Import Transform TransformSpec TransformProofs Checks Default DefaultSpec.
From Coq Require Import Reals Lra.
Import ListNotations.
Local Open Scope nat_scope.

Lemma dims_known : forall a b, dims_compat (map Some a) (map Some b) = true <-> a = b.
Proof.
  induction a as [|x a IH]; intros [|y b]; cbn; split; intro H; try reflexivity; try discriminate.
  - apply andb_true_iff in H as [H1 H2]. apply Nat.eqb_eq in H1. apply IH in H2. congruence.
  - injection H as -> ->. rewrite (proj2 (IH b) eq_refl). rewrite Nat.eqb_refl. reflexivity.
Qed.

Lemma shape_known : forall a b, shape_compat (known a) (known b) = true <-> a = b.
Proof. intros. unfold shape_compat, known. apply dims_known. Qed.

(** A builder uses variables of its own. *)
Definition fresh (f : nat -> zvar -> dres (nat * approx)) : Prop :=
  forall n z n' q, f n z = DRet (n', q) -> n <= n' /\ NoDup (made_of q) /\ forall v, In v (made_of q) -> n <= v < n'.

Lemma set_latent_fst : forall d z q, identified (z :: map fst d) ->
  forall k, In k (map fst (set_latent d z q)) <-> k = z \/ In k (map fst d).
Proof.
  induction d as [|[k v] d IH]; intros z q Hi k0; cbn [set_latent].
  - cbn. intuition.
  - destruct (rv_eq_dec (z_rv k) (z_rv z)) as [E|E].
    + assert (k = z) by (apply Hi; cbn; auto). subst. cbn. intuition.
    + cbn. rewrite IH; [intuition|]. intros a b Ha Hb. apply Hi; cbn in *; intuition.
Qed.

Lemma set_latent_nodup : forall d z q, identified (z :: map fst d) -> NoDup (map fst d) ->
  NoDup (map fst (set_latent d z q)).
Proof.
  induction d as [|[k v] d IH]; intros z q Hi Hn; cbn [set_latent].
  - cbn. constructor; [intros []|constructor].
  - destruct (rv_eq_dec (z_rv k) (z_rv z)) as [E|E]; [exact Hn|].
    cbn in *. inversion Hn; subst. constructor.
    + rewrite set_latent_fst.
      * intros [->|Hin]; [congruence|contradiction].
      * intros a b Ha Hb. apply Hi; cbn in *; intuition.
    + apply IH; auto. intros a b Ha Hb. apply Hi; cbn in *; intuition.
Qed.

Lemma set_latent_in : forall d z q k v, identified (z :: map fst d) ->
  In (k, v) (set_latent d z q) -> (k = z /\ v = q) \/ In (k, v) d.
Proof.
  induction d as [|[k0 v0] d IH]; intros z q k v Hi; cbn [set_latent].
  - intros [E|[]]. injection E as <- <-. auto.
  - destruct (rv_eq_dec (z_rv k0) (z_rv z)) as [E|E].
    + assert (k0 = z) by (apply Hi; cbn; auto). subst k0. intros [H|H]; [injection H as <- <-; auto|right; right; exact H].
    + intros [H|H]; [right; left; exact H|]. apply IH in H; [intuition|].
      intros a b Ha Hb. apply Hi; cbn in *; intuition.
Qed.

Definition all_vars (d : list (zvar * approx)) : list nat := flat_map (fun zq => made_of (snd zq)) d.

Lemma all_vars_in : forall d v, In v (all_vars d) <-> exists z q, In (z, q) d /\ In v (made_of q).
Proof.
  intros. unfold all_vars. rewrite in_flat_map. split.
  - intros [[z q] [H1 H2]]. eauto.
  - intros (z & q & H1 & H2). exists (z, q). auto.
Qed.

Lemma nodup_app : forall (a b : list nat), NoDup a -> NoDup b -> (forall v, In v a -> In v b -> False) -> NoDup (a ++ b).
Proof.
  induction a as [|x a IH]; intros b Ha Hb H; cbn; [exact Hb|]. inversion Ha; subst. constructor.
  - rewrite in_app_iff. intros [Hx|Hx]; [contradiction|]. apply (H x); cbn; auto.
  - apply IH; auto. intros v Hv1 Hv2. apply (H v); cbn; auto.
Qed.

Lemma nodup_app_r : forall (a b : list nat), NoDup (a ++ b) -> NoDup b /\ NoDup a /\ forall v, In v a -> In v b -> False.
Proof.
  induction a as [|x a IH]; intros b H; cbn in *.
  - split; [exact H|]. split; [constructor|intros v []].
  - inversion H; subst. destruct (IH b H3) as (H4 & H5 & H6). split; [exact H4|]. split.
    + constructor; [|exact H5]. intro Hx. apply H2. apply in_app_iff. auto.
    + intros v [->|Hv] Hb; [|eauto]. apply H2. apply in_app_iff. auto.
Qed.

Lemma set_latent_vars : forall d z q, NoDup (made_of q) -> NoDup (all_vars d) ->
  (forall v, In v (made_of q) -> In v (all_vars d) -> False) ->
  NoDup (all_vars (set_latent d z q)) /\ forall v, In v (all_vars (set_latent d z q)) -> In v (made_of q) \/ In v (all_vars d).
Proof.
  induction d as [|[k v0] d IH]; intros z q Hq Hd Hx; cbn [set_latent].
  - cbn. rewrite app_nil_r. auto.
  - cbn [all_vars flat_map snd] in Hd. fold (all_vars d) in Hd. destruct (nodup_app_r _ _ Hd) as (Hd1 & Hd2 & Hd3).
    destruct (rv_eq_dec (z_rv k) (z_rv z)) as [E|E]; cbn [all_vars flat_map snd]; fold (all_vars d).
    + split.
      * apply nodup_app; auto. intros v H1 H2. apply (Hx v H1). cbn. apply in_app_iff. auto.
      * intros v. rewrite !in_app_iff. intuition.
    + fold (all_vars (set_latent d z q)). destruct (IH z q Hq Hd1) as [I1 I2].
      { intros v H1 H2. apply (Hx v H1). cbn. apply in_app_iff. auto. }
      split.
      * apply nodup_app; auto. intros v H1 H2. apply I2 in H2 as [H2|H2]; [|eauto].
        apply (Hx v H2). cbn. apply in_app_iff. auto.
      * intros v. rewrite !in_app_iff. intros [H|H]; [auto|]. apply I2 in H. intuition.
Qed.

Lemma loop_inv : forall f, fresh f -> forall l n0 n d r, identified (l ++ map fst d) -> n0 <= n ->
  NoDup (map fst d) -> NoDup (all_vars d) -> (forall v, In v (all_vars d) -> n0 <= v < n) ->
  (forall z q, In (z, q) d -> exists m m', f m z = DRet (m', q)) ->
  default_loop f n l d = DRet r ->
  NoDup (map fst r) /\ (forall z, In z (map fst r) <-> In z l \/ In z (map fst d)) /\ NoDup (all_vars r) /\
  (forall v, In v (all_vars r) -> n0 <= v) /\ (forall z q, In (z, q) r -> exists m m', f m z = DRet (m', q)).
Proof.
  intros f Hf. induction l as [|z l IH]; intros n0 n d r Hi Hn Hk Hv Hb Ho H; cbn [default_loop] in H.
  - injection H as <-. split; [exact Hk|]. split; [intros k; cbn; tauto|]. split; [exact Hv|]. split; [|exact Ho].
    intros v Hin. apply Hb in Hin. lia.
  - destruct (f n z) as [[n' q]| | | |] eqn:E; try discriminate.
    destruct (Hf _ _ _ _ E) as (F1 & F2 & F3).
    assert (Hid : identified (z :: map fst d)).
    { intros a b Ha Hb'. apply Hi; apply in_app_iff; cbn in *; intuition. }
    assert (Hx : forall v, In v (made_of q) -> In v (all_vars d) -> False).
    { intros v H1 H2. apply F3 in H1. apply Hb in H2. lia. }
    destruct (set_latent_vars d z q F2 Hv Hx) as [S1 S2].
    destruct (IH n0 n' (set_latent d z q) r) as (R1 & R2 & R3 & R4 & R5); auto; try lia.
    + intros a b Ha Hb'. apply Hi; rewrite in_app_iff in *; rewrite (set_latent_fst _ _ _ Hid) in *; cbn; intuition.
    + apply set_latent_nodup; auto.
    + intros v Hin. apply S2 in Hin as [Hin|Hin]; [apply F3 in Hin; lia|apply Hb in Hin; lia].
    + intros k v Hin. apply set_latent_in in Hin as [[-> ->]|Hin]; eauto.
    + split; [exact R1|]. split; [|auto]. intros k. rewrite R2, (set_latent_fst _ _ _ Hid). cbn. intuition.
Qed.

Lemma loop_one_each : forall f, fresh f -> forall n l d, identified l -> default_loop f n l [] = DRet d ->
  one_each n l d /\ forall z q, In (z, q) d -> exists m m', f m z = DRet (m', q).
Proof.
  intros f Hf n l d Hi H.
  destruct (loop_inv f Hf l n n [] d) as (R1 & R2 & R3 & R4 & R5); auto; try (constructor; fail); try (cbn; contradiction).
  - cbn. rewrite app_nil_r. exact Hi.
  - split; [|exact R5]. split; [exact R1|]. split; [intro z; rewrite R2; cbn; intuition|]. split; [|exact R3].
    intros z q v Hin Hv. apply R4. apply all_vars_in. eauto.
Qed.

Lemma init_returns : forall f, fresh f -> forall n l d, identified l -> init_list f n l = DRet d ->
  one_each n l d /\ (forall z q, In (z, q) d -> exists m m', f m z = DRet (m', q)) /\
  forall z q, In (z, q) d -> q_shape q = z_shape z /\ q_dtype q = z_dtype z.
Proof.
  intros f Hf n l d Hi H. unfold init_list in H. destruct (default_loop f n l []) as [d'| | | |] eqn:E; try discriminate.
  destruct (latent_checked d') eqn:C; [|discriminate]. injection H as ->.
  destruct (loop_one_each f Hf n l d Hi E) as [H1 H2]. split; [exact H1|]. split; [exact H2|].
  intros z q Hin. unfold latent_checked in C. rewrite forallb_forall in C. apply C in Hin. cbn in Hin.
  apply andb_true_iff in Hin as [A B]. apply shape_known in A. apply Nat.eqb_eq in B. auto.
Qed.

(** The loop returns if every call does. *)
Lemma loop_ret : forall f l, (forall n z, In z l -> exists r, f n z = DRet r) -> forall n d, exists r, default_loop f n l d = DRet r.
Proof.
  intros f. induction l as [|z l IH]; intros H n d; cbn [default_loop]; [eauto|].
  destruct (H n z (or_introl eq_refl)) as [[n' q] ->]. apply IH. intros. apply H. right; assumption.
Qed.

(** The first call that raises settles the outcome. *)
Lemma loop_err : forall f l (ok : zvar -> Prop) (e : dres (list (zvar * approx))),
  (forall n z, In z l -> (ok z /\ exists r, f n z = DRet r) \/ (~ ok z /\ forall n' l' d, default_loop f n' (z :: l') d = e)) ->
  (forall z, In z l -> ok z \/ ~ ok z) -> forall n d,
  (exists z, In z l /\ ~ ok z) -> default_loop f n l d = e.
Proof.
  intros f l ok e. induction l as [|z l IH]; intros H Hd n d [z0 [Hin Hn]]; [destruct Hin|].
  destruct (H n z (or_introl eq_refl)) as [[Hok [[n' q] E]]|[_ He]]; [|apply He].
  cbn [default_loop]. rewrite E. apply IH.
  - intros. apply H. right; assumption.
  - intros. apply Hd. right; assumption.
  - destruct Hin as [->|Hin]; [contradiction|eauto].
Qed.

Lemma ret_ok : forall f l, (exists n d r, default_loop f n l d = DRet r) -> forall z, In z l -> exists n r, f n z = DRet r.
Proof.
  intros f. induction l as [|z0 l IH]; intros (n & d & r & H) z Hin; [destruct Hin|].
  cbn [default_loop] in H. destruct (f n z0) as [[n' q]| | | |] eqn:E; try discriminate.
  destruct Hin as [<-|Hin]; [eauto|]. apply IH; eauto.
Qed.

Lemma latent_checked_spec : forall d, latent_checked d = true <->
  forall z q, In (z, q) d -> z_shape z = q_shape q /\ z_dtype z = q_dtype q.
Proof.
  intros d. unfold latent_checked. rewrite forallb_forall. split.
  - intros H z q Hin. apply H in Hin. cbn in Hin. apply andb_true_iff in Hin as [A B].
    apply shape_known in A. apply Nat.eqb_eq in B. auto.
  - intros H [z q] Hin. apply H in Hin as [A B]. cbn [fst snd]. rewrite (proj2 (shape_known _ _) A), B, Nat.eqb_refl. reflexivity.
Qed.

Lemma app_self : forall (a b : list nat), a ++ b = b -> a = [].
Proof.
  intros a b H. apply (f_equal (@length nat)) in H. rewrite app_length in H. destruct a; [reflexivity|cbn in H; lia].
Qed.

(** ** KLqp and KLpq *)

Lemma continuous_list : forall s, existsb (String.eqb s) continuous_supports = true <-> continuous s.
Proof.
  intros s. rewrite existsb_exists. unfold continuous, unconstrained, constrained, continuous_supports. split.
  - intros (x & Hin & E). apply String.eqb_eq in E. subst x. cbn in Hin. cbn. intuition.
  - intros H. exists s. rewrite String.eqb_refl. cbn in *. intuition.
Qed.

Lemma klqp_fresh : fresh klqp_default.
Proof.
  intros n z n' q. unfold klqp_default. destruct (support (z_rv z)) as [s|]; [|discriminate].
  destruct (existsb _ _); [|discriminate]. intros H. injection H as <- <-. cbn. split; [lia|]. split.
  - constructor; [cbn; lia|]. constructor; [intros []|constructor].
  - intros v [<-|[<-|[]]]; lia.
Qed.

Lemma klqp_supported : forall n z, (supported z /\ exists a b, klqp_default n z = DRet (S (S n), QNormal a b (batch_event z))) \/
  (~ supported z /\ klqp_default n z = DAttributeError).
Proof.
  intros n z. unfold klqp_default, supported, has_support. destruct (support (z_rv z)) as [s|] eqn:E.
  - destruct (existsb (String.eqb s) continuous_supports) eqn:C.
    + left. split; [exists s; split; [reflexivity|apply continuous_list; exact C]|eauto].
    + right. split; [|reflexivity]. intros (s' & E' & Hc). injection E' as <-. apply continuous_list in Hc. congruence.
  - right. split; [|reflexivity]. intros (s' & E' & _). discriminate.
Qed.

Lemma supported_dec : forall z, supported z \/ ~ supported z.
Proof. intros z. destruct (klqp_supported 0 z) as [[H _]|[H _]]; auto. Qed.

Lemma klqp_error : forall l n, (exists z, In z l /\ ~ supported z) -> default_loop klqp_default n l [] = DAttributeError.
Proof.
  intros l n H. apply (loop_err klqp_default l supported DAttributeError); auto.
  - intros m z _. destruct (klqp_supported m z) as [[Hs (a & b & E)]|[Hs E]]; [left; eauto|right].
    split; [exact Hs|]. intros n' l' d. cbn [default_loop]. destruct (klqp_supported n' z) as [[Hs' _]|[_ E']]; [contradiction|].
    rewrite E'. reflexivity.
  - intros. apply supported_dec.
Qed.

Lemma exists_or_all : forall (P : zvar -> Prop) l, (forall z, P z \/ ~ P z) -> (forall z, In z l -> P z) \/ exists z, In z l /\ ~ P z.
Proof.
  intros P l Hd. induction l as [|z l IH]; [left; intros z []|].
  destruct (Hd z) as [Hz|Hz]; [|right; exists z; cbn; auto].
  destruct IH as [IH|[z' [H1 H2]]]; [left|right; exists z'; cbn; auto]. intros z' [<-|H]; auto.
Qed.

Lemma plain_dec : forall z, plain z \/ ~ plain z.
Proof.
  intros z. unfold plain. destruct (list_eq_dec Nat.eq_dec (z_sample z) []) as [A|A]; [|tauto].
  destruct (Nat.eq_dec (z_dtype z) float32); tauto.
Qed.

Lemma klqp_entries : forall n l d, identified l -> klqp_list n l = DRet d ->
  one_each n l d /\ forall z q, In (z, q) d -> exists a b, q = QNormal a b (z_shape z).
Proof.
  intros n l d Hi H. destruct (init_returns _ klqp_fresh n l d Hi H) as (H1 & H2 & H3). split; [exact H1|].
  intros z q Hin. destruct (H2 z q Hin) as (m & m' & E). destruct (H3 z q Hin) as [Hs _].
  destruct (klqp_supported m z) as [[_ (a & b & E')]|[_ E']]; rewrite E in E'; [|discriminate].
  injection E' as _ ->. cbn in Hs. rewrite <- Hs. eauto.
Qed.

Lemma klqp_outcome : forall n l, identified l ->
  (klqp_list n l = DAttributeError <-> exists z, In z l /\ ~ supported z) /\
  (klqp_list n l = DTypeError <-> (forall z, In z l -> supported z) /\ exists z, In z l /\ ~ plain z) /\
  ((exists d, klqp_list n l = DRet d) <-> forall z, In z l -> supported z /\ plain z).
Proof.
  intros n l Hi.
  destruct (exists_or_all supported l supported_dec) as [Hs|Hs].
  - assert (He : exists d, default_loop klqp_default n l [] = DRet d).
    { apply loop_ret. intros m z Hin. destruct (klqp_supported m z) as [[_ (a & b & E)]|[Hx _]]; [eauto|].
      exfalso. apply Hx. auto. }
    destruct He as [d E]. destruct (loop_one_each _ klqp_fresh n l d Hi E) as [(_ & K & _) H2].
    assert (Hp : latent_checked d = true <-> forall z, In z l -> plain z).
    { rewrite latent_checked_spec. split.
      - intros H z Hin. apply K in Hin. apply in_map_iff in Hin as [[z' q] [<- Hin]]. cbn [fst].
        destruct (H2 _ _ Hin) as (m & m' & E'). destruct (klqp_supported m z') as [[_ (a & b & F)]|[_ F]]; rewrite E' in F; [|discriminate].
        injection F as _ ->. apply H in Hin as [A B]. cbn in A, B. split; [|exact B]. apply (app_self _ (batch_event z')). exact A.
      - intros H z q Hin. destruct (H2 _ _ Hin) as (m & m' & E'). destruct (klqp_supported m z) as [[_ (a & b & F)]|[_ F]]; rewrite E' in F; [|discriminate].
        injection F as _ ->. cbn. assert (Hz : plain z) by (apply H, K, in_map_iff; exists (z, QNormal a b (batch_event z)); auto).
        destruct Hz as [A B]. unfold z_shape. rewrite A. auto. }
    unfold klqp_list, init_list. rewrite E. destruct (latent_checked d) eqn:C.
    + assert (Hall := proj1 Hp eq_refl). split; [|split].
      * split; [discriminate|]. intros (z & Hin & Hx). exfalso. apply Hx. auto.
      * split; [discriminate|]. intros (_ & z & Hin & Hx). exfalso. apply Hx. auto.
      * split; [auto|eauto].
    + split; [|split].
      * split; [discriminate|]. intros (z & Hin & Hx). exfalso. apply Hx. auto.
      * split; [|auto]. intros _. split; [exact Hs|]. destruct (exists_or_all plain l plain_dec) as [Ha|Ha]; [|exact Ha].
        apply Hp in Ha. discriminate.
      * split; [intros [x Hx]; discriminate|]. intros H. exfalso.
        assert (false = true) by (apply Hp; intros z Hin; apply H; exact Hin). discriminate.
  - assert (E := klqp_error l n Hs). unfold klqp_list, init_list. rewrite E. destruct Hs as (z & Hin & Hx).
    split; [|split].
    + split; eauto.
    + split; [discriminate|]. intros [H _]. exfalso. apply Hx. auto.
    + split; [intros [d Hd]; discriminate|]. intros H. exfalso. apply Hx. apply H. exact Hin.
Qed.

Lemma normal_scales : (forall x, (0 < normal_scale x)%R) /\ (forall y, (0 < y)%R -> exists x, normal_scale x = y) /\
  forall x x', normal_scale x = normal_scale x' -> x = x'.
Proof.
  split; [exact softplus_pos|]. split.
  - intros y Hy. exists (softplus_inv y). apply softplus_inv_r. exact Hy.
  - intros x x' H. apply (f_equal softplus_inv) in H. unfold normal_scale in H. rewrite !softplus_inv_l in H. exact H.
Qed.

(** ** MAP *)

Lemma map_fresh : fresh map_default.
Proof.
  intros n z n' q. unfold map_default. destruct (own_bijector z) as [b| | | |]; try discriminate.
  destruct (point_shape b (batch_event z)); [|discriminate]. intros H. injection H as <- <-. cbn. split; [lia|]. split.
  - constructor; [intros []|constructor].
  - intros v [<-|[]]; lia.
Qed.

(** The bijector that is found for an untransformed variable. *)
Lemma own_base : forall z, untransformed z ->
  match support (z_rv z) with
  | None => own_bijector z = DRet None
  | Some s =>
      (s = "01"%string /\ own_bijector z = DRet (Some (Invert Sigmoid))) \/
      (s = "nonnegative"%string /\ own_bijector z = DRet (Some (Invert Softplus))) \/
      (s = "simplex"%string /\ own_bijector z = DRet (Some (Invert SoftmaxCentered))) \/
      (unconstrained s /\ own_bijector z = DRet None) \/
      (~ continuous s /\ own_bijector z = DValueError)
  end.
Proof.
  intros z (i & s & E). unfold own_bijector. rewrite E. cbn [support]. destruct s as [s|]; [|reflexivity].
  unfold transform. cbn [support].
  destruct (String.eqb s "01") eqn:E1; [apply String.eqb_eq in E1; auto|].
  destruct (String.eqb s "nonnegative") eqn:E2; [apply String.eqb_eq in E2; auto|].
  destruct (String.eqb s "simplex") eqn:E3; [apply String.eqb_eq in E3; auto|].
  destruct (String.eqb s "real") eqn:E4; cbn [orb].
  { apply String.eqb_eq in E4. right; right; right; left. split; [unfold unconstrained; cbn; auto|reflexivity]. }
  destruct (String.eqb s "multivariate_real") eqn:E5.
  { apply String.eqb_eq in E5. right; right; right; left. split; [unfold unconstrained; cbn; auto|reflexivity]. }
  right; right; right; right. split; [|reflexivity]. intros H. apply continuous_list in H. unfold continuous_supports in H.
  cbn in H. rewrite E1, E2, E3, E4, E5 in H. discriminate.
Qed.

(** What the value of the variable is mapped to. *)
Lemma point_values : forall z b, untransformed z -> own_bijector z = DRet b ->
  match support (z_rv z) with
  | None => forall u, point_value b u = u
  | Some s => (forall u, in_support s (point_value b u)) /\ (forall v, in_support s v -> exists u, point_value b u = v) /\
              forall u u', point_value b u = point_value b u' -> u = u'
  end.
Proof.
  intros z b Hz E. assert (H := own_base z Hz). destruct (support (z_rv z)) as [s|].
  - destruct H as [[-> H]|[[-> H]|[[-> H]|[[Hu H]|[_ H]]]]]; rewrite E in H; try discriminate; injection H as ->; cbn [point_value].
    1: assert (B := sigmoid_bij). 2: assert (B := softplus_bij). 3: assert (B := softmax_bij).
    1-3: destruct B as [B1 B2]; split; [apply B2|]; split; [intros v Hv; eexists; apply B1; exact Hv|];
         intros u u' Hu; rewrite <- (proj2 (B2 u)), <- (proj2 (B2 u')), Hu; reflexivity.
    split; [|split; [eauto|auto]]. intros u. unfold unconstrained in Hu. cbn in Hu.
    split; [intros ->; exfalso; intuition discriminate|split; intros ->; exfalso; intuition discriminate].
  - rewrite E in H. injection H as ->. reflexivity.
Qed.

Lemma snoc_last : forall (s : list nat), s <> [] -> removelast s ++ [S (last s 0)] <> s.
Proof.
  intros s Hs H. rewrite (app_removelast_last 0 Hs) in H at 3. apply app_inv_head in H. injection H. lia.
Qed.

Definition map_ok (z : zvar) : Prop := exists b s, own_bijector z = DRet b /\ point_shape b (batch_event z) = Some s.

Lemma map_entries : forall n l d, identified l -> map_list n l = DRet d ->
  one_each n l d /\
  forall z q, In (z, q) d -> exists p b, q = QPoint p b (z_shape z) /\ own_bijector z = DRet b.
Proof.
  intros n l d Hi H. destruct (init_returns _ map_fresh n l d Hi H) as (H1 & H2 & H3). split; [exact H1|].
  intros z q Hin. destruct (H2 z q Hin) as (m & m' & E). destruct (H3 z q Hin) as [Hs _].
  unfold map_default in E. destruct (own_bijector z) as [b| | | |] eqn:Eb; try discriminate.
  destruct (point_shape b (batch_event z)) as [s|]; [|discriminate]. injection E as _ <-. cbn in Hs. subst s. eauto.
Qed.

Lemma map_points : forall n l d, identified l -> (forall z, In z l -> untransformed z) -> map_list n l = DRet d ->
  one_each n l d /\
  forall z q, In (z, q) d -> exists p b, q = QPoint p b (z_shape z) /\
    forall s, has_support z s ->
      (forall u, in_support s (point_value b u)) /\ (forall v, in_support s v -> exists u, point_value b u = v) /\
      (forall u u', point_value b u = point_value b u' -> u = u').
Proof.
  intros n l d Hi Hu H. destruct (map_entries n l d Hi H) as [H1 H2]. split; [exact H1|].
  intros z q Hin. destruct (H2 z q Hin) as (p & b & E1 & E2). exists p, b. split; [exact E1|].
  intros s Hs. assert (Hz : untransformed z). { apply Hu. apply H1. apply in_map_iff. exists (z, q). auto. }
  assert (V := point_values z b Hz E2). unfold has_support in Hs. rewrite Hs in V. exact V.
Qed.

(** What map_default does with an untransformed variable. *)
Lemma map_base : forall n z, untransformed z ->
  (same_coordinates z /\ exists p b, map_default n z = DRet (S n, QPoint p b (batch_event z))) \/
  (has_support z "simplex" /\ batch_event z <> [] /\
     exists p b, map_default n z = DRet (S n, QPoint p b (removelast (batch_event z) ++ [S (last (batch_event z) 0)]))) \/
  ((has_support z "simplex" /\ batch_event z = [] \/ exists s, has_support z s /\ ~ continuous s) /\ map_default n z = DValueError).
Proof.
  intros n z Hz. assert (H := own_base z Hz). unfold map_default, same_coordinates, has_support.
  destruct (support (z_rv z)) as [s|].
  - destruct H as [[-> H]|[[-> H]|[[-> H]|[[Hu H]|[Hc H]]]]]; rewrite H; cbn [point_shape inv_shape fwd_shape].
    + left. split; [right; exists "01"%string; split; [reflexivity|]; split; [right; unfold constrained; cbn; auto|discriminate]|eauto].
    + left. split; [right; exists "nonnegative"%string; split; [reflexivity|]; split; [right; unfold constrained; cbn; auto|discriminate]|eauto].
    + right. destruct (batch_event z) as [|x s'] eqn:E.
      * right. split; [left; auto|reflexivity].
      * left. split; [reflexivity|]. split; [discriminate|eauto].
    + left. split; [|eauto]. right. exists s. split; [reflexivity|]. split; [left; exact Hu|].
      intros ->. unfold unconstrained in Hu. cbn in Hu. intuition discriminate.
    + right. right. split; [|reflexivity]. right. exists s. auto.
  - rewrite H. cbn. left. split; [auto|eauto].
Qed.

Lemma not_same : forall z, has_support z "simplex" \/ (exists s, has_support z s /\ ~ continuous s) -> ~ same_coordinates z.
Proof.
  unfold same_coordinates, has_support. intros z [H|(s & H & Hc)] [E|(s' & E & Hc' & Hn)]; rewrite H in E; try discriminate;
    injection E as <-; contradiction || (apply Hn; reflexivity).
Qed.

Lemma map_returns : forall n l, identified l -> (forall z, In z l -> untransformed z) ->
  ((exists d, map_list n l = DRet d) <-> forall z, In z l -> same_coordinates z /\ plain z).
Proof.
  intros n l Hi Hu. split.
  - intros [d H] z Hin. destruct (init_returns _ map_fresh n l d Hi H) as ((_ & K & _) & H2 & H3).
    apply K in Hin. apply in_map_iff in Hin as [[z' q] [Ez Hin]]. cbn in Ez. subst z'.
    destruct (H2 _ _ Hin) as (m & m' & E). destruct (H3 _ _ Hin) as [Hs Ht].
    assert (Hz : untransformed z) by (apply Hu, K, in_map_iff; exists (z, q); auto).
    destruct (map_base m z Hz) as [[Hc (p & b & F)]|[(Hx & Hb & p & b & F)|[_ F]]]; rewrite E in F; try discriminate; injection F as _ ->.
    + split; [exact Hc|]. cbn in Hs, Ht. split; [|congruence]. unfold z_shape in Hs. symmetry in Hs. apply app_self in Hs. exact Hs.
    + exfalso. cbn [q_shape] in Hs. unfold z_shape in Hs. destruct (z_sample z) as [|x s].
      * apply (snoc_last _ Hb Hs).
      * apply (f_equal (@length nat)) in Hs. rewrite app_length in Hs. cbn in Hs. rewrite app_length in Hs.
        rewrite (app_removelast_last 0 Hb) in Hs at 2. rewrite app_length in Hs. cbn in Hs. lia.
  - intros H.
    assert (Hl : exists d, default_loop map_default n l [] = DRet d).
    { apply loop_ret. intros m z Hin. destruct (map_base m z (Hu z Hin)) as [[_ (p & b & F)]|[(Hx & _)|[Hx _]]]; [eauto| |];
        exfalso; apply (not_same z); [auto|apply H; exact Hin|intuition|apply H; exact Hin]. }
    destruct Hl as [d E]. exists d. unfold map_list, init_list. rewrite E.
    destruct (loop_one_each _ map_fresh n l d Hi E) as [(_ & K & _) H2].
    replace (latent_checked d) with true; [reflexivity|]. symmetry. apply latent_checked_spec. intros z q Hin.
    assert (Hz : In z l) by (apply K, in_map_iff; exists (z, q); auto).
    destruct (H2 _ _ Hin) as (m & m' & E'). destruct (H z Hz) as [Hc [Hp Ht]].
    destruct (map_base m z (Hu z Hz)) as [[_ (p & b & F)]|[(Hx & _)|[Hx _]]].
    + rewrite E' in F. injection F as _ ->. cbn. unfold z_shape. rewrite Hp. auto.
    + exfalso. apply (not_same z); auto.
    + exfalso. apply (not_same z); [intuition|exact Hc].
Qed.

Lemma map_value_error : forall n l, (forall z, In z l -> untransformed z) ->
  (exists z s, In z l /\ has_support z s /\ ~ continuous s) -> map_list n l = DValueError.
Proof.
  intros n l Hu (z0 & s & Hin & Hs & Hc). unfold map_list, init_list.
  set (ok := fun z : zvar => exists r, map_default 0 z = DRet r).
  assert (Hind : forall z m m', map_default m z = DValueError -> map_default m' z = DValueError).
  { intros z m m'. unfold map_default. destruct (own_bijector z); auto. destruct (point_shape a (batch_event z)); [discriminate|auto]. }
  rewrite (loop_err map_default l ok DValueError); [reflexivity| | |].
  - intros m z Hz. destruct (map_base 0 z (Hu z Hz)) as [[_ (p & b & F)]|[(_ & _ & p & b & F)|[_ F]]].
    + left. split; [unfold ok; eauto|]. destruct (map_base m z (Hu z Hz)) as [[_ (p' & b' & F')]|[(_ & _ & p' & b' & F')|[_ F']]]; eauto.
      apply (Hind z m 0) in F'. congruence.
    + left. split; [unfold ok; eauto|]. destruct (map_base m z (Hu z Hz)) as [[_ (p' & b' & F')]|[(_ & _ & p' & b' & F')|[_ F']]]; eauto.
      apply (Hind z m 0) in F'. congruence.
    + right. split; [intros [r Hr]; congruence|]. intros n' l' d. cbn [default_loop]. rewrite (Hind z 0 n' F). reflexivity.
  - intros z _. unfold ok. destruct (map_default 0 z) eqn:E; [left; eauto|..]; right; intros [r Hr]; discriminate.
  - exists z0. split; [exact Hin|]. intros [r Hr].
    destruct (map_base 0 z0 (Hu z0 Hin)) as [[Hx _]|[(Hx & _)|[_ F]]].
    + apply (not_same z0); [right; eauto|exact Hx].
    + unfold has_support in *. rewrite Hs in Hx. injection Hx as ->. apply Hc. right. unfold constrained. cbn. auto.
    + congruence.
Qed.

Lemma map_simplex : forall n z, untransformed z -> has_support z "simplex" -> batch_event z <> [] -> map_list n [z] = DTypeError.
Proof.
  intros n z Hz Hs Hb. unfold map_list, init_list. cbn [default_loop].
  destruct (map_base n z Hz) as [[Hx _]|[(_ & _ & p & b & F)|[Hx _]]].
  - exfalso. apply (not_same z); auto.
  - rewrite F. cbn [set_latent]. destruct (latent_checked _) eqn:C; [|reflexivity]. exfalso.
    rewrite latent_checked_spec in C. destruct (C z _ (or_introl eq_refl)) as [A _]. cbn [q_shape] in A.
    unfold z_shape in A. destruct (z_sample z) as [|x s].
    + symmetry in A. apply (snoc_last _ Hb A).
    + apply (f_equal (@length nat)) in A. rewrite app_length in A. cbn in A. rewrite app_length in A.
      rewrite (app_removelast_last 0 Hb) in A at 1. rewrite app_length in A. cbn in A. lia.
  - exfalso. destruct Hx as [[_ Hx]|(s & Hx & Hc)]; [contradiction|]. unfold has_support in *. rewrite Hs in Hx. injection Hx as <-.
    apply Hc. right. unfold constrained. cbn. auto.
Qed.

(** ** Laplace *)

Lemma laplace_fresh : fresh laplace_default.
Proof.
  intros n z n' q. unfold laplace_default. destruct (own_bijector z) as [b| | | |]; try discriminate.
  destruct (point_shape b (batch_event z)) as [s|]; [|discriminate]. destruct (batch_event z) as [|x y]; [discriminate|].
  destruct (list_eq_dec Nat.eq_dec s (x :: y)); [|discriminate]. intros H. injection H as <- <-. cbn. split; [lia|]. split.
  - constructor; [cbn; lia|]. constructor; [intros []|constructor].
  - intros v [<-|[<-|[]]]; lia.
Qed.

Lemma laplace_map : forall n z, 
  match laplace_default n z with
  | DRet (n', q) => exists p b, n' = S (S n) /\ q = QTriL n (S n) b (batch_event z) /\ batch_event z <> [] /\
        own_bijector z = DRet b /\ map_default n z = DRet (S n, QPoint p b (batch_event z))
  | _ => batch_event z = [] \/ forall p b, map_default n z <> DRet (S n, QPoint p b (batch_event z))
  end.
Proof.
  intros n z. unfold laplace_default, map_default. destruct (own_bijector z) as [b| | | |]; try (right; discriminate).
  destruct (point_shape b (batch_event z)) as [s|]; [|right; discriminate].
  destruct (batch_event z) as [|x y] eqn:E; [auto|].
  destruct (list_eq_dec Nat.eq_dec s (x :: y)) as [->|Hn].
  - exists n, b. repeat split; discriminate || reflexivity.
  - right. intros p b' H. injection H as _ _ H. contradiction.
Qed.

Lemma laplace_entries : forall n l d, identified l -> (forall z, In z l -> untransformed z) -> laplace_list n l = DRet d ->
  one_each n l d /\
  forall z q, In (z, q) d -> exists a c b, q = QTriL a c b (z_shape z) /\
    forall s, has_support z s -> forall u, in_support s (point_value b u).
Proof.
  intros n l d Hi Hu H. destruct (init_returns _ laplace_fresh n l d Hi H) as (H1 & H2 & H3). split; [exact H1|].
  intros z q Hin. destruct (H2 z q Hin) as (m & m' & E). destruct (H3 z q Hin) as [Hs _].
  assert (L := laplace_map m z). rewrite E in L. destruct L as (p & b & _ & -> & _ & Eb & _). cbn in Hs. rewrite Hs.
  exists m, (S m), b. split; [reflexivity|]. intros s Hsup.
  assert (Hz : untransformed z). { apply Hu. apply H1. apply in_map_iff. eexists. split; [|exact Hin]. reflexivity. }
  assert (V := point_values z b Hz Eb). unfold has_support in Hsup. rewrite Hsup in V. apply V.
Qed.

Lemma laplace_returns : forall n l, identified l -> (forall z, In z l -> untransformed z) ->
  ((exists d, laplace_list n l = DRet d) <-> forall z, In z l -> same_coordinates z /\ plain z /\ batch_event z <> []).
Proof.
  intros n l Hi Hu. split.
  - intros [d H] z Hin. destruct (init_returns _ laplace_fresh n l d Hi H) as ((_ & K & _) & H2 & H3).
    apply K in Hin. apply in_map_iff in Hin as [[z' q] [Ez Hin]]. cbn in Ez. subst z'.
    destruct (H2 _ _ Hin) as (m & m' & E). destruct (H3 _ _ Hin) as [Hs Ht].
    assert (Hz : untransformed z) by (apply Hu, K, in_map_iff; exists (z, q); auto).
    assert (L := laplace_map m z). rewrite E in L. destruct L as (p & b & _ & -> & Hb & _ & L). cbn in Hs, Ht.
    split; [|split; [split; [|congruence]|exact Hb]].
    + destruct (map_base m z Hz) as [[Hc _]|[(_ & _ & p' & b' & F)|[_ F]]]; [exact Hc| |]; rewrite L in F; [|discriminate].
      injection F as _ _ F. exfalso. apply (snoc_last _ Hb). congruence.
    + unfold z_shape in Hs. symmetry in Hs. apply app_self in Hs. exact Hs.
  - intros H.
    assert (Hc : forall m z, In z l -> exists q, laplace_default m z = DRet q).
    { intros m z Hin. destruct (H z Hin) as (Hs & _ & Hb). assert (L := laplace_map m z).
      destruct (map_base m z (Hu z Hin)) as [[_ (p & b & F)]|[(Hx & _)|[Hx _]]].
      - destruct (laplace_default m z); [eauto|..]; exfalso; destruct L as [L|L]; try contradiction; apply (L p b F).
      - exfalso. apply (not_same z); auto.
      - exfalso. apply (not_same z); [intuition|exact Hs]. }
    destruct (loop_ret laplace_default l Hc n []) as [d E]. exists d. unfold laplace_list, init_list. rewrite E.
    destruct (loop_one_each _ laplace_fresh n l d Hi E) as [(_ & K & _) H2].
    replace (latent_checked d) with true; [reflexivity|]. symmetry. apply latent_checked_spec. intros z q Hin.
    assert (Hz : In z l) by (apply K, in_map_iff; exists (z, q); auto).
    destruct (H2 _ _ Hin) as (m & m' & E'). destruct (H z Hz) as (_ & [Hp Ht] & _).
    assert (L := laplace_map m z). rewrite E' in L. destruct L as (p & b & _ & -> & _). cbn. unfold z_shape. rewrite Hp. auto.
Qed.

Lemma laplace_scalar : forall n z, untransformed z -> same_coordinates z -> batch_event z = [] -> laplace_list n [z] = DIndexError.
Proof.
  intros n z Hz Hs Hb. unfold laplace_list, init_list. cbn [default_loop]. unfold laplace_default.
  destruct (map_base n z Hz) as [[_ (p & b & F)]|[(Hx & _)|[Hx _]]].
  - unfold map_default in F. destruct (own_bijector z) as [b'| | | |]; try discriminate.
    destruct (point_shape b' (batch_event z)); [|discriminate]. rewrite Hb. reflexivity.
  - exfalso. apply (not_same z); auto.
  - exfalso. apply (not_same z); [intuition|exact Hs].
Qed.

Lemma laplace_simplex : forall n z, untransformed z -> has_support z "simplex" -> laplace_list n [z] = DValueError.
Proof.
  intros n z Hz Hs. unfold laplace_list, init_list. cbn [default_loop]. unfold laplace_default.
  assert (H := own_base z Hz). unfold has_support in Hs. rewrite Hs in H.
  destruct H as [[H _]|[[H _]|[[_ H]|[[H _]|[H _]]]]]; try discriminate.
  - rewrite H. cbn [point_shape inv_shape fwd_shape]. destruct (batch_event z) as [|x s] eqn:E; [reflexivity|].
    destruct (list_eq_dec _ _ _) as [Eq|_]; [|reflexivity]. exfalso. apply (snoc_last (x :: s)); [discriminate|exact Eq].
  - exfalso. unfold unconstrained in H. cbn in H. intuition discriminate.
  - exfalso. apply H. right. unfold constrained. cbn. auto.
Qed.

(** ** Monte Carlo *)

Lemma mc_fresh : fresh monte_carlo_default.
Proof.
  intros n z n' q H. injection H as <- <-. cbn. split; [lia|]. split; [constructor; [intros []|constructor]|].
  intros v [<-|[]]; lia.
Qed.

Lemma monte_carlo_entries : forall n l, identified l ->
  (monte_carlo_list n l = DTypeError /\ exists z, In z l /\ z_sample z <> []) \/
  (exists d, monte_carlo_list n l = DRet d /\ (forall z, In z l -> z_sample z = []) /\ one_each n l d /\
     forall z q, In (z, q) d -> exists p, q = QEmpirical p 10000%N (z_shape z) (z_dtype z)).
Proof.
  intros n l Hi.
  destruct (loop_ret monte_carlo_default l) with (n := n) (d := @nil (zvar * approx)) as [d E].
  { intros m z _. unfold monte_carlo_default. eauto. }
  destruct (loop_one_each _ mc_fresh n l d Hi E) as [H1 H2]. assert (K := proj1 (proj2 H1)).
  unfold monte_carlo_list, init_list. rewrite E.
  destruct (exists_or_all (fun z => z_sample z = []) l) as [Ha|Ha].
  { intros z. destruct (z_sample z); [auto|right; discriminate]. }
  - right. exists d. replace (latent_checked d) with true.
    + split; [reflexivity|]. split; [exact Ha|]. split; [exact H1|]. intros z q Hin.
      destruct (H2 _ _ Hin) as (m & m' & F). injection F as _ <-. exists m. unfold z_shape. rewrite Ha; [reflexivity|].
      apply K, in_map_iff. eexists. split; [|exact Hin]. reflexivity.
    + symmetry. apply latent_checked_spec. intros z q Hin. destruct (H2 _ _ Hin) as (m & m' & F). injection F as _ <-.
      cbn. unfold z_shape. rewrite Ha; [auto|]. apply K, in_map_iff. eexists. split; [|exact Hin]. reflexivity.
  - left. destruct (latent_checked d) eqn:C; [|auto]. exfalso. destruct Ha as (z & Hin & Hx).
    apply K in Hin. apply in_map_iff in Hin as [[z' q] [Ez Hin]]. cbn in Ez. subst z'.
    rewrite latent_checked_spec in C. destruct (C _ _ Hin) as [A _]. destruct (H2 _ _ Hin) as (m & m' & F). injection F as _ <-.
    cbn in A. unfold z_shape in A. apply app_self in A. contradiction.
Qed.

(** ** Dictionaries *)

Lemma init_dict_ret : forall f d todo, 
  (exists r, init_dict f todo d = DRet r) <-> (forall z u, In (z, u) todo -> f u = DRet tt) /\ Forall agree d.
Proof.
  intros f d todo. induction todo as [|[z u] todo IH]; cbn [init_dict].
  - assert (H : forallb (fun zu => shape_compat (known (z_shape (fst zu))) (known (u_shape (snd zu))) && Nat.eqb (z_dtype (fst zu)) (u_dtype (snd zu))) d = true <-> Forall agree d).
    { rewrite forallb_forall, Forall_forall. unfold agree. split; intros H x Hx; specialize (H x Hx).
      - apply andb_true_iff in H as [A B]. apply shape_known in A. apply Nat.eqb_eq in B. auto.
      - destruct H as [A B]. rewrite (proj2 (shape_known _ _) A), B, Nat.eqb_refl. reflexivity. }
    destruct (forallb _ d).
    + split; [|eauto]. intros _. split; [intros z u []|apply H; reflexivity].
    + split; [intros [r Hr]; discriminate|]. intros [_ Hd]. apply H in Hd. discriminate.
  - destruct (f u) as [[]| | | |] eqn:E.
    + rewrite IH. split; intros [A B]; (split; [|exact B]).
      * intros z' u' [Hx|Hx]; [injection Hx as <- <-; exact E|eauto].
      * intros z' u' Hx. apply (A z' u'). right; exact Hx.
    + split; [intros [r Hr]; discriminate|]. intros [A _]. rewrite (A z u (or_introl eq_refl)) in E. discriminate.
    + split; [intros [r Hr]; discriminate|]. intros [A _]. rewrite (A z u (or_introl eq_refl)) in E. discriminate.
    + split; [intros [r Hr]; discriminate|]. intros [A _]. rewrite (A z u (or_introl eq_refl)) in E. discriminate.
    + split; [intros [r Hr]; discriminate|]. intros [A _]. rewrite (A z u (or_introl eq_refl)) in E. discriminate.
Qed.

Lemma init_dict_same : forall f d todo r, init_dict f todo d = DRet r -> r = d.
Proof.
  intros f d todo r. induction todo as [|[z u] todo IH]; cbn [init_dict].
  - destruct (forallb _ d); [intro H; injection H as <-; reflexivity|discriminate].
  - destruct (f u); auto; discriminate.
Qed.

Lemma dict_returns : forall d,
  (map_dict d = DRet d <-> Forall (fun zu => u_family (snd zu) = FPointMass /\ agree zu) d) /\
  (laplace_dict d = DRet d <-> Forall (fun zu => In (u_family (snd zu)) [FMvnDiag; FMvnTriL; FNormal] /\ agree zu) d) /\
  (monte_carlo_dict d = DRet d <-> Forall (fun zu => u_family (snd zu) = FEmpirical /\ u_sample (snd zu) = [] /\ agree zu) d).
Proof.
  intros d.
  assert (G : forall f (P : given -> Prop), (forall u, f u = DRet tt <-> P u) ->
    (init_dict f d d = DRet d <-> Forall (fun zu => P (snd zu) /\ agree zu) d)).
  { intros f P HP. assert (H := init_dict_ret f d d). rewrite !Forall_forall in *. split.
    - intros E. destruct H as [H _]. destruct H as [A B]; [eauto|]. intros [z u] Hin. split; [|auto].
      apply HP. apply (A z u Hin).
    - intros E. destruct H as [_ H]. destruct H as [r Hr].
      + split; [intros z u Hin; apply HP; apply (E _ Hin)|]. intros x Hx. apply (E x Hx).
      + assert (r = d) by (eapply init_dict_same; exact Hr). congruence. }
  split; [|split].
  - apply (G map_value (fun u => u_family u = FPointMass)). intros u. unfold map_value. destruct (u_family u); split; congruence.
  - apply (G laplace_value (fun u => In (u_family u) [FMvnDiag; FMvnTriL; FNormal])). intros u. unfold laplace_value.
    destruct (u_family u); cbn; split; intro H; try discriminate; try reflexivity; intuition discriminate.
  - unfold monte_carlo_dict. rewrite (G monte_carlo_value (fun u => u_family u = FEmpirical /\ u_sample u = [])).
    + split; apply Forall_impl; intros x H; tauto.
    + intros u. unfold monte_carlo_value. destruct (u_family u); try (split; [discriminate|intros [H _]; discriminate]).
      destruct (u_sample u); split; try tauto; try discriminate. intros [_ H]; discriminate.
Qed.

Lemma dict_raises : forall d,
  (map_dict d = DTypeError \/ map_dict d = DRet d) /\
  (laplace_dict d = DTypeError \/ laplace_dict d = DRet d) /\
  (monte_carlo_dict d = DTypeError \/ monte_carlo_dict d = DValueError \/ monte_carlo_dict d = DRet d).
Proof.
  intros d.
  assert (G : forall f, (forall u, f u = DRet tt \/ f u = DTypeError) -> forall todo, init_dict f todo d = DTypeError \/ init_dict f todo d = DRet d).
  { intros f Hf todo. induction todo as [|[z u] todo IH]; cbn [init_dict].
    - destruct (forallb _ d); auto.
    - destruct (Hf u) as [-> | ->]; auto. }
  assert (G' : forall f, (forall u, f u = DRet tt \/ f u = DTypeError \/ f u = DValueError) ->
     forall todo, init_dict f todo d = DTypeError \/ init_dict f todo d = DValueError \/ init_dict f todo d = DRet d).
  { intros f Hf todo. induction todo as [|[z u] todo IH]; cbn [init_dict].
    - destruct (forallb _ d); auto.
    - destruct (Hf u) as [-> | [-> | ->]]; auto. }
  split; [apply G; intros u; unfold map_value; destruct (u_family u); auto|].
  split; [apply G; intros u; unfold laplace_value; destruct (u_family u); auto|].
  apply G'. intros u. unfold monte_carlo_value. destruct (u_family u); auto. destruct (u_sample u); auto.
Qed.

(** ** Refutations *)

Lemma sample_refuted : exists z, supported z /\ untransformed z /\ z_dtype z = float32 /\ forall n,
  klqp_list n [z] = DTypeError /\ map_list n [z] = DTypeError /\ laplace_list n [z] = DTypeError /\ monte_carlo_list n [z] = DTypeError.
Proof.
  exists (mkz (Transform.Base 0 (Some "real"%string)) [5] [2] [] float32). split.
  { exists "real"%string. split; [reflexivity|]. left. unfold unconstrained. cbn. auto. }
  split; [exists 0, (Some "real"%string); reflexivity|]. split; [reflexivity|]. intros n. repeat split; reflexivity.
Qed.

Lemma own_bijector_refuted : exists z d p b, has_support z "real" /\ plain z /\ (forall n, map_list n [z] = DRet (d n)) /\
  (forall n, d n = [(z, QPoint (p n) b (z_shape z))]) /\ forall u, Forall (fun a => (0 < a)%R) (point_value b u).
Proof.
  set (z := mkz (Trans (Transform.Base 0 (Some "nonnegative"%string)) (Invert Softplus) (Some "real"%string)) [] [] [] float32).
  exists z, (fun n => [(z, QPoint n (Some (Invert Softplus)) [])]), (fun n => n), (Some (Invert Softplus)).
  split; [reflexivity|]. split; [split; reflexivity|]. split; [intros n; reflexivity|]. split; [reflexivity|].
  intros u. cbn. apply Forall_forall. intros x Hx. apply in_map_iff in Hx as [y [<- _]]. apply softplus_pos.
Qed.
