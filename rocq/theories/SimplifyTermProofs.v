(** * Termination of the simplifier: a polynomial interpretation. *)
From Coq Require Import List Arith ZArith QArith Bool Lia Psatz.
From Verif Require Import Simplify SimplifySpec.
Import ListNotations.
Open Scope nat_scope.

Section ExprInd.
  Variable P : expr -> Prop.
  Hypothesis HN : forall h args, Forall P args -> P (Node h args).
  Fixpoint expr_ind' (e : expr) : P e :=
    match e with
    | Node h args =>
      HN h args
        ((fix go (l : list expr) : Forall P l :=
            match l with
            | [] => Forall_nil P
            | a :: l' => Forall_cons a (expr_ind' a) (go l')
            end) args)
    end.
End ExprInd.

Definition sum (l : list nat) : nat := fold_right Nat.add 0 l.
Definition prod (l : list nat) : nat := fold_right Nat.mul 1 l.

Definition wt (h : head) (l : list nat) : nat :=
  match h, l with
  | HSym SMul, _ => 2 * prod l
  | HCPow _, a :: r => a ^ 3 + sum r
  | HSym SRecip, a :: r => a ^ 3 + 1 + sum r
  | HSym SSquare, a :: r => a ^ 3 + 1 + sum r
  | HSym SSqrt, a :: r => a ^ 3 + 1 + sum r
  | HSym SRecip, [] => 3
  | HSym SSquare, [] => 3
  | HSym SSqrt, [] => 3
  | HSym SLog, a :: r => a ^ 2 + sum r
  | HSym SPow, a :: p :: r => a ^ (3 * p) + sum r
  | _, _ => 2 + sum l
  end.

Fixpoint meas (e : expr) : nat :=
  match e with Node h args => wt h (map meas args) end.

Lemma meas_node : forall h args, meas (Node h args) = wt h (map meas args).
Proof. reflexivity. Qed.

Definition ge2 (l : list nat) : Prop := Forall (fun n => 2 <= n) l.

Lemma prod_pos : forall l, ge2 l -> 1 <= prod l.
Proof.
  induction l as [|a l IH]; intros H; simpl; [lia|].
  inversion H; subst. specialize (IH H3). nia.
Qed.

Lemma pow3_ge : forall a, 2 <= a -> 8 <= a ^ 3.
Proof. intros a H. change 8 with (2 ^ 3). apply Nat.pow_le_mono_l. exact H. Qed.

Lemma wt_ge2 : forall h l, ge2 l -> 2 <= wt h l.
Proof.
  intros h l H. pose proof (prod_pos l H) as Hp.
  assert (Ha : forall a r, l = a :: r -> 2 <= a).
  { intros a r ->. inversion H; auto. }
  destruct h as [| | | s |]; try (simpl; lia).
  - destruct s; try (simpl; lia);
      destruct l as [|a l]; try (simpl; lia);
      specialize (Ha _ _ eq_refl).
    + cbn [wt]. assert (4 <= a ^ 2) by (simpl; nia). lia.
    + destruct l as [|p l]; [simpl; lia|].
      cbn [wt]. inversion H; subst. inversion H3; subst.
      assert (2 ^ 1 <= a ^ (3 * p)).
      { transitivity (a ^ 1); [apply Nat.pow_le_mono_l; lia|].
        apply Nat.pow_le_mono_r; lia. }
      rewrite Nat.pow_1_r in H0. lia.
    + cbn [wt]. pose proof (pow3_ge a Ha). lia.
    + cbn [wt]. pose proof (pow3_ge a Ha). lia.
    + cbn [wt]. pose proof (pow3_ge a Ha). lia.
  - destruct l as [|a l]; [simpl; lia|]. specialize (Ha _ _ eq_refl).
    cbn [wt]. pose proof (pow3_ge a Ha). lia.
Qed.

Lemma meas_ge2 : forall e, 2 <= meas e.
Proof.
  induction e as [h args IH] using expr_ind'.
  rewrite meas_node. apply wt_ge2. unfold ge2.
  apply Forall_forall. intros n Hn. apply in_map_iff in Hn.
  destruct Hn as [a [<- Ha]]. rewrite Forall_forall in IH. auto.
Qed.

Lemma ge2_meas : forall args, ge2 (map meas args).
Proof.
  intros args. apply Forall_forall. intros n Hn. apply in_map_iff in Hn.
  destruct Hn as [a [<- Ha]]. apply meas_ge2.
Qed.

Lemma sum_mono : forall l' l, Forall2 le l' l -> sum l' <= sum l.
Proof. intros l' l H. induction H; simpl; lia. Qed.

Lemma prod_mono : forall l' l, Forall2 le l' l -> ge2 l' ->
  prod l' <= prod l /\ (sum l' < sum l -> prod l' < prod l).
Proof.
  intros l' l H. induction H as [|a b l' l Hab H IH]; intros Hg.
  - simpl. lia.
  - inversion Hg; subst. destruct (IH H3) as [I1 I2].
    pose proof (sum_mono _ _ H). pose proof (prod_pos _ H3).
    cbn [prod sum fold_right] in *. fold (prod l') (prod l) (sum l') (sum l) in *.
    split; [nia|]. intros Hs.
    destruct (Nat.eq_dec a b).
    + subst b. assert (prod l' < prod l) by (apply I2; lia). nia.
    + nia.
Qed.

Lemma pow_strict : forall a b k, a < b -> 0 < k -> a ^ k < b ^ k.
Proof. intros. apply Nat.pow_lt_mono_l; lia. Qed.

Lemma wt_mono : forall h l' l, Forall2 le l' l -> ge2 l' ->
  wt h l' <= wt h l /\ (sum l' < sum l -> wt h l' < wt h l).
Proof.
  intros h l' l H Hg.
  pose proof (sum_mono _ _ H) as Hs.
  destruct (prod_mono _ _ H Hg) as [Hp1 Hp2].
  assert (Hc : forall k a b r s, l' = a :: r -> l = b :: s -> 0 < k ->
    a ^ k + sum r <= b ^ k + sum s /\
    (sum l' < sum l -> a ^ k + sum r < b ^ k + sum s)).
  { intros k a b r s -> -> Hk. inversion H; subst.
    pose proof (sum_mono _ _ H5).
    assert (a ^ k <= b ^ k) by (apply Nat.pow_le_mono_l; lia).
    split; [lia|]. cbn [sum fold_right]. fold (sum r) (sum s). intros Hlt.
    destruct (Nat.eq_dec a b); [subst; lia|].
    assert (a ^ k < b ^ k) by (apply pow_strict; lia). lia. }
  destruct h as [| | | s |]; try (cbn [wt]; lia).
  - destruct s; try (cbn [wt]; lia);
      destruct H as [|a b r s Hab H]; try (cbn [wt]; lia).
    + cbn [wt]. apply (Hc 2 a b r s); auto; lia.
    + destruct H as [|p q r s Hpq H]; [cbn [wt]; lia|].
      cbn [wt]. inversion Hg; subst. inversion H3; subst.
      pose proof (sum_mono _ _ H).
      assert (a ^ (3 * p) <= b ^ (3 * p)) by (apply Nat.pow_le_mono_l; lia).
      assert (b ^ (3 * p) <= b ^ (3 * q)) by (apply Nat.pow_le_mono_r; lia).
      split; [lia|]. cbn [sum fold_right]. fold (sum r) (sum s). intros Hlt.
      destruct (Nat.eq_dec a b); [subst b; destruct (Nat.eq_dec p q)|].
      * subst q. lia.
      * assert (a ^ (3 * p) < a ^ (3 * q)) by (apply Nat.pow_lt_mono_r; lia). lia.
      * assert (a ^ (3 * p) < b ^ (3 * p)) by (apply pow_strict; lia). lia.
    + cbn [wt]. destruct (Hc 3 a b r s) as [C1 C2]; auto; try lia.
    + cbn [wt]. destruct (Hc 3 a b r s) as [C1 C2]; auto; try lia.
    + cbn [wt]. destruct (Hc 3 a b r s) as [C1 C2]; auto; try lia.
  - destruct H as [|a b r s Hab H]; [cbn [wt]; lia|].
    cbn [wt]. apply (Hc 3 a b r s); auto; lia.
Qed.

(** ** Every rule decreases the interpretation *)

Definition decreasing (fn : expr -> res) : Prop :=
  forall e e', fn e = Rewrites e' -> meas e' < meas e.

Lemma sum_app : forall l1 l2, sum (l1 ++ l2) = sum l1 + sum l2.
Proof. induction l1; intros; simpl; [|rewrite IHl1]; lia. Qed.
Lemma prod_app : forall l1 l2, prod (l1 ++ l2) = prod l1 * prod l2.
Proof. induction l1; intros; simpl; [|rewrite IHl1]; lia. Qed.

Lemma sum_cons : forall a l, sum (a :: l) = a + sum l. Proof. reflexivity. Qed.
Lemma prod_cons : forall a l, prod (a :: l) = a * prod l. Proof. reflexivity. Qed.

Lemma identity_op_dec : decreasing identity_op_simplify.
Proof.
  intros [h args] e' H. unfold identity_op_simplify in H.
  destruct h as [| | |s|]; try discriminate. destruct s; try discriminate.
  destruct args as [|a r]; inversion H; subst.
  rewrite meas_node. cbn [map wt]. rewrite sum_cons. lia.
Qed.

Lemma power_op_dec : decreasing power_op_simplify.
Proof.
  intros [h args] e' H. unfold power_op_simplify in H.
  destruct (power_ops h) as [q|] eqn:E; [|discriminate].
  inversion H; subst. rewrite !meas_node.
  destruct h as [| | |s|]; try discriminate.
  destruct s; try discriminate; destruct args as [|a r]; cbn [map wt]; simpl sum; lia.
Qed.

Lemma sq_ge : forall a, 2 <= a -> 2 * a <= a ^ 2.
Proof. intros. simpl. nia. Qed.
Lemma cube_gt : forall a, 2 <= a -> a < a ^ 3.
Proof. intros a H. simpl. nia. Qed.
Lemma cube_mono : forall a b, a <= b -> a ^ 3 <= b ^ 3.
Proof. intros. apply Nat.pow_le_mono_l. auto. Qed.

Lemma pow_dec : decreasing pow_simplify.
Proof.
  intros [h args] e' H. unfold pow_simplify in H.
  destruct h as [| | |s|p]; try discriminate.
  destruct args as [|[h2 sub] r]; try discriminate.
  destruct h2 as [| | |s|q]; try discriminate.
  destruct sub as [|a r2]; try discriminate.
  pose proof (meas_ge2 a) as Ha. pose proof (cube_gt _ Ha) as Hc.
  assert (Hc2 : meas a ^ 3 < (meas a ^ 3 + sum (map meas r2)) ^ 3).
  { eapply Nat.lt_le_trans; [apply (cube_gt (meas a ^ 3)); lia|]. apply cube_mono. lia. }
  destruct (Qeq_bool (q * p) 1); inversion H; subst;
    rewrite !meas_node; cbn [map wt]; rewrite ?meas_node; cbn [map wt]; cbn [sum fold_right]; lia.
Qed.

Lemma pow2_big : forall p, 2 * p < 2 ^ (6 * p - 2) \/ p = 0.
Proof.
  intros p. destruct p as [|p]; [now right|left].
  induction p as [|p IH]; [simpl; lia|].
  replace (6 * S (S p) - 2) with (6 + (6 * S p - 2)) by lia.
  rewrite Nat.pow_add_r. change (2 ^ 6) with 64. lia.
Qed.

Lemma log_pow_dec : decreasing log_pow_simplify.
Proof.
  intros [h args] e' H. unfold log_pow_simplify in H.
  destruct h as [| | |s|]; try discriminate. destruct s; try discriminate.
  destruct args as [|[h2 sub] r]; try discriminate.
  destruct h2 as [| | |s|q]; try discriminate.
  - destruct s; try discriminate.
    destruct sub as [|a [|p r2]]; inversion H; subst.
    rewrite !meas_node. cbn [map]. rewrite !meas_node. cbn [map wt].
    rewrite !prod_cons. cbn [prod fold_right sum].
    pose proof (meas_ge2 a) as Ha. pose proof (meas_ge2 p) as Hp.
    set (x := meas a) in *. set (y := meas p) in *.
    assert (Hx : x ^ 2 * x ^ (6 * y - 2) <= (x ^ (3 * y) + sum (map meas r2)) ^ 2).
    { transitivity ((x ^ (3 * y)) ^ 2).
      - rewrite <- Nat.pow_add_r, <- Nat.pow_mul_r.
        apply Nat.eq_le_incl. f_equal. lia.
      - apply Nat.pow_le_mono_l. lia. }
    destruct (pow2_big y) as [Hb|Hb]; [|lia].
    assert (2 ^ (6 * y - 2) <= x ^ (6 * y - 2)) by (apply Nat.pow_le_mono_l; lia).
    assert (0 < x ^ 2) by (simpl; nia).
    fold (sum (map meas r2)). nia.
  - destruct sub as [|a r2]; inversion H; subst.
    rewrite !meas_node. cbn [map]. rewrite !meas_node. cbn [map wt].
    rewrite !prod_cons. cbn [prod fold_right sum].
    pose proof (meas_ge2 a) as Ha. set (x := meas a) in *.
    fold (sum (map meas r2)). fold (sum (map meas r)).
    assert (Hx : (x ^ 3) ^ 2 <= (x ^ 3 + sum (map meas r2)) ^ 2).
    { apply Nat.pow_le_mono_l. lia. }
    assert (16 <= x ^ 4).
    { change 16 with (2 ^ 4). apply Nat.pow_le_mono_l. lia. }
    assert ((x ^ 3) ^ 2 = x ^ 4 * x ^ 2).
    { rewrite <- Nat.pow_add_r, <- Nat.pow_mul_r. reflexivity. }
    assert (4 <= x ^ 2) by (simpl; nia). nia.
Qed.

Lemma map_ext_in' : forall (A B : Type) (f g : A -> B) l, (forall a, f a = g a) -> map f l = map g l.
Proof. intros. apply map_ext. auto. Qed.

Lemma log_sum_prod : forall l, ge2 l ->
  2 + sum (map (fun n => n ^ 2) l) < (2 * prod l) ^ 2.
Proof.
  induction l as [|a l IH]; intros H; [simpl; lia|].
  inversion H; subst. specialize (IH H3). cbn [map]. rewrite sum_cons, prod_cons.
  rewrite !Nat.pow_mul_l in *. change (2 ^ 2) with 4 in *.
  assert (4 <= a ^ 2) by (simpl; nia).
  set (s := sum (map (fun n => n ^ 2) l)) in *. set (p := prod l ^ 2) in *.
  set (b := a ^ 2) in *. nia.
Qed.

Lemma log_mul_dec : decreasing log_mul_simplify.
Proof.
  intros [h args] e' H. unfold log_mul_simplify in H.
  destruct h as [| | |s|]; try discriminate. destruct s; try discriminate.
  destruct args as [|[h2 ms] r]; try discriminate.
  destruct h2 as [| | |s|q]; try discriminate. destruct s; inversion H; subst.
  rewrite !meas_node. cbn [map]. rewrite !meas_node. cbn [wt].
  rewrite map_map.
  rewrite (map_ext_in' _ _ _ (fun i => meas i ^ 2)).
  2:{ intros a. rewrite meas_node. cbn [map wt]. simpl sum. lia. }
  rewrite <- (map_map meas (fun n => n ^ 2)).
  pose proof (log_sum_prod (map meas ms) (ge2_meas ms)). lia.
Qed.

Lemma prod_pow : forall k l, prod (map (fun n => n ^ k) l) = prod l ^ k.
Proof.
  intros k. induction l; simpl.
  - now rewrite Nat.pow_1_l.
  - unfold prod in *. rewrite IHl, Nat.pow_mul_l. reflexivity.
Qed.

Lemma two_pow_gt : forall k l, ge2 l -> 2 <= k -> 2 * prod l ^ k < (2 * prod l) ^ k.
Proof.
  intros k l H Hk. rewrite Nat.pow_mul_l.
  pose proof (prod_pos l H).
  assert (1 <= prod l ^ k). { apply Nat.neq_0_lt_0. apply Nat.pow_nonzero. lia. }
  assert (2 ^ 2 <= 2 ^ k) by (apply Nat.pow_le_mono_r; lia). simpl (2 ^ 2) in *. nia.
Qed.

Lemma pow_mul_dec : decreasing pow_mul_simplify.
Proof.
  intros [h args] e' H. unfold pow_mul_simplify in H.
  destruct h as [| | |s|q]; try discriminate.
  - destruct s; try discriminate.
    destruct args as [|[h2 ms] r]; try discriminate.
    assert (Hh : h2 = HSym SMul).
    { destruct r; destruct h2 as [| | |s|]; try discriminate; destruct s; try discriminate; auto;
      destruct ms; discriminate. }
    subst h2.
    destruct r as [|p r].
    + destruct ms; inversion H; subst. simpl. lia.
    + assert (E : e' = Node (HSym SMul) (map (fun i => Node (HSym SPow) [i; p]) ms)).
      { destruct ms; now inversion H. }
      subst e'. rewrite !meas_node. cbn [map]. rewrite !meas_node. cbn [wt].
      rewrite map_map.
      rewrite (map_ext_in' _ _ _ (fun i => meas i ^ (3 * meas p))).
      2:{ intros a. rewrite meas_node. cbn [map wt]. simpl sum. lia. }
      rewrite <- (map_map meas (fun n => n ^ (3 * meas p))), prod_pow.
      pose proof (meas_ge2 p).
      pose proof (two_pow_gt (3 * meas p) (map meas ms) (ge2_meas ms)). lia.
  - destruct args as [|[h2 ms] r]; try discriminate.
    destruct h2 as [| | |s|]; try discriminate. destruct s; inversion H; subst.
    rewrite !meas_node. cbn [map]. rewrite !meas_node. cbn [wt].
    rewrite map_map.
    rewrite (map_ext_in' _ _ _ (fun i => meas i ^ 3)).
    2:{ intros a. rewrite meas_node. cbn [map wt]. simpl sum. lia. }
    rewrite <- (map_map meas (fun n => n ^ 3)), prod_pow.
    pose proof (two_pow_gt 3 (map meas ms) (ge2_meas ms)). lia.
Qed.

Lemma split_add_spec : forall args before others js,
  split_add before args = Some (others, js) ->
  exists l1 l2, args = l1 ++ Node (HSym SAdd) js :: l2 /\ others = before ++ l1 ++ l2.
Proof.
  induction args as [|a args IH]; intros before others js H; [discriminate|].
  assert (Hc : (exists js', a = Node (HSym SAdd) js') \/
    split_add before (a :: args) = split_add (before ++ [a]) args).
  { destruct a as [h l]. destruct h as [| | |s|]; auto. destruct s; auto. left; eauto. }
  destruct Hc as [[js' ->]|Hc].
  - simpl in H. inversion H; subst. exists [], args. split; auto.
  - rewrite Hc in H. apply IH in H. destruct H as [l1 [l2 [-> ->]]].
    exists (a :: l1), l2. split; auto. rewrite <- !app_assoc. reflexivity.
Qed.

Lemma sum_mul : forall k l, sum (map (fun n => k * n) l) = k * sum l.
Proof. intros k. induction l; simpl; [lia|]. unfold sum in *. rewrite IHl. lia. Qed.

Lemma mul_add_dec : decreasing mul_add_simplify.
Proof.
  intros [h args] e' H. unfold mul_add_simplify in H.
  destruct h as [| | |s|]; try discriminate. destruct s; try discriminate.
  destruct (split_add [] args) as [[others js]|] eqn:E; inversion H; subst.
  apply split_add_spec in E. destruct E as [l1 [l2 [-> ->]]]. cbn [app].
  rewrite !meas_node. cbn [wt].
  rewrite map_map.
  set (po := prod (map meas (l1 ++ l2))).
  rewrite (map_ext_in' _ _ _ (fun j => 2 * po * meas j)).
  2:{ intros a. rewrite meas_node. cbn [wt]. rewrite map_app, prod_app.
      cbn [map]. rewrite prod_cons. fold po. cbn [prod fold_right]. lia. }
  rewrite <- (map_map meas (fun n => 2 * po * n)), sum_mul.
  rewrite map_app. cbn [map]. rewrite prod_app, prod_cons, meas_node. cbn [wt].
  assert (Hpo : po = prod (map meas l1) * prod (map meas l2)).
  { unfold po. now rewrite map_app, prod_app. }
  pose proof (prod_pos (map meas (l1 ++ l2)) (ge2_meas _)). fold po in H0.
  nia.
Qed.

Lemma flat_sum : forall l, sum (map meas (flat_map
    (fun i => if is_sym SAdd i then args_of i else [i]) l)) <= sum (map meas l) /\
  (existsb (is_sym SAdd) l = true -> sum (map meas (flat_map
    (fun i => if is_sym SAdd i then args_of i else [i]) l)) < sum (map meas l)).
Proof.
  induction l as [|a l [IH1 IH2]]; [simpl; split; [lia|discriminate]|].
  cbn [flat_map existsb]. rewrite map_app, sum_app. cbn [map]. rewrite sum_cons.
  destruct (is_sym SAdd a) eqn:E.
  - assert (sum (map meas (args_of a)) < meas a).
    { destruct a as [h args]. destruct h as [| | |s|]; try discriminate.
      destruct s; try discriminate. rewrite meas_node. cbn [wt args_of]. lia. }
    split; intros; lia.
  - cbn [map]. rewrite sum_cons. cbn [sum fold_right]. fold (sum (map meas l)).
    cbn [orb]. split; [lia|]. intros Hx. specialize (IH2 Hx). lia.
Qed.

Lemma flat_prod : forall l, prod (map meas (flat_map
    (fun i => if is_sym SMul i then args_of i else [i]) l)) <= prod (map meas l) /\
  (existsb (is_sym SMul) l = true -> prod (map meas (flat_map
    (fun i => if is_sym SMul i then args_of i else [i]) l)) < prod (map meas l)).
Proof.
  induction l as [|a l [IH1 IH2]]; [simpl; split; [lia|discriminate]|].
  cbn [flat_map existsb]. rewrite map_app, prod_app. cbn [map]. rewrite prod_cons.
  pose proof (prod_pos _ (ge2_meas l)) as Hl.
  pose proof (prod_pos _ (ge2_meas (flat_map
    (fun i => if is_sym SMul i then args_of i else [i]) l))) as Hfl.
  destruct (is_sym SMul a) eqn:E.
  - assert (2 * prod (map meas (args_of a)) = meas a).
    { destruct a as [h args]. destruct h as [| | |s|]; try discriminate.
      destruct s; try discriminate. rewrite meas_node. reflexivity. }
    pose proof (prod_pos _ (ge2_meas (args_of a))).
    rewrite <- H. split; intros; nia.
  - cbn [map]. rewrite prod_cons. cbn [prod fold_right]. fold (prod (map meas l)).
    pose proof (meas_ge2 a).
    cbn [orb]. split; [nia|]. intros Hx. specialize (IH2 Hx). nia.
Qed.

Lemma is_sym_inv : forall s e, is_sym s e = true -> e = Node (HSym s) (args_of e).
Proof.
  intros s [h args] H. destruct h as [| | |s'|]; try discriminate.
  destruct s; destruct s'; try discriminate; reflexivity.
Qed.

Lemma add_add_dec : decreasing add_add_simplify.
Proof.
  intros e e' H. unfold add_add_simplify, commutative_simplify in H.
  destruct (is_sym SAdd e) eqn:E; [|discriminate].
  destruct (existsb (is_sym SAdd) (args_of e)) eqn:E2; inversion H; subst.
  apply is_sym_inv in E. rewrite E at 2. rewrite !meas_node. cbn [wt].
  destruct (flat_sum (args_of e)) as [_ F]. specialize (F E2). lia.
Qed.

Lemma mul_mul_dec : decreasing mul_mul_simplify.
Proof.
  intros e e' H. unfold mul_mul_simplify, commutative_simplify in H.
  destruct (is_sym SMul e) eqn:E; [|discriminate].
  destruct (existsb (is_sym SMul) (args_of e)) eqn:E2; inversion H; subst.
  apply is_sym_inv in E. rewrite E at 2. rewrite !meas_node. cbn [wt].
  destruct (flat_prod (args_of e)) as [_ F]. specialize (F E2). lia.
Qed.

Lemma filter_sum_prod : forall (f : expr -> bool) l,
  (sum (map meas (filter f l)) <= sum (map meas l) /\
   prod (map meas (filter f l)) <= prod (map meas l)) /\
  (existsb (fun i => negb (f i)) l = true ->
   sum (map meas (filter f l)) < sum (map meas l) /\
   prod (map meas (filter f l)) < prod (map meas l)).
Proof.
  intros f. induction l as [|a l [[I1 I2] I3]]; [simpl; split; [lia|discriminate]|].
  cbn [filter existsb]. pose proof (meas_ge2 a).
  pose proof (prod_pos _ (ge2_meas l)) as Hl.
  pose proof (prod_pos _ (ge2_meas (filter f l))) as Hl'.
  destruct (f a); cbn [map negb orb]; rewrite ?sum_cons, ?prod_cons.
  - split; [nia|]. intros Hx. specialize (I3 Hx). nia.
  - split; [nia|]. intros _. split; nia.
Qed.

Lemma identity_dec : forall op v, op = SAdd \/ op = SMul -> decreasing (identity_simplify op v).
Proof.
  intros op v Hop e e' H. unfold identity_simplify in H.
  destruct (is_sym op e) eqn:E; [|discriminate]. apply is_sym_inv in E.
  set (args := args_of e) in *. clearbody args. subst e.
  set (l' := filter (fun i => negb (is_num v i)) args) in *.
  assert (Hw : forall a, args = [a] -> meas a < meas (Node (HSym op) args)).
  { intros a ->. rewrite meas_node. pose proof (meas_ge2 a).
    destruct Hop; subst op; cbn [map wt sum prod fold_right]; lia. }
  assert (Hm : existsb (is_num v) args = true ->
    sum (map meas l') < sum (map meas args) /\ prod (map meas l') < prod (map meas args)).
  { intros Hx. apply (filter_sum_prod (fun i => negb (is_num v i)) args).
    rewrite <- Hx. clear. induction args; simpl; [auto|].
    rewrite negb_involutive, IHargs. reflexivity. }
  assert (Hmain : existsb (is_num v) args = true ->
    (match l' with [] => Raises | [a] => Rewrites a | n => Rewrites (Node (HSym op) n) end)
    = Rewrites e' -> meas e' < meas (Node (HSym op) args)).
  { intros Hx Hr. destruct (Hm Hx) as [H1 H2].
    destruct l' as [|a [|b l']]; inversion Hr; subst.
    - rewrite meas_node. cbn [map sum prod fold_right] in H1, H2.
      destruct Hop; subst op; cbn [wt]; fold (sum (map meas args)) in *; lia.
    - rewrite !meas_node. destruct Hop; subst op; cbn [wt]; lia. }
  destruct args as [|a [|b args]].
  - destruct (existsb (is_num v) []) eqn:Ex; [|discriminate]. discriminate Ex.
  - inversion H; subst. apply Hw. auto.
  - destruct (existsb (is_num v) (a :: b :: args)) eqn:Ex; [|discriminate].
    apply Hmain; [reflexivity|]. unfold l'. rewrite <- H.
    destruct (filter (fun i => negb (is_num v i)) (a :: b :: args)) as [|c [|d m]]; reflexivity.
Qed.

Lemma in_prod_ge : forall l n, ge2 l -> In n l -> n <= prod l.
Proof.
  induction l as [|a l IH]; intros n H Hi; [destruct Hi|].
  inversion H; subst. pose proof (prod_pos _ H3). rewrite prod_cons.
  destruct Hi as [->|Hi]; [nia|]. specialize (IH n H3 Hi). nia.
Qed.

Lemma mul_zero_dec : decreasing mul_zero_simplify.
Proof.
  intros e e' H. unfold mul_zero_simplify in H.
  destruct (is_sym SMul e) eqn:E; [|discriminate].
  destruct (existsb (is_num 0) (args_of e)) eqn:E2; inversion H; subst.
  apply is_sym_inv in E. rewrite E. rewrite !meas_node. cbn [map wt sum fold_right].
  apply existsb_exists in E2. destruct E2 as [a [Ha _]].
  pose proof (in_prod_ge (map meas (args_of e)) (meas a) (ge2_meas _) (in_map meas _ _ Ha)).
  pose proof (meas_ge2 a). lia.
Qed.

Lemma cross_sum : forall a rest,
  sum (map meas (map (fun b => Node (HSym SMul) [Node (HNum 2%Q) []; a; b]) rest))
  = 4 * meas a * sum (map meas rest).
Proof.
  intros a. induction rest as [|b rest IH]; [simpl; lia|].
  cbn [map]. rewrite !sum_cons, IH. rewrite meas_node. cbn [map wt prod fold_right].
  rewrite meas_node. cbn [map wt sum fold_right].
  fold (sum (map meas rest)). lia.
Qed.

Lemma square_terms_sum : forall js,
  sum (map meas (square_terms js)) <= (sum (map meas js)) ^ 3 + 2 * (sum (map meas js)) ^ 2.
Proof.
  induction js as [|a js IH]; [simpl; lia|].
  cbn [square_terms map]. rewrite sum_cons, map_app, sum_app, cross_sum, meas_node.
  cbn [map wt]. rewrite sum_cons. simpl (sum []).
  set (s := sum (map meas js)) in *. set (x := meas a). set (q := sum (map meas (square_terms js))) in *.
  simpl in *. nia.
Qed.

Lemma square_add_dec : decreasing square_add_simplify.
Proof.
  intros [h args] e' H. unfold square_add_simplify in H.
  destruct h as [| | |s|q]; try discriminate.
  destruct (Qeq_bool q 2); [|discriminate].
  destruct args as [|[h2 js] r]; try discriminate.
  destruct h2 as [| | |s|]; try discriminate. destruct s; inversion H; subst.
  rewrite !meas_node. cbn [map]. rewrite meas_node. cbn [wt].
  pose proof (square_terms_sum js).
  set (s := sum (map meas js)) in *. set (t := sum (map meas (square_terms js))) in *.
  simpl in *. nia.
Qed.

Lemma add_const_dec : decreasing add_const_simplify.
Proof.
  intros e e' H. unfold add_const_simplify in H.
  destruct (is_sym SAdd e) eqn:E; [|discriminate].
  destruct (existsb (fun i => negb (contains_x i)) (args_of e)) eqn:E2; inversion H; subst.
  apply is_sym_inv in E. rewrite E at 2. rewrite !meas_node. cbn [wt].
  destruct (filter_sum_prod contains_x (args_of e)) as [_ F]. specialize (F E2). lia.
Qed.

Lemma one_m_dec : forall ti, decreasing (one_m_simplify ti).
Proof.
  intros ti [h args] e' H. unfold one_m_simplify in H.
  destruct h as [| | |s|]; try discriminate. destruct s; try discriminate.
  destruct args as [|[h2 l] r]; try discriminate.
  destruct h2 as [| |t| |]; try discriminate.
  destruct (const_val ti t) as [|q|]; try discriminate.
  destruct (Qeq_bool q 1); [|discriminate].
  destruct r as [|b r]; inversion H; subst.
  rewrite (meas_node (HSym SOneMinus)), (meas_node (HSym SSub)).
  cbn [map]. pose proof (meas_ge2 (Node (HTens t) l)).
  set (m := meas (Node (HTens t) l)) in *. cbn [wt sum fold_right]. lia.
Qed.

Lemma cast_dec : forall ti, decreasing (cast_simplify ti).
Proof.
  intros ti [h args] e' H. unfold cast_simplify in H.
  destruct h as [| |t| |]; try discriminate.
  destruct (is_cast ti t); [|discriminate].
  destruct args as [|a r]; inversion H; subst.
  rewrite meas_node. cbn [map wt]. rewrite sum_cons. lia.
Qed.

Lemma onehot_dec : decreasing onehot_simplify.
Proof.
  intros [h args] e' H. unfold onehot_simplify in H.
  destruct h as [| | |s|]; try discriminate. destruct s; try discriminate.
  destruct args as [|a [|b r]]; inversion H; subst.
  rewrite !meas_node. cbn [map wt]. rewrite !sum_cons. simpl (sum []).
  pose proof (meas_ge2 b). lia.
Qed.

Lemma all_decreasing : forall ti, Forall decreasing (simplify_fns ti).
Proof.
  intros ti. unfold simplify_fns. repeat constructor.
  - apply identity_op_dec.
  - apply power_op_dec.
  - apply pow_dec.
  - apply log_pow_dec.
  - apply log_mul_dec.
  - apply pow_mul_dec.
  - apply mul_add_dec.
  - apply add_add_dec.
  - apply mul_mul_dec.
  - apply identity_dec; auto.
  - apply identity_dec; auto.
  - apply mul_zero_dec.
  - apply square_add_dec.
  - apply add_const_dec.
  - apply one_m_dec.
  - apply cast_dec.
  - apply onehot_dec.
Qed.

(** ** The drivers *)

Fixpoint wrapped_list (fn : expr -> res) (l : list expr) : outcome (bool * list expr) :=
  match l with
  | [] => Ret (false, [])
  | a :: l' =>
    match wrapped fn a with
    | Exc => Exc
    | Ret (b, a') =>
      match wrapped_list fn l' with
      | Exc => Exc
      | Ret (b', l'') => Ret (b || b', a' :: l'')
      end
    end
  end.

Lemma wrapped_eq : forall fn h args,
  wrapped fn (Node h args) =
  match fn (Node h args) with
  | Raises => Exc
  | Rewrites e' => Ret (true, e')
  | Nothing =>
    match wrapped_list fn args with
    | Exc => Exc
    | Ret (b, args') => Ret (b, Node h args')
    end
  end.
Proof.
  intros. cbn [wrapped]. destruct (fn (Node h args)); auto.
  match goal with
  | |- match ?f args with _ => _ end = _ =>
    assert (E : forall l, f l = wrapped_list fn l)
  end.
  { induction l as [|a l IH]; [reflexivity|].
    cbn [wrapped_list]. rewrite <- IH. reflexivity. }
  rewrite E. reflexivity.
Qed.

Lemma wrapped_dec : forall fn, decreasing fn ->
  forall e b e', wrapped fn e = Ret (b, e') ->
  meas e' <= meas e /\ (b = true -> meas e' < meas e) /\ (b = false -> e' = e).
Proof.
  intros fn Hfn. induction e as [h args IH] using expr_ind'. intros b e' H.
  rewrite wrapped_eq in H.
  destruct (fn (Node h args)) as [|e1|] eqn:E; [|inversion H; subst|discriminate].
  2:{ apply Hfn in E. repeat split; [lia|auto|discriminate]. }
  destruct (wrapped_list fn args) as [[b1 args']|] eqn:El; inversion H; subst.
  assert (Hl : Forall2 le (map meas args') (map meas args) /\
    (b = true -> sum (map meas args') < sum (map meas args)) /\ (b = false -> args' = args)).
  { clear H E. revert b args' El. induction IH as [|a l Ha IHl IHl']; intros b args' El.
    - simpl in El. inversion El; subst. repeat split; [constructor|discriminate].
    - simpl in El. destruct (wrapped fn a) as [[b1 a']|] eqn:Ea; [|discriminate].
      destruct (wrapped_list fn l) as [[b2 l'']|] eqn:El2; inversion El; subst.
      destruct (Ha _ _ eq_refl) as [A1 [A2 A3]].
      destruct (IHl' _ _ eq_refl) as [L1 [L2 L3]].
      pose proof (sum_mono _ _ L1).
      cbn [map]. rewrite !sum_cons. repeat split.
      + constructor; auto.
      + intros Hb. apply orb_true_iff in Hb. destruct Hb as [Hb|Hb].
        * specialize (A2 Hb). lia.
        * specialize (L2 Hb). lia.
      + intros Hb. apply orb_false_iff in Hb. destruct Hb as [-> ->].
        rewrite A3, L3; auto. }
  destruct Hl as [L1 [L2 L3]].
  rewrite !meas_node.
  destruct (wt_mono h _ _ L1 (ge2_meas args')) as [W1 W2].
  repeat split; auto. intros ->. rewrite L3; auto.
Qed.

Lemma wrapped_false_nothing : forall fn e e', wrapped fn e = Ret (false, e') ->
  forall s, subexpr s e -> fn s = Nothing.
Proof.
  intros fn. induction e as [h args IH] using expr_ind'. intros e' H s Hs.
  rewrite wrapped_eq in H.
  destruct (fn (Node h args)) as [|e1|] eqn:E; [|inversion H|discriminate].
  destruct (wrapped_list fn args) as [[b1 args']|] eqn:El; inversion H; subst.
  inversion Hs as [|h' args'' a Ha Hsa]; subst; auto.
  clear H E Hs. revert args' El Ha.
  induction IH as [|c l Hc IHl IHl']; intros args' El Ha; [destruct Ha|].
  simpl in El. destruct (wrapped fn c) as [[b1 a']|] eqn:Ea; [|discriminate].
  destruct (wrapped_list fn l) as [[b2 l'']|] eqn:El2; inversion El; subst.
  apply orb_false_iff in H0. destruct H0 as [-> ->].
  destruct Ha as [<-|Ha]; [eapply Hc; eauto|eapply IHl'; eauto].
Qed.

Lemma repeat_total : forall fn, decreasing fn -> forall fuel did e, meas e < fuel ->
  exists o, repeat_wrapped fuel fn did e = Some o /\
    forall d e', o = Ret (d, e') ->
      meas e' <= meas e /\ (d = false -> did = false /\ e' = e) /\
      (d = true -> did = false -> meas e' < meas e) /\
      (forall s, subexpr s e' -> fn s = Nothing).
Proof.
  intros fn Hfn. induction fuel as [|f IH]; intros did e Hf; [lia|].
  simpl. destruct (wrapped fn e) as [[b e1]|] eqn:E.
  2:{ exists Exc. split; auto. discriminate. }
  destruct (wrapped_dec fn Hfn _ _ _ E) as [W1 [W2 W3]].
  destruct b.
  - specialize (W2 eq_refl). destruct (IH true e1) as [o [Ho Hx]]; [lia|].
    exists o. split; auto. intros d e' ->. destruct (Hx _ _ eq_refl) as [X1 [X2 [X3 X4]]].
    split; [lia|]. split; [intros Hd; destruct (X2 Hd); discriminate|].
    split; [intros; lia|auto].
  - exists (Ret (did, e1)). split; auto. intros d e' Heq. inversion Heq; subst.
    specialize (W3 eq_refl). subst e'. split; [lia|]. split; [auto|].
    split; [intros; congruence|]. eapply wrapped_false_nothing; eauto.
Qed.

Lemma sweep_total : forall fns, Forall decreasing fns -> forall fuel did e, meas e < fuel ->
  exists o, sweep fuel fns did e = Some o /\
    forall d e', o = Ret (d, e') ->
      meas e' <= meas e /\
      (d = false -> did = false /\ e' = e /\
         forall fn, In fn fns -> forall s, subexpr s e -> fn s = Nothing) /\
      (d = true -> did = false -> meas e' < meas e).
Proof.
  intros fns H. induction H as [|fn fns Hfn Hfns IH]; intros fuel did e Hf.
  - simpl. exists (Ret (did, e)). split; auto. intros d e' Heq. inversion Heq; subst.
    split; [lia|]. split; [intros ->; repeat split; auto; intros ? []|]. congruence.
  - simpl. destruct (repeat_total fn Hfn fuel false e Hf) as [o [Ho Hx]]. rewrite Ho.
    destruct o as [[d1 e1]|]; [|exists Exc; split; auto; discriminate].
    destruct (Hx _ _ eq_refl) as [X1 [X2 [X3 X4]]].
    destruct (IH fuel (did || d1) e1) as [o2 [Ho2 Hy]]; [lia|].
    exists o2. split; auto. intros d e' ->. destruct (Hy _ _ eq_refl) as [Y1 [Y2 Y3]].
    split; [lia|]. split.
    + intros Hd. destruct (Y2 Hd) as [Z1 [Z2 Z3]]. apply orb_false_iff in Z1.
      destruct Z1 as [-> ->]. destruct (X2 eq_refl) as [_ ->]. subst e'.
      repeat split; auto. intros f [<-|Hi]; auto.
    + intros Hd ->. simpl in Y3. destruct d1.
      * specialize (X3 eq_refl eq_refl). lia.
      * specialize (Y3 Hd eq_refl). lia.
Qed.

Lemma full_total : forall fns, Forall decreasing fns -> forall fuel e, meas e < fuel ->
  exists o, full_simplify_with fuel fns e = Some o /\
    forall e', o = Ret e' ->
      forall fn, In fn fns -> forall s, subexpr s e' -> fn s = Nothing.
Proof.
  intros fns Hfns. induction fuel as [|f IH]; intros e Hf; [lia|].
  cbn [full_simplify_with].
  destruct (sweep_total fns Hfns (S f) false e Hf) as [o [Ho Hx]]. rewrite Ho.
  destruct o as [[d e1]|]; [|exists Exc; split; auto; discriminate].
  destruct (Hx _ _ eq_refl) as [X1 [X2 X3]]. destruct d.
  - specialize (X3 eq_refl eq_refl). apply IH. lia.
  - exists (Ret e1). split; auto. intros e' Heq. inversion Heq; subst.
    destruct (X2 eq_refl) as [_ [-> X4]]. auto.
Qed.

(** More fuel does not change the result. *)
Lemma repeat_more : forall fn f f' did e o, repeat_wrapped f fn did e = Some o ->
  f <= f' -> repeat_wrapped f' fn did e = Some o.
Proof.
  intros fn. induction f as [|f IH]; intros f' did e o H Hle; [discriminate|].
  destruct f' as [|f']; [lia|]. simpl in *.
  destruct (wrapped fn e) as [[[|] e1]|]; auto. apply IH; auto. lia.
Qed.

Lemma sweep_more : forall fns f f' did e o, sweep f fns did e = Some o ->
  f <= f' -> sweep f' fns did e = Some o.
Proof.
  induction fns as [|fn fns IH]; intros f f' did e o H Hle; auto. simpl in *.
  destruct (repeat_wrapped f fn false e) as [o1|] eqn:E; [|discriminate].
  rewrite (repeat_more _ _ f' _ _ _ E Hle). destruct o1 as [[d e1]|]; auto. eapply IH; eauto.
Qed.

Lemma full_more : forall fns f f' e o, full_simplify_with f fns e = Some o ->
  f <= f' -> full_simplify_with f' fns e = Some o.
Proof.
  intros fns. induction f as [|f IH]; intros f' e o H Hle; [discriminate|].
  destruct f' as [|f']; [lia|]. cbn [full_simplify_with] in *.
  destruct (sweep (S f) fns false e) as [o1|] eqn:E; [|discriminate].
  rewrite (sweep_more _ _ (S f') _ _ _ E Hle).
  destruct o1 as [[[|] e1]|]; auto. apply IH; auto. lia.
Qed.

Lemma full_simplify_terminates : forall ti e, exists n o,
  (forall fuel, n <= fuel -> full_simplify ti fuel e = Some o) /\
  (forall e', o = Ret e' ->
     forall rule, In rule (simplify_fns ti) ->
     forall s, subexpr s e' -> rule s = Nothing).
Proof.
  intros ti e. exists (S (meas e)).
  destruct (full_total _ (all_decreasing ti) (S (meas e)) e) as [o [Ho Hx]]; [lia|].
  exists o. split; auto. intros fuel Hf. eapply full_more; eauto.
Qed.
