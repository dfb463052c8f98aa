(** * Soundness of the simplifier (C30) and of multiplier extraction (C35). *)
From Coq Require Import List Arith ZArith QArith Qreals Reals Bool Lia Lra Permutation.
From Coq Require Qcanon.
From Verif Require Import Simplify SimplifySpec SimplifyTermProofs.
Import ListNotations.
Open Scope R_scope.

(** ** Generalities *)

Lemma all_Forall : forall A (P : A -> Prop) l, all P l <-> Forall P l.
Proof.
  intros A P. unfold all. induction l as [|a l IH]; simpl.
  - split; auto.
  - rewrite IH. split; [intros [? ?]; constructor; auto|intros H; inversion H; auto].
Qed.

Lemma den_node : forall en x h args, den en x (Node h args) = op_val en x h (map (den en x) args).
Proof. reflexivity. Qed.

Lemma rsum_app : forall a b, rsum (a ++ b) = rsum a + rsum b.
Proof. induction a as [|v a IH]; intros; simpl; [|rewrite IH]; lra. Qed.
Lemma rprod_app : forall a b, rprod (a ++ b) = rprod a * rprod b.
Proof. induction a as [|v a IH]; intros; simpl; [|rewrite IH]; ring. Qed.
Lemma rsum_cons : forall a l, rsum (a :: l) = a + rsum l. Proof. reflexivity. Qed.
Lemma rprod_cons : forall a l, rprod (a :: l) = a * rprod l. Proof. reflexivity. Qed.

Lemma rprod_pos : forall l, Forall (fun v => 0 < v) l -> 0 < rprod l.
Proof. intros l H. induction H; simpl; [lra|]. now apply Rmult_lt_0_compat. Qed.
Lemma rsum_pos : forall l, l <> [] -> Forall (fun v => 0 < v) l -> 0 < rsum l.
Proof.
  intros l Hn H. induction H as [|a l Ha Hl IH]; [congruence|]. simpl.
  destruct l as [|b l]; [simpl; lra|]. assert (0 < rsum (b :: l)) by (apply IH; discriminate).
  simpl in *. lra.
Qed.

(** ** Powers *)

Lemma powerRZ_powerRZ : forall a n m, powerRZ (powerRZ a n) m = powerRZ a (n * m).
Proof.
  intros a n m.
  destruct n as [|n|n]; destruct m as [|m|m]; simpl; auto;
    rewrite ?pow1, ?Rinv_1, ?Pos2Nat.inj_mul, ?pow_mult, ?pow_inv, ?Rinv_inv; auto.
Qed.

Lemma is_int_spec : forall q, is_int q = true -> Qeq q (inject_Z (Qnum (Qred q))).
Proof.
  intros q H. unfold is_int in H. apply Pos.eqb_eq in H.
  rewrite <- (Qred_correct q) at 1.
  destruct (Qred q) as [n d] eqn:E. simpl in *. subst d. reflexivity.
Qed.

Lemma Qred_inject_Z : forall n, Qred (inject_Z n) = inject_Z n.
Proof.
  intros n. unfold inject_Z. apply Qcanon.Qred_identity. simpl. apply Z.gcd_1_r.
Qed.

Lemma is_int_inject : forall n, is_int (inject_Z n) = true.
Proof. intros n. unfold is_int. rewrite Qred_inject_Z. reflexivity. Qed.

Lemma is_int_eq : forall q r, Qeq q r -> is_int q = is_int r.
Proof. intros q r H. unfold is_int. now rewrite (Qred_complete _ _ H). Qed.

Lemma cpow_eq : forall q r a, Qeq q r -> cpow q a = cpow r a.
Proof.
  intros q r a H. unfold cpow. rewrite (is_int_eq _ _ H), (Qred_complete _ _ H), (Qeq_eqR _ _ H).
  reflexivity.
Qed.

Lemma cpow_int : forall n a, cpow (inject_Z n) a = powerRZ a n.
Proof. intros n a. unfold cpow. rewrite is_int_inject, Qred_inject_Z. reflexivity. Qed.

Lemma Q2R_inject : forall n, Q2R (inject_Z n) = IZR n.
Proof. intros. unfold Q2R, inject_Z. simpl. field. Qed.

Lemma cpow_pos_val : forall q a, 0 < a -> cpow q a = Rpower a (Q2R q).
Proof.
  intros q a Ha. unfold cpow. destruct (is_int q) eqn:E; auto.
  rewrite powerRZ_Rpower; auto. f_equal. rewrite (Qeq_eqR _ _ (is_int_spec _ E)).
  now rewrite Q2R_inject.
Qed.

Lemma Rpower_gt0 : forall a b, 0 < Rpower a b.
Proof. intros. unfold Rpower. apply exp_pos. Qed.

Lemma cpow_gt0 : forall q a, 0 < a -> 0 < cpow q a.
Proof. intros. rewrite cpow_pos_val; auto. apply Rpower_gt0. Qed.

Lemma is_int_mult : forall p q, is_int p = true -> is_int q = true ->
  Qeq (q * p) (inject_Z (Qnum (Qred q) * Qnum (Qred p))).
Proof.
  intros p q Hp Hq. rewrite inject_Z_mult.
  rewrite <- (is_int_spec _ Hp), <- (is_int_spec _ Hq). reflexivity.
Qed.

Lemma cpow_cpow : forall p q a,
  (is_int p = true /\ is_int q = true) \/ 0 < a ->
  cpow p (cpow q a) = cpow (q * p) a.
Proof.
  intros p q a [[Hp Hq]|Ha].
  - rewrite (cpow_eq _ _ _ (is_int_mult p q Hp Hq)), cpow_int.
    rewrite (cpow_eq _ _ _ (is_int_spec _ Hp)), (cpow_eq _ _ a (is_int_spec _ Hq)).
    rewrite !cpow_int. apply powerRZ_powerRZ.
  - rewrite !(cpow_pos_val _ a Ha). rewrite cpow_pos_val by apply Rpower_gt0.
    rewrite Rpower_mult, Q2R_mult. reflexivity.
Qed.

Lemma cpow_1 : forall q a, Qeq q 1 -> cpow q a = a.
Proof.
  intros q a H. rewrite (cpow_eq _ _ _ H). change 1%Q with (inject_Z 1).
  rewrite cpow_int. simpl. ring.
Qed.

Lemma cpow_prod_int : forall q l, is_int q = true ->
  cpow q (rprod l) = rprod (map (cpow q) l).
Proof.
  intros q l H. induction l as [|a l IH]; simpl.
  - rewrite (cpow_eq _ _ _ (is_int_spec _ H)), cpow_int. apply powerRZ_R1.
  - rewrite <- IH. unfold cpow. rewrite H. apply powerRZ_mult.
Qed.

Lemma Rpower_prod : forall y l, Forall (fun v => 0 < v) l ->
  Rpower (rprod l) y = rprod (map (fun v => Rpower v y) l).
Proof.
  intros y l H. induction H as [|a l Ha Hl IH]; simpl.
  - unfold Rpower. now rewrite ln_1, Rmult_0_r, exp_0.
  - rewrite <- IH. rewrite Rpower_mult_distr; auto. now apply rprod_pos.
Qed.

Lemma cpow_prod_pos : forall q l, Forall (fun v => 0 < v) l ->
  cpow q (rprod l) = rprod (map (cpow q) l).
Proof.
  intros q l H. rewrite cpow_pos_val by now apply rprod_pos.
  rewrite Rpower_prod; auto. f_equal. apply map_ext_in. intros a Ha.
  rewrite Forall_forall in H. symmetry. apply cpow_pos_val. auto.
Qed.

Lemma ln_prod : forall l, Forall (fun v => 0 < v) l -> ln (rprod l) = rsum (map ln l).
Proof.
  intros l H. induction H as [|a l Ha Hl IH]; simpl; [apply ln_1|].
  rewrite ln_mult; auto; [|now apply rprod_pos]. now rewrite IH.
Qed.

Lemma cpow_2 : forall q a, Qeq q 2 -> cpow q a = a * a.
Proof.
  intros q a H. rewrite (cpow_eq _ _ _ H). change 2%Q with (inject_Z 2).
  rewrite cpow_int. simpl. ring.
Qed.

(** ** Exactness of '%.4e' on small powers of two *)

Lemma dyadic_le : forall k k' q, (k <= k')%nat -> dyadic k q -> dyadic k' q.
Proof. intros k k' q H [z [Hz Hq]]. exists z. split; auto. lia. Qed.

Lemma dyadic_mult : forall k1 k2 p q, dyadic k1 p -> dyadic k2 q -> dyadic (k1 + k2) (q * p).
Proof.
  intros k1 k2 p q [z1 [H1 Hp]] [z2 [H2 Hq]].
  exists (z2 + z1)%Z. split; [lia|].
  assert (E : Qeq (Qpower 2 (z2 + z1)) (Qpower 2 z2 * Qpower 2 z1)).
  { apply Qpower.Qpower_plus. intros C. discriminate C. }
  rewrite E. destruct Hp as [-> | ->]; destruct Hq as [-> | ->].
  - left; reflexivity.
  - right; ring.
  - right; ring.
  - left; ring.
Qed.

Lemma dyadic_eq : forall k p q, Qeq p q -> dyadic k p -> dyadic k q.
Proof.
  intros k p q H [z [Hz Hq]]. exists z. split; auto.
  rewrite <- H. exact Hq.
Qed.

Definition small_powers : list Q :=
  flat_map (fun z => [Qred (Qpower 2 z); Qred (- Qpower 2 z)])
    (map (fun n => (Z.of_nat n - 7)%Z) (seq 0 15)).

Lemma small_round : forallb (fun q => Qeq_bool (round4 q) q) small_powers = true.
Proof. vm_compute. reflexivity. Qed.

Lemma round4_exact : forall k q, (k <= 7)%nat -> dyadic k q -> Qeq (round4 (Qred q)) q.
Proof.
  intros k q Hk [z [Hz Hq]].
  assert (Hi : In (Qred q) small_powers).
  { unfold small_powers. apply in_flat_map. exists z. split.
    - apply in_map_iff. exists (Z.to_nat (z + 7)). split; [lia|].
      apply in_seq. lia.
    - destruct Hq as [Hq|Hq]; rewrite (Qred_complete _ _ Hq); simpl; auto. }
  pose proof small_round as H. rewrite forallb_forall in H. apply H in Hi.
  apply Qeq_bool_eq in Hi. rewrite Hi. apply Qred_correct.
Qed.

(** ** The rules as one relation (without [add_const_simplify]) *)

Definition flat (op : sym) (l : list expr) : list expr :=
  flat_map (fun i => if is_sym op i then args_of i else [i]) l.

Inductive unit_of : sym -> Q -> Prop :=
| unit_add : unit_of SAdd 0
| unit_mul : unit_of SMul 1.

Inductive rw (ti : tinfo) : expr -> expr -> Prop :=
| rw_identity : forall a r, rw ti (Node (HSym SIdentity) (a :: r)) a
| rw_power : forall h q args, power_ops h = Some q -> rw ti (Node h args) (Node (HCPow q) args)
| rw_pow1 : forall p q a r2 r, Qeq (q * p) 1 ->
    rw ti (Node (HCPow p) (Node (HCPow q) (a :: r2) :: r)) a
| rw_pow : forall p q a r2 r,
    rw ti (Node (HCPow p) (Node (HCPow q) (a :: r2) :: r))
          (Node (HCPow (round4 (Qred (q * p)))) [a])
| rw_log_cpow : forall q a r2 r,
    rw ti (Node (HSym SLog) (Node (HCPow q) (a :: r2) :: r))
          (Node (HSym SMul) [Node (HNum q) []; Node (HSym SLog) [a]])
| rw_log_pow : forall a p r2 r,
    rw ti (Node (HSym SLog) (Node (HSym SPow) (a :: p :: r2) :: r))
          (Node (HSym SMul) [p; Node (HSym SLog) [a]])
| rw_log_mul : forall ms r,
    rw ti (Node (HSym SLog) (Node (HSym SMul) ms :: r))
          (Node (HSym SAdd) (map (fun i => Node (HSym SLog) [i]) ms))
| rw_cpow_mul : forall q ms r,
    rw ti (Node (HCPow q) (Node (HSym SMul) ms :: r))
          (Node (HSym SMul) (map (fun i => Node (HCPow q) [i]) ms))
| rw_pow_mul0 :
    rw ti (Node (HSym SPow) [Node (HSym SMul) []]) (Node (HSym SMul) [])
| rw_pow_mul : forall ms p r,
    rw ti (Node (HSym SPow) (Node (HSym SMul) ms :: p :: r))
          (Node (HSym SMul) (map (fun i => Node (HSym SPow) [i; p]) ms))
| rw_mul_add : forall l1 js l2,
    rw ti (Node (HSym SMul) (l1 ++ Node (HSym SAdd) js :: l2))
          (Node (HSym SAdd) (map (fun j => Node (HSym SMul) ((l1 ++ l2) ++ [j])) js))
| rw_flat : forall op args, op = SAdd \/ op = SMul ->
    rw ti (Node (HSym op) args) (Node (HSym op) (flat op args))
| rw_single : forall op a, op = SAdd \/ op = SMul -> rw ti (Node (HSym op) [a]) a
| rw_filter : forall op v args, unit_of op v ->
    rw ti (Node (HSym op) args)
          (Node (HSym op) (filter (fun i => negb (is_num v i)) args))
| rw_filter1 : forall op v args a, unit_of op v ->
    filter (fun i => negb (is_num v i)) args = [a] ->
    rw ti (Node (HSym op) args) a
| rw_mul_zero : forall args, existsb (is_num 0) args = true ->
    rw ti (Node (HSym SMul) args) (Node (HNum 0) [])
| rw_square_add : forall q js r, Qeq q 2 ->
    rw ti (Node (HCPow q) (Node (HSym SAdd) js :: r)) (Node (HSym SAdd) (square_terms js))
| rw_one_m : forall t l q b r, const_val ti t = CScalar q -> Qeq q 1 ->
    rw ti (Node (HSym SSub) (Node (HTens t) l :: b :: r)) (Node (HSym SOneMinus) [b])
| rw_cast : forall t a r, is_cast ti t = true -> rw ti (Node (HTens t) (a :: r)) a
| rw_onehot : forall a b r, rw ti (Node (HSym SOneHot) (a :: b :: r)) (Node (HSym SOneHot) [a]).

Definition other_fns (ti : tinfo) : list (expr -> res) :=
  [ identity_op_simplify; power_op_simplify; pow_simplify; log_pow_simplify;
    log_mul_simplify; pow_mul_simplify; mul_add_simplify; add_add_simplify;
    mul_mul_simplify; mul_one_simplify; add_zero_simplify; mul_zero_simplify;
    square_add_simplify; one_m_simplify ti; cast_simplify ti; onehot_simplify ].

Lemma identity_simplify_rw : forall ti op v e e', unit_of op v ->
  identity_simplify op v e = Rewrites e' -> rw ti e e'.
Proof.
  intros ti op v e e' Hu H. unfold identity_simplify in H.
  destruct (is_sym op e) eqn:E; [|discriminate]. apply is_sym_inv in E.
  set (args := args_of e) in *. clearbody args. subst e.
  assert (Hop : op = SAdd \/ op = SMul) by (destruct Hu; auto).
  assert (Hm : (if existsb (is_num v) args then
                 match filter (fun i => negb (is_num v i)) args with
                 | [] => Raises | [a] => Rewrites a
                 | n => Rewrites (Node (HSym op) n) end
               else Nothing) = Rewrites e' -> rw ti (Node (HSym op) args) e').
  { intros Hr. destruct (existsb (is_num v) args); [|discriminate].
    destruct (filter (fun i => negb (is_num v i)) args) as [|a [|b l]] eqn:Ef; inversion Hr; subst.
    - eapply rw_filter1; eauto.
    - rewrite <- Ef. now apply rw_filter. }
  destruct args as [|a [|b args]].
  - apply Hm. exact H.
  - inversion H; subst. now apply rw_single.
  - apply Hm. rewrite <- H.
    destruct (existsb (is_num v) (a :: b :: args)); auto.
Qed.

Lemma fn_rw : forall ti fn e e', In fn (other_fns ti) -> fn e = Rewrites e' -> rw ti e e'.
Proof.
  intros ti fn e e' Hi H. unfold other_fns in Hi.
  destruct Hi as [<-|[<-|[<-|[<-|[<-|[<-|[<-|[<-|[<-|[<-|[<-|[<-|[<-|[<-|[<-|[<-|[]]]]]]]]]]]]]]]]].
  - destruct e as [h args]. unfold identity_op_simplify in H.
    destruct h as [| | |s|]; try discriminate. destruct s; try discriminate.
    destruct args; inversion H; subst. constructor.
  - destruct e as [h args]. unfold power_op_simplify in H.
    destruct (power_ops h) as [q|] eqn:E; inversion H; subst.
    assert (Er : round4 q = q).
    { destruct h as [| | |s|]; try discriminate E. destruct s; inversion E; subst; reflexivity. }
    rewrite Er. now constructor.
  - destruct e as [h args]. unfold pow_simplify in H.
    destruct h as [| | |s|p]; try discriminate.
    destruct args as [|[h2 sub] r]; try discriminate.
    destruct h2 as [| | |s|q]; try discriminate.
    destruct sub as [|a r2]; try discriminate.
    destruct (Qeq_bool (q * p) 1) eqn:E; inversion H; subst.
    + apply rw_pow1. now apply Qeq_bool_eq.
    + apply rw_pow.
  - destruct e as [h args]. unfold log_pow_simplify in H.
    destruct h as [| | |s|]; try discriminate. destruct s; try discriminate.
    destruct args as [|[h2 sub] r]; try discriminate.
    destruct h2 as [| | |s|q]; try discriminate.
    + destruct s; try discriminate. destruct sub as [|a [|p r2]]; inversion H; subst. apply rw_log_pow.
    + destruct sub as [|a r2]; inversion H; subst. apply rw_log_cpow.
  - destruct e as [h args]. unfold log_mul_simplify in H.
    destruct h as [| | |s|]; try discriminate. destruct s; try discriminate.
    destruct args as [|[h2 ms] r]; try discriminate.
    destruct h2 as [| | |s|q]; try discriminate. destruct s; inversion H; subst. apply rw_log_mul.
  - destruct e as [h args]. unfold pow_mul_simplify in H.
    destruct h as [| | |s|q]; try discriminate.
    + destruct s; try discriminate.
      destruct args as [|[h2 ms] r]; try discriminate.
      assert (Hh : h2 = HSym SMul).
      { destruct r; destruct h2 as [| | |s|]; try discriminate; destruct s; try discriminate; auto;
        destruct ms; discriminate. }
      subst h2. destruct r as [|p r].
      * destruct ms; inversion H; subst. apply rw_pow_mul0.
      * assert (E : e' = Node (HSym SMul) (map (fun i => Node (HSym SPow) [i; p]) ms)).
        { destruct ms; now inversion H. }
        subst e'. apply rw_pow_mul.
    + destruct args as [|[h2 ms] r]; try discriminate.
      destruct h2 as [| | |s|]; try discriminate. destruct s; inversion H; subst. apply rw_cpow_mul.
  - destruct e as [h args]. unfold mul_add_simplify in H.
    destruct h as [| | |s|]; try discriminate. destruct s; try discriminate.
    destruct (split_add [] args) as [[others js]|] eqn:E; inversion H; subst.
    apply split_add_spec in E. destruct E as [l1 [l2 [-> ->]]]. cbn [app]. apply rw_mul_add.
  - unfold add_add_simplify, commutative_simplify in H.
    destruct (is_sym SAdd e) eqn:E; [|discriminate].
    destruct (existsb (is_sym SAdd) (args_of e)) eqn:E2; inversion H; subst.
    apply is_sym_inv in E. rewrite E at 1. apply rw_flat. auto.
  - unfold mul_mul_simplify, commutative_simplify in H.
    destruct (is_sym SMul e) eqn:E; [|discriminate].
    destruct (existsb (is_sym SMul) (args_of e)) eqn:E2; inversion H; subst.
    apply is_sym_inv in E. rewrite E at 1. apply rw_flat. auto.
  - eapply identity_simplify_rw; eauto. constructor.
  - eapply identity_simplify_rw; eauto. constructor.
  - unfold mul_zero_simplify in H. destruct (is_sym SMul e) eqn:E; [|discriminate].
    destruct (existsb (is_num 0) (args_of e)) eqn:E2; inversion H; subst.
    apply is_sym_inv in E. rewrite E. now apply rw_mul_zero.
  - destruct e as [h args]. unfold square_add_simplify in H.
    destruct h as [| | |s|q]; try discriminate.
    destruct (Qeq_bool q 2) eqn:E; [|discriminate].
    destruct args as [|[h2 js] r]; try discriminate.
    destruct h2 as [| | |s|]; try discriminate. destruct s; inversion H; subst.
    apply rw_square_add. now apply Qeq_bool_eq.
  - destruct e as [h args]. unfold one_m_simplify in H.
    destruct h as [| | |s|]; try discriminate. destruct s; try discriminate.
    destruct args as [|[h2 l] r]; try discriminate.
    destruct h2 as [| |t| |]; try discriminate.
    destruct (const_val ti t) as [|q|] eqn:Ec; try discriminate.
    destruct (Qeq_bool q 1) eqn:E; [|discriminate].
    destruct r as [|b r]; inversion H; subst.
    eapply rw_one_m; eauto. now apply Qeq_bool_eq.
  - destruct e as [h args]. unfold cast_simplify in H.
    destruct h as [| |t| |]; try discriminate.
    destruct (is_cast ti t) eqn:E; [|discriminate].
    destruct args as [|a r]; inversion H; subst. now apply rw_cast.
  - destruct e as [h args]. unfold onehot_simplify in H.
    destruct h as [| | |s|]; try discriminate. destruct s; try discriminate.
    destruct args as [|a [|b r]]; inversion H; subst. apply rw_onehot.
Qed.

(** ** The rules preserve values on the positive domain *)

Section Sound.
Variable ti : tinfo.
Variable en : env.
Hypothesis Hen : env_ok ti en.
Variable x : R.

Notation den := (den en x).
Notation spos := (spos ti en x).
Notation dom := (dom ti en x).

Lemma dom_args : forall h args, dom (Node h args) -> Forall dom args.
Proof. intros h args H. simpl in H. destruct H as [H _]. now apply all_Forall. Qed.

Lemma spos_den : forall e, dom e -> spos e -> 0 < den e.
Proof.
  induction e as [h args IH] using expr_ind'. intros Hd Hs.
  assert (HF : Forall dom args) by (eapply dom_args; eauto).
  assert (Hall : all spos args -> Forall (fun v => 0 < v) (map den args)).
  { intros Ha. apply all_Forall in Ha. rewrite Forall_forall in *.
    intros v Hv. apply in_map_iff in Hv. destruct Hv as [a [<- Hi]]. apply IH; auto. }
  assert (Hfst : forall a r, args = a :: r -> spos a -> 0 < den a).
  { intros a r -> Ha. inversion IH; subst. inversion HF; subst. auto. }
  destruct h as [|q|t|s|q]; try exact Hs.
  - rewrite den_node. simpl in Hs. destruct args as [|a r]; [exact Hs|].
    destruct (is_cast ti t) eqn:E; [|exact Hs].
    simpl. destruct Hen as [H1 _]. rewrite (H1 t _ _ E). eapply Hfst; eauto.
  - destruct s; try exact Hs; rewrite den_node; simpl in Hs;
      try (destruct args as [|a r]; [contradiction|]; cbn [op_val map hd tl]);
      try (pose proof (Hfst _ _ eq_refl Hs) as Hp).
    + simpl. destruct Hs as [Hn Ha]. apply rsum_pos; auto.
      destruct args; [congruence|discriminate].
    + apply rprod_pos; auto.
    + contradiction.
    + apply Rpower_gt0.
    + nra.
    + now apply Rinv_0_lt_compat.
    + now apply sqrt_lt_R0.
    + auto.
  - rewrite den_node. simpl in Hs. destruct args as [|a r]; [contradiction|].
    cbn [op_val map hd]. apply cpow_gt0. eauto.
Qed.

Lemma den_map_const : forall q ms,
  map (fun i => den (Node (HCPow q) [i])) ms = map (cpow q) (map den ms).
Proof. intros. rewrite map_map. reflexivity. Qed.

Lemma flat_den_add : forall args, rsum (map den (flat SAdd args)) = rsum (map den args).
Proof.
  induction args as [|a args IH]; [reflexivity|].
  unfold flat in *. cbn [flat_map map]. rewrite map_app, rsum_app, IH, rsum_cons. f_equal.
  destruct (is_sym SAdd a) eqn:E.
  - apply is_sym_inv in E. rewrite E at 2. reflexivity.
  - simpl. lra.
Qed.
Lemma flat_den_mul : forall args, rprod (map den (flat SMul args)) = rprod (map den args).
Proof.
  induction args as [|a args IH]; [reflexivity|].
  unfold flat in *. cbn [flat_map map]. rewrite map_app, rprod_app, IH, rprod_cons. f_equal.
  destruct (is_sym SMul a) eqn:E.
  - apply is_sym_inv in E. rewrite E at 2. reflexivity.
  - simpl. lra.
Qed.

Lemma flat_Forall : forall (P : expr -> Prop) op args,
  (forall a, P a -> is_sym op a = true -> Forall P (args_of a)) ->
  Forall P args -> Forall P (flat op args).
Proof.
  intros P op args Hp H. unfold flat. induction H as [|a l Ha Hl IH]; simpl; [constructor|].
  apply Forall_app. split; auto. destruct (is_sym op a) eqn:E; auto.
Qed.

Lemma filter_den_add : forall args,
  rsum (map den (filter (fun i => negb (is_num 0 i)) args)) = rsum (map den args).
Proof.
  induction args as [|a args IH]; [reflexivity|]. cbn [filter map]. rewrite rsum_cons, <- IH.
  destruct (is_num 0 a) eqn:E; simpl; auto.
  assert (den a = 0).
  { destruct a as [h l]. destruct h as [|q| | |]; try discriminate.
    simpl in *. apply Qeq_bool_eq in E. rewrite (Qeq_eqR _ _ E). unfold Q2R. simpl. lra. }
  lra.
Qed.
Lemma filter_den_mul : forall args,
  rprod (map den (filter (fun i => negb (is_num 1 i)) args)) = rprod (map den args).
Proof.
  induction args as [|a args IH]; [reflexivity|]. cbn [filter map]. rewrite rprod_cons, <- IH.
  destruct (is_num 1 a) eqn:E; simpl; auto.
  assert (den a = 1).
  { destruct a as [h l]. destruct h as [|q| | |]; try discriminate.
    simpl in *. apply Qeq_bool_eq in E. rewrite (Qeq_eqR _ _ E). unfold Q2R. simpl. lra. }
  rewrite H. lra.
Qed.

Lemma Forall_filter : forall (A : Type) (P : A -> Prop) f l, Forall P l -> Forall P (filter f l).
Proof.
  intros A P f l H. rewrite Forall_forall in *. intros a Ha. apply filter_In in Ha.
  destruct Ha. auto.
Qed.

Lemma num_den : forall q, den (Node (HNum q) []) = Q2R q. Proof. reflexivity. Qed.

Lemma square_terms_den : forall js,
  rsum (map den (square_terms js)) = rsum (map den js) * rsum (map den js).
Proof.
  induction js as [|a js IH]; [simpl; ring|].
  cbn [square_terms map]. rewrite rsum_cons, map_app, rsum_app, IH.
  rewrite rsum_cons. rewrite den_node. cbn [op_val map hd].
  rewrite (cpow_2 2 (den a) (Qeq_refl 2)).
  assert (Hc : rsum (map den (map (fun b => Node (HSym SMul) [Node (HNum 2) []; a; b]) js))
    = 2 * den a * rsum (map den js)).
  { clear. induction js as [|b js IH]; [simpl; ring|].
    cbn [map]. rewrite !rsum_cons, IH. simpl. unfold Q2R. simpl. field. }
  rewrite Hc. ring.
Qed.

Lemma square_terms_Forall : forall (P : expr -> Prop) js,
  (forall a, P a -> P (Node (HCPow 2) [a])) ->
  (forall a b, P a -> P b -> P (Node (HSym SMul) [Node (HNum 2) []; a; b])) ->
  Forall P js -> Forall P (square_terms js).
Proof.
  intros P js H1 H2 H. induction H as [|a js Ha Hjs IH]; simpl; constructor; auto.
  apply Forall_app. split; auto. apply Forall_forall. intros e He.
  apply in_map_iff in He. destruct He as [b [<- Hb]]. rewrite Forall_forall in Hjs. auto.
Qed.

(** [e'] may stand for [e] anywhere. *)
Definition refines (e e' : expr) : Prop :=
  dom e -> dom e' /\ den e' = den e /\ (spos e -> spos e').

Lemma Forall_den_pos : forall l, Forall dom l -> Forall spos l -> Forall (fun v => 0 < v) (map den l).
Proof.
  intros l Hd Hs. rewrite Forall_forall in *. intros v Hv. apply in_map_iff in Hv.
  destruct Hv as [a [<- Ha]]. apply spos_den; auto.
Qed.

Lemma rw_sound : forall e e', rw ti e e' -> powers_within 7 e -> refines e e'.
Proof.
  intros e e' Hrw Hpw Hd.
  destruct Hrw as [a r|h q args E|p q a r2 r E|p q a r2 r|q a r2 r|a p r2 r|ms r|q ms r| |ms p r
    |l1 js l2|op args Hop|op a Hop|op v args Hu|op v args a Hu Ef|args Ez|q js r E|t l q b r Ec Eq
    |t a r Ec|a b r].
  - (* identity *)
    pose proof (dom_args _ _ Hd) as HF. inversion HF; subst. auto.
  - (* power ops *)
    pose proof (dom_args _ _ Hd) as HF.
    destruct h as [| | |s|]; try discriminate.
    destruct s; inversion E; subst; destruct Hd as [Hd1 Hd2].
    + (* square *)
      split; [split; auto|split].
      * destruct args; [contradiction|]. split; [now left|]. intros C. discriminate C.
      * rewrite !den_node. destruct args; simpl; [rewrite (cpow_2 2 0 (Qeq_refl _)); auto|].
        rewrite (cpow_2 2 _ (Qeq_refl _)). auto.
      * auto.
    + (* reciprocal *)
      split; [split; auto|split].
      * destruct args; auto. 
      * rewrite !den_node. assert (Hc : forall v, cpow (-1) v = / v).
        { intros v. change (-1)%Q with (inject_Z (-1)). rewrite cpow_int. simpl.
          now rewrite Rmult_1_r. }
        destruct args; simpl; apply Hc.
      * auto.
    + (* sqrt *)
      destruct args as [|a r]; [contradiction|].
      split; [split; auto|split].
      * split; [now right|]. intros C. discriminate C.
      * rewrite !den_node. cbn [op_val map hd]. inversion HF; subst. rewrite cpow_pos_val by now apply spos_den.
        replace (Q2R (1 # 2)) with (/ 2) by (unfold Q2R; simpl; lra).
        apply Rpower_sqrt. now apply spos_den.
      * auto.
  - (* powers cancel *)
    pose proof (dom_args _ _ Hd) as HF. inversion HF as [|? ? Hq Hr]; subst.
    pose proof (dom_args _ _ Hq) as HF2. inversion HF2 as [|? ? Ha Hr2]; subst.
    destruct Hd as [_ [Hp1 _]]. destruct Hq as [_ [Hq1 _]].
    split; auto. split.
    + rewrite !den_node. cbn [op_val map hd]. rewrite den_node. cbn [op_val map hd].
      rewrite cpow_cpow; [symmetry; now apply cpow_1|].
      destruct Hp1 as [Hp1|Hp1]; [destruct Hq1 as [Hq1|Hq1]; auto|]; right; now apply spos_den.
    + auto.
  - (* powers multiply *)
    assert (Er : Qeq (round4 (Qred (q * p))) (q * p)).
    { destruct Hpw as [k1 [Hk1 [Hd1 Hrest]]]. apply all_Forall in Hrest.
      inversion Hrest as [|? ? Hh Ht]; subst. destruct Hh as [k2 [Hk2 [Hd2 _]]].
      apply (round4_exact (k1 + k2)); [lia|]. now apply dyadic_mult. }
    pose proof (dom_args _ _ Hd) as HF. inversion HF as [|? ? Hq Hr]; subst.
    pose proof (dom_args _ _ Hq) as HF2. inversion HF2 as [|? ? Ha Hr2]; subst.
    destruct Hd as [_ [Hp1 Hp2]]. destruct Hq as [_ [Hq1 Hq2]].
    assert (Hcase : (is_int p = true /\ is_int q = true) \/ spos a).
    { destruct Hp1 as [Hp1|Hp1]; [destruct Hq1 as [Hq1|Hq1]; auto|]; right; auto. }
    split; [split; [split; [auto|exact I]|split]|split].
    + destruct Hcase as [[H1 H2]|H]; [left|now right].
      rewrite (is_int_eq _ _ Er), (is_int_eq _ _ (is_int_mult p q H1 H2)). apply is_int_inject.
    + rewrite Er. intros Hneg.
      destruct Hcase as [[H1 H2]|H]; [|pose proof (spos_den a Ha H); lra].
      rewrite den_node in Hp2. cbn [op_val map hd] in Hp2.
      destruct (Qlt_le_dec q 0) as [Hq0|Hq0]; [auto|].
      destruct (Qlt_le_dec p 0) as [Hp0|Hp0].
      * intros Hz. apply (Hp2 Hp0). rewrite Hz.
        rewrite (cpow_eq _ _ _ (is_int_spec _ H2)), cpow_int.
        assert (Hqne : ~ Qeq q 0).
        { intros C. rewrite C in Hneg. ring_simplify in Hneg. apply (Qlt_irrefl 0). exact Hneg. }
        assert (0 < Qnum (Qred q))%Z.
        { assert (0 < inject_Z (Qnum (Qred q)))%Q.
          { rewrite <- (is_int_spec _ H2). destruct (Qle_lt_or_eq _ _ Hq0); auto.
            exfalso. apply Hqne. symmetry. auto. }
          unfold Qlt in H. simpl in H. lia. }
        destruct (Qnum (Qred q)) as [|n|n]; try lia. simpl. rewrite pow_i; auto. lia.
      * exfalso. apply (Qlt_irrefl 0). eapply Qle_lt_trans; [|exact Hneg].
        now apply Qmult_le_0_compat.
    + rewrite !den_node. cbn [op_val map hd]. rewrite den_node. cbn [op_val map hd].
      rewrite cpow_cpow; [now apply cpow_eq|].
      destruct Hcase as [H|H]; auto. right. now apply spos_den.
    + auto.
  - (* log of a constant power *)
    pose proof (dom_args _ _ Hd) as HF. inversion HF as [|? ? Hq Hr]; subst.
    pose proof (dom_args _ _ Hq) as HF2. inversion HF2 as [|? ? Ha Hr2]; subst.
    destruct Hd as [_ Hs]. simpl in Hs.
    split; [|split; [|intros []]].
    + repeat split; auto.
    + rewrite !den_node. cbn [op_val map hd]. rewrite !den_node. cbn [op_val map hd rprod fold_right].
      rewrite cpow_pos_val by now apply spos_den. unfold Rpower. rewrite ln_exp. ring.
  - (* log of a power *)
    pose proof (dom_args _ _ Hd) as HF. inversion HF as [|? ? Hq Hr]; subst.
    pose proof (dom_args _ _ Hq) as HF2. inversion HF2 as [|? ? Ha Hr2]; subst.
    inversion Hr2; subst. destruct Hd as [_ Hs]. simpl in Hs.
    split; [|split; [|intros []]].
    + repeat split; auto.
    + rewrite !den_node. cbn [op_val map hd tl]. rewrite !den_node. cbn [op_val map hd tl rprod fold_right].
      unfold Rpower. rewrite ln_exp. ring.
  - (* log of a product *)
    pose proof (dom_args _ _ Hd) as HF. inversion HF as [|? ? Hq Hr]; subst.
    pose proof (dom_args _ _ Hq) as HF2.
    destruct Hd as [_ Hs]. simpl in Hs. apply all_Forall in Hs.
    split; [|split; [|intros []]].
    + split; [|exact I]. apply all_Forall. apply Forall_map.
      rewrite Forall_forall in *. intros a Ha. repeat split; auto.
    + rewrite !den_node. cbn [op_val map hd]. rewrite den_node. cbn [op_val].
      rewrite ln_prod by now apply Forall_den_pos. rewrite !map_map. reflexivity.
  - (* constant power of a product *)
    pose proof (dom_args _ _ Hd) as HF. inversion HF as [|? ? Hq Hr]; subst.
    pose proof (dom_args _ _ Hq) as HF2.
    destruct Hd as [_ [Hp1 Hp2]].
    assert (Hall : is_int q = true \/ Forall spos ms).
    { destruct Hp1 as [Hp1|Hp1]; auto. right. apply all_Forall. exact Hp1. }
    split; [|split].
    + split; [|exact I]. apply all_Forall. apply Forall_map.
      rewrite Forall_forall in *. intros a Ha. split; [split; [auto|exact I]|]. split.
      * destruct Hall as [H|H]; [now left|]. right. auto.
      * intros Hneg. specialize (Hp2 Hneg). intros Hz. apply Hp2. rewrite den_node. cbn [op_val].
        clear - Ha Hz. induction ms as [|b ms IH]; [destruct Ha|].
        cbn [map]. rewrite rprod_cons. destruct Ha as [->|Ha]; [rewrite Hz; ring|].
        rewrite IH; auto. ring.
    + rewrite !den_node. cbn [op_val map hd]. rewrite den_node. cbn [op_val].
      rewrite map_map, den_map_const. symmetry.
      destruct Hall as [H|H]; [now apply cpow_prod_int|].
      apply cpow_prod_pos. now apply Forall_den_pos.
    + intros Hs. simpl in Hs |- *. apply all_Forall in Hs. apply all_Forall. apply Forall_map.
      rewrite Forall_forall in *. intros a Ha. simpl. auto.
  - (* Pow of an empty product and no exponent: outside the domain *)
    destruct Hd as [_ Hd]. contradiction.
  - (* power of a product *)
    pose proof (dom_args _ _ Hd) as HF. inversion HF as [|? ? Hq Hr]; subst.
    pose proof (dom_args _ _ Hq) as HF2. inversion Hr; subst.
    destruct Hd as [_ Hs]. simpl in Hs. apply all_Forall in Hs.
    split; [|split].
    + split; [|exact I]. apply all_Forall. apply Forall_map.
      rewrite Forall_forall in *. intros a Ha. repeat split; auto.
    + rewrite !den_node. cbn [op_val map hd tl]. rewrite den_node. cbn [op_val].
      rewrite Rpower_prod by now apply Forall_den_pos. rewrite !map_map. reflexivity.
    + intros Hs'. simpl. apply all_Forall. apply Forall_map.
      rewrite Forall_forall in *. intros a Ha. simpl. auto.
  - (* distribution *)
    pose proof (dom_args _ _ Hd) as HF. apply Forall_app in HF. destruct HF as [HF1 HF2].
    inversion HF2 as [|? ? Hj Hl2]; subst. pose proof (dom_args _ _ Hj) as Hjs.
    assert (Hothers : Forall dom (l1 ++ l2)) by (apply Forall_app; auto).
    split; [|split].
    + split; [|exact I]. apply all_Forall. apply Forall_map.
      rewrite Forall_forall in Hjs |- *. intros j Hj'. split; [|exact I].
      apply all_Forall. apply Forall_app. split; auto.
    + rewrite !den_node. cbn [op_val]. rewrite map_app. cbn [map]. rewrite rprod_app, rprod_cons, den_node.
      cbn [op_val]. rewrite map_map.
      clear. induction js as [|j js IH]; [simpl; ring|].
      cbn [map]. rewrite !rsum_cons, IH, den_node. cbn [op_val].
      rewrite !map_app, !rprod_app. cbn [map]. rewrite rprod_cons. simpl (rprod []). ring.
    + intros Hs. cbn [SimplifySpec.spos] in Hs. apply all_Forall in Hs. apply Forall_app in Hs.
      destruct Hs as [Hs1 Hs2]. inversion Hs2 as [|? ? Hsa Hs3]; subst. destruct Hsa as [Hne Hsj].
      apply all_Forall in Hsj. cbn [SimplifySpec.spos]. split.
      * destruct js; [congruence|discriminate].
      * apply all_Forall. apply Forall_map. rewrite Forall_forall in Hsj |- *. intros j Hj'.
        cbn [SimplifySpec.spos]. apply all_Forall. repeat (apply Forall_app; split; auto).
  - (* flattening *)
    pose proof (dom_args _ _ Hd) as HF.
    assert (HF' : Forall dom (flat op args)).
    { apply flat_Forall; auto. intros a Ha E. destruct a as [h l]. eapply dom_args; eauto. }
    destruct Hop as [->| ->].
    + split; [split; [now apply all_Forall|exact I]|split].
      * rewrite !den_node. apply flat_den_add.
      * intros [Hn Hs]. apply all_Forall in Hs. cbn [SimplifySpec.spos]. split.
        -- destruct args as [|a args]; [congruence|]. inversion Hs; subst.
           unfold flat. cbn [flat_map]. destruct (is_sym SAdd a) eqn:E; [|discriminate].
           apply is_sym_inv in E. rewrite E in H1. cbn [SimplifySpec.spos] in H1. destruct H1 as [H1 _].
           destruct (args_of a); [congruence|discriminate].
        -- apply all_Forall. apply flat_Forall; auto. intros a Ha E. apply is_sym_inv in E.
           rewrite E in Ha. destruct Ha as [_ Ha]. now apply all_Forall.
    + split; [split; [now apply all_Forall|exact I]|split].
      * rewrite !den_node. apply flat_den_mul.
      * intros Hs. cbn [SimplifySpec.spos] in *. apply all_Forall in Hs. apply all_Forall.
        apply flat_Forall; auto. intros a Ha E. apply is_sym_inv in E.
        rewrite E in Ha. now apply all_Forall.
  - (* one argument *)
    pose proof (dom_args _ _ Hd) as HF. inversion HF; subst.
    split; auto. destruct Hop as [->| ->].
    + split; [simpl; lra|]. intros [_ [Hs _]]. auto.
    + split; [simpl; lra|]. intros [Hs _]. auto.
  - (* dropping units *)
    pose proof (dom_args _ _ Hd) as HF.
    split; [|split].
    + destruct Hu; (split; [apply all_Forall; now apply Forall_filter|exact I]).
    + rewrite !den_node. destruct Hu; [apply filter_den_add|apply filter_den_mul].
    + destruct Hu.
      * intros [Hn Hs]. apply all_Forall in Hs. cbn [SimplifySpec.spos]. split.
        -- destruct args as [|a args]; [congruence|]. inversion Hs as [|? ? Ha Hl]; subst. cbn [filter].
           destruct (is_num 0 a) eqn:E; [|discriminate].
           exfalso. destruct a as [h l]. destruct h as [|q| | |]; try discriminate.
           simpl in Ha, E. apply Qeq_bool_eq in E. rewrite (Qeq_eqR _ _ E) in Ha.
           unfold Q2R in Ha. simpl in Ha. lra.
        -- apply all_Forall. now apply Forall_filter.
      * intros Hs. cbn [SimplifySpec.spos] in *. apply all_Forall in Hs. apply all_Forall.
        now apply Forall_filter.
  - (* dropping units, one argument left *)
    pose proof (dom_args _ _ Hd) as HF.
    assert (HF' : Forall dom [a]) by (rewrite <- Ef; now apply Forall_filter).
    inversion HF'; subst. split; auto. split.
    + rewrite den_node. destruct Hu; cbn [op_val].
      * rewrite <- filter_den_add, Ef. simpl. lra.
      * rewrite <- filter_den_mul, Ef. simpl. lra.
    + intros Hs.
      assert (Hs' : Forall spos [a]).
      { rewrite <- Ef. apply Forall_filter. apply all_Forall. destruct Hu; cbn in Hs; tauto. }
      inversion Hs'; auto.
  - (* zero factor *)
    assert (Hz : rprod (map den args) = 0 /\ ~ all spos args).
    { apply existsb_exists in Ez. destruct Ez as [a [Ha E]].
      assert (Hza : den a = 0 /\ ~ spos a).
      { destruct a as [h l]. destruct h as [|q| | |]; try discriminate.
        simpl in *. apply Qeq_bool_eq in E. rewrite (Qeq_eqR _ _ E). unfold Q2R. simpl.
        split; lra. }
      destruct Hza as [Hza Hna]. split.
      - clear - Ha Hza. induction args as [|b args IH]; [destruct Ha|]. simpl.
        destruct Ha as [->|Ha]; [rewrite Hza; ring|rewrite IH; auto; ring].
      - intros Hs. apply all_Forall in Hs. rewrite Forall_forall in Hs. auto. }
    destruct Hz as [Hz Hn]. split; [|split].
    + split; exact I.
    + rewrite !den_node. cbn [op_val]. rewrite Hz. unfold Q2R. simpl. lra.
    + intros Hs. contradiction.
  - (* square of a sum *)
    pose proof (dom_args _ _ Hd) as HF. inversion HF as [|? ? Hj Hr]; subst.
    pose proof (dom_args _ _ Hj) as Hjs.
    split; [|split].
    + split; [|exact I]. apply all_Forall. apply square_terms_Forall; auto.
      * intros a Ha. repeat split; auto. intros C. discriminate C.
      * intros a b Ha Hb. repeat split; auto.
    + rewrite !den_node. cbn [op_val map hd]. rewrite square_terms_den, den_node. cbn [op_val].
      now rewrite cpow_2.
    + intros Hs. cbn [SimplifySpec.spos] in Hs |- *. destruct Hs as [Hn Hs]. split.
      * destruct js; [congruence|discriminate].
      * apply all_Forall. apply all_Forall in Hs. apply square_terms_Forall; auto.
        intros a b Ha Hb. cbn [SimplifySpec.spos]. repeat split; auto.
        simpl. unfold Q2R. simpl. lra.
  - (* one minus *)
    pose proof (dom_args _ _ Hd) as HF. inversion HF as [|? ? Ht Hr]; subst. inversion Hr; subst.
    assert (Hv : den (Node (HSym SOneMinus) [b]) = den (Node (HSym SSub) (Node (HTens t) l :: b :: r))).
    { simpl. destruct Hen as [_ [H _]]. rewrite (H t q _ Ec Eq). reflexivity. }
    split; [|split; auto].
    + repeat split; auto.
    + intros Hs. cbn [SimplifySpec.spos] in *. now rewrite Hv.
  - (* cast *)
    pose proof (dom_args _ _ Hd) as HF. inversion HF; subst. split; auto. split.
    + simpl. destruct Hen as [H _]. now rewrite (H t _ _ Ec).
    + intros Hs. simpl in Hs. now rewrite Ec in Hs.
  - (* one hot *)
    pose proof (dom_args _ _ Hd) as HF. inversion HF; subst.
    assert (Hv : den (Node (HSym SOneHot) [a]) = den (Node (HSym SOneHot) (a :: b :: r))).
    { simpl. destruct Hen as [_ [_ H]]. symmetry. apply H. }
    split; [|split; auto].
    + repeat split; auto.
    + intros Hs. cbn [SimplifySpec.spos] in *. now rewrite Hv.
Qed.
End Sound.

(** ** Closure under contexts and repetition *)

Section Closure.
Variable R' : expr -> expr -> Prop.
Hypothesis R_refl : forall e, R' e e.
Hypothesis R_cong : forall h args args', Forall2 R' args args' -> R' (Node h args) (Node h args').
Variable fn : expr -> res.
Hypothesis R_fn : forall e e', fn e = Rewrites e' -> R' e e'.

Lemma wrapped_closure : forall e b e', wrapped fn e = Ret (b, e') -> R' e e'.
Proof.
  induction e as [h args IH] using expr_ind'. intros b e' H.
  rewrite wrapped_eq in H.
  destruct (fn (Node h args)) as [|e1|] eqn:E; [|inversion H; subst; auto|discriminate].
  destruct (wrapped_list fn args) as [[b1 args']|] eqn:El; inversion H; subst.
  apply R_cong. clear H E. revert b args' El.
  induction IH as [|a l Ha IHl IHl']; intros b args' El.
  - simpl in El. inversion El; subst. constructor.
  - simpl in El. destruct (wrapped fn a) as [[b1 a']|] eqn:Ea; [|discriminate].
    destruct (wrapped_list fn l) as [[b2 l'']|] eqn:El2; inversion El; subst.
    constructor; eauto.
Qed.
End Closure.

Lemma repeat_closure : forall (R' : expr -> expr -> Prop) fn,
  (forall e, R' e e) -> (forall a b c, R' a b -> R' b c -> R' a c) ->
  decreasing fn ->
  (forall e b e', wrapped fn e = Ret (b, e') -> R' e e') ->
  forall fuel did e d e', repeat_wrapped fuel fn did e = Some (Ret (d, e')) ->
  R' e e' /\ (forall s, subexpr s e' -> fn s = Nothing).
Proof.
  intros R' fn Hr Ht Hdec Hw. induction fuel as [|f IH]; intros did e d e' H; [discriminate|].
  simpl in H. destruct (wrapped fn e) as [[b e1]|] eqn:E; [|discriminate].
  destruct b.
  - apply IH in H. destruct H as [H1 H2]. split; auto. eapply Ht; eauto.
  - inversion H; subst. split; [eauto|].
    destruct (wrapped_dec fn Hdec _ _ _ E) as [_ [_ W]]. rewrite (W eq_refl).
    eapply wrapped_false_nothing; eauto.
Qed.

Lemma Forall2_refl' : forall (A : Type) (P : A -> A -> Prop) l, (forall a, P a a) -> Forall2 P l l.
Proof. intros. induction l; constructor; auto. Qed.

(** *** Powers stay small *)

Lemma pw_mono : forall e n m, (n <= m)%nat -> powers_within n e -> powers_within m e.
Proof.
  induction e as [h args IH] using expr_ind'. intros n m Hnm H.
  assert (Hall : forall n m, (n <= m)%nat -> all (powers_within n) args -> all (powers_within m) args).
  { intros n0 m0 Hle Ha. apply all_Forall in Ha. apply all_Forall.
    rewrite Forall_forall in *. intros a Hi. eapply IH; eauto. }
  destruct h as [| | |s|q]; try (eapply Hall; eauto; fail).
  - destruct s; try (eapply Hall; eauto; fail); destruct H as [H1 H2]; (split; [lia|]);
      (eapply Hall; [|exact H2]; lia).
  - destruct H as [k [Hk [Hd Ha]]]. exists k. repeat split; [lia|auto|].
    eapply Hall; [|exact Ha]. lia.
Qed.

Lemma pw_args : forall n h args, powers_within n (Node h args) -> Forall (powers_within n) args.
Proof.
  intros n h args H.
  assert (Hall : forall k, all (powers_within (n - k)) args -> Forall (powers_within n) args).
  { intros k Ha. apply all_Forall in Ha. rewrite Forall_forall in *. intros a Hi.
    eapply pw_mono; [|eapply Ha; eauto]. lia. }
  assert (H0 : all (powers_within n) args -> Forall (powers_within n) args) by (now apply all_Forall).
  destruct h as [| | |s|q]; try (apply H0; exact H).
  - destruct s; try (apply H0; exact H); destruct H as [_ H]; eauto.
  - destruct H as [k [_ [_ H]]]; eauto.
Qed.

Definition pw_le (e e' : expr) : Prop :=
  forall n, (n <= 7)%nat -> powers_within n e -> powers_within n e'.

Lemma pw_cong : forall h args args', Forall2 pw_le args args' -> pw_le (Node h args) (Node h args').
Proof.
  intros h args args' H n Hn Hp.
  assert (Hall : forall m, (m <= 7)%nat -> all (powers_within m) args -> all (powers_within m) args').
  { intros m Hm Ha. apply all_Forall in Ha. apply all_Forall. clear Hp.
    induction H; auto. inversion Ha; subst. constructor; auto. }
  destruct h as [| | |s|q]; try (apply Hall; auto; fail).
  - destruct s; try (apply Hall; auto; fail); destruct Hp as [H1 H2]; (split; [lia|]);
      (apply Hall; [lia|auto]).
  - destruct Hp as [k [Hk [Hd Ha]]]. exists k. repeat split; auto. apply Hall; [lia|auto].
Qed.

Lemma dyadic_2 : forall q, Qeq q 2 -> dyadic 1 q.
Proof. intros q H. exists 1%Z. split; [lia|]. left. rewrite H. reflexivity. Qed.

Lemma pw_sym_intro : forall n s args, s <> SSquare -> s <> SSqrt ->
  Forall (powers_within n) args -> powers_within n (Node (HSym s) args).
Proof. intros n s args H1 H2 H. apply all_Forall in H. destruct s; try congruence; exact H. Qed.

Lemma rw_pw : forall ti e e', rw ti e e' -> pw_le e e'.
Proof.
  intros ti e e' Hrw n Hn Hp.
  destruct Hrw as [a r|h q args E|p q a r2 r E|p q a r2 r|q a r2 r|a p r2 r|ms r|q ms r| |ms p r
    |l1 js l2|op args Hop|op a Hop|op v args Hu|op v args a Hu Ef|args Ez|q js r E|t l q b r Ec Eq
    |t a r Ec|a b r];
  try (pose proof (pw_args _ _ _ Hp) as HF; inversion HF; subst; auto; fail).
  - destruct h as [| | |s|]; try discriminate.
    destruct s; inversion E; subst; cbn [powers_within] in *.
    + destruct Hp as [H1 H2]. exists 1%nat. repeat split; auto. apply dyadic_2. reflexivity.
    + exists 0%nat. split; [lia|]. split; [|rewrite Nat.sub_0_r; auto].
      exists 0%Z. split; [lia|]. right. reflexivity.
    + destruct Hp as [H1 H2]. exists 1%nat. repeat split; auto.
      exists (-1)%Z. split; [lia|]. left. reflexivity.
  - pose proof (pw_args _ _ _ Hp) as HF. inversion HF as [|? ? H1 H2]; subst.
    apply pw_args in H1. inversion H1; auto.
  - destruct Hp as [k1 [Hk1 [Hd1 Ha1]]]. apply all_Forall in Ha1.
    inversion Ha1 as [|? ? H1 H2]; subst. destruct H1 as [k2 [Hk2 [Hd2 Ha2]]].
    apply all_Forall in Ha2. inversion Ha2 as [|? ? H3 H4]; subst.
    exists (k1 + k2)%nat. split; [lia|]. split.
    + eapply dyadic_eq; [symmetry; apply (round4_exact (k1 + k2)); [lia|]|]; now apply dyadic_mult.
    + split; [|exact I]. eapply pw_mono; [|exact H3]. lia.
  - pose proof (pw_args _ _ _ Hp) as HF. inversion HF as [|? ? H1 H2]; subst.
    apply pw_args in H1. inversion H1; subst.
    apply pw_sym_intro; try discriminate. constructor; [exact I|]. constructor; [|constructor].
    apply pw_sym_intro; try discriminate. auto.
  - pose proof (pw_args _ _ _ Hp) as HF. inversion HF as [|? ? H1 H2]; subst.
    apply pw_args in H1. inversion H1 as [|? ? H3 H4]; subst. inversion H4; subst.
    apply pw_sym_intro; try discriminate. constructor; [auto|]. constructor; [|constructor].
    apply pw_sym_intro; try discriminate. auto.
  - pose proof (pw_args _ _ _ Hp) as HF. inversion HF as [|? ? H1 H2]; subst.
    apply pw_args in H1. apply pw_sym_intro; try discriminate. apply Forall_map.
    rewrite Forall_forall in *. intros a Ha. apply pw_sym_intro; try discriminate. auto.
  - destruct Hp as [k [Hk [Hd Ha]]]. apply all_Forall in Ha. inversion Ha as [|? ? H1 H2]; subst.
    apply pw_args in H1. apply pw_sym_intro; try discriminate. apply Forall_map.
    rewrite Forall_forall in *. intros a Hi. exists k. repeat split; auto.
  - pose proof (pw_args _ _ _ Hp) as HF. inversion HF as [|? ? H1 H2]; subst.
    apply pw_args in H1. inversion H2; subst.
    apply pw_sym_intro; try discriminate. apply Forall_map.
    rewrite Forall_forall in *. intros a Ha. apply pw_sym_intro; try discriminate. auto.
  - pose proof (pw_args _ _ _ Hp) as HF. apply Forall_app in HF. destruct HF as [H1 H2].
    inversion H2 as [|? ? H3 H4]; subst. apply pw_args in H3.
    apply pw_sym_intro; try discriminate. apply Forall_map.
    rewrite Forall_forall in H3 |- *. intros j Hj. apply pw_sym_intro; try discriminate.
    repeat (apply Forall_app; split; auto).
  - pose proof (pw_args _ _ _ Hp) as HF.
    destruct Hop as [->| ->]; apply pw_sym_intro; try discriminate;
      apply flat_Forall; auto; intros a Ha _; destruct a; eapply pw_args; eauto.
  - pose proof (pw_args _ _ _ Hp) as HF.
    destruct Hu; apply pw_sym_intro; try discriminate; now apply Forall_filter.
  - pose proof (pw_args _ _ _ Hp) as HF.
    assert (HF' : Forall (powers_within n) [a]) by (rewrite <- Ef; now apply Forall_filter).
    inversion HF'; auto.
  - exact I.
  - destruct Hp as [k [Hk [Hd Ha]]]. apply all_Forall in Ha. inversion Ha as [|? ? H1 H2]; subst.
    apply pw_args in H1. apply pw_sym_intro; try discriminate.
    (* the exponent 2 has weight at least one *)
    assert (Hk1 : (1 <= k)%nat).
    { destruct k; [|lia]. destruct Hd as [z [Hz Hq]].
      assert (z = 0%Z) by lia. subst z. rewrite E in Hq. destruct Hq as [Hq|Hq]; discriminate Hq. }
    assert (Hgen : forall l, Forall (powers_within (n - k)) l -> Forall (powers_within n) (square_terms l)).
    { clear - Hk Hk1. intros l Hl. induction Hl as [|a l Ha Hl IH]; simpl; constructor.
      - exists 1%nat. split; [lia|]. split; [apply dyadic_2; reflexivity|]. split; [|exact I].
        eapply pw_mono; [|exact Ha]. lia.
      - apply Forall_app. split; auto. apply Forall_map. rewrite Forall_forall in *. intros b Hb.
        apply pw_sym_intro; try discriminate. constructor; [exact I|].
        constructor; [eapply pw_mono; [|exact Ha]; lia|].
        constructor; [eapply pw_mono; [|apply Hl; exact Hb]; lia|constructor]. }
    auto.
  - pose proof (pw_args _ _ _ Hp) as HF. inversion HF as [|? ? H1 H2]; subst. inversion H2; subst.
    apply pw_sym_intro; try discriminate. auto.
  - pose proof (pw_args _ _ _ Hp) as HF. inversion HF as [|? ? H1 H2]; subst.
    apply pw_sym_intro; try discriminate. auto.
Qed.

(** *** Heads *)

Fixpoint allh (P : head -> Prop) (e : expr) : Prop :=
  match e with Node h args => P h /\ all (allh P) args end.

Lemma allh_args : forall P h args, allh P (Node h args) <-> P h /\ Forall (allh P) args.
Proof. intros. cbn [allh]. rewrite all_Forall. tauto. Qed.

Definition creatable (P : head -> Prop) : Prop :=
  (forall q, P (HNum q)) /\ (forall q, P (HCPow q)) /\
  P (HSym SAdd) /\ P (HSym SMul) /\ P (HSym SLog) /\ P (HSym SPow) /\
  P (HSym SOneMinus) /\ P (HSym SOneHot).

Lemma rw_allh : forall P, creatable P -> forall ti e e', rw ti e e' -> allh P e -> allh P e'.
Proof.
  intros P [Cn [Cp [Ca [Cm [Cl [Cw [Co Ch]]]]]]] ti e e' Hrw Hp.
  apply (fun H => H) in Hp.
  destruct Hrw as [a r|h q args E|p q a r2 r E|p q a r2 r|q a r2 r|a p r2 r|ms r|q ms r| |ms p r
    |l1 js l2|op args Hop|op a Hop|op v args Hu|op v args a Hu Ef|args Ez|q js r E|t l q b r Ec Eq
    |t a r Ec|a b r]; apply allh_args in Hp; destruct Hp as [Hh HF].
  - inversion HF; auto.
  - apply allh_args; auto.
  - inversion HF as [|? ? H1 H2]; subst. apply allh_args in H1. destruct H1 as [_ H1]. inversion H1; auto.
  - inversion HF as [|? ? H1 H2]; subst. apply allh_args in H1. destruct H1 as [_ H1].
    inversion H1; subst. apply allh_args; auto.
  - inversion HF as [|? ? H1 H2]; subst. apply allh_args in H1. destruct H1 as [_ H1].
    inversion H1; subst. repeat (apply allh_args; split; auto; repeat constructor; auto).
  - inversion HF as [|? ? H1 H2]; subst. apply allh_args in H1. destruct H1 as [_ H1].
    inversion H1 as [|? ? H3 H4]; subst. inversion H4; subst.
    repeat (apply allh_args; split; auto; repeat constructor; auto).
  - inversion HF as [|? ? H1 H2]; subst. apply allh_args in H1. destruct H1 as [_ H1].
    apply allh_args; split; auto. apply Forall_map. rewrite Forall_forall in *.
    intros a Ha. apply allh_args; split; auto.
  - inversion HF as [|? ? H1 H2]; subst. apply allh_args in H1. destruct H1 as [_ H1].
    apply allh_args; split; auto. apply Forall_map. rewrite Forall_forall in *.
    intros a Ha. apply allh_args; split; auto.
  - apply allh_args; auto.
  - inversion HF as [|? ? H1 H2]; subst. apply allh_args in H1. destruct H1 as [_ H1].
    inversion H2; subst. apply allh_args; split; auto. apply Forall_map. rewrite Forall_forall in *.
    intros a Ha. apply allh_args; split; auto.
  - apply Forall_app in HF. destruct HF as [H1 H2]. inversion H2 as [|? ? H3 H4]; subst.
    apply allh_args in H3. destruct H3 as [_ H3]. apply allh_args; split; auto. apply Forall_map.
    rewrite Forall_forall in H3 |- *. intros a Ha. apply allh_args; split; auto.
    repeat (apply Forall_app; split; auto).
  - apply allh_args; split; auto. apply flat_Forall; auto. intros a Ha _. destruct a.
    apply allh_args in Ha. tauto.
  - inversion HF; auto.
  - apply allh_args; split; auto. now apply Forall_filter.
  - assert (HF' : Forall (allh P) [a]) by (rewrite <- Ef; now apply Forall_filter).
    inversion HF'; auto.
  - apply allh_args; auto.
  - inversion HF as [|? ? H1 H2]; subst. apply allh_args in H1. destruct H1 as [_ H1].
    apply allh_args; split; auto. apply square_terms_Forall; auto.
    + intros a Ha. apply allh_args; auto.
    + intros a c Ha Hc. apply allh_args; split; auto. repeat constructor; auto.
  - inversion HF as [|? ? H1 H2]; subst. inversion H2; subst. apply allh_args; auto.
  - inversion HF; auto.
  - inversion HF; subst. apply allh_args; auto.
Qed.

Definition xfree (e : expr) : Prop := contains_x e = false.

Lemma xfree_allh : forall e, xfree e <-> allh (fun h => h <> HX) e.
Proof.
  unfold xfree. induction e as [h args IH] using expr_ind'. rewrite allh_args.
  assert (Hx : existsb contains_x args = false <-> Forall (allh (fun h => h <> HX)) args).
  { clear h. induction IH as [|a l Ha Hl IHl]; simpl; [split; auto|].
    rewrite orb_false_iff, IHl, Ha. split; [intros [? ?]; auto|intros H; inversion H; auto]. }
  destruct h; simpl; try (rewrite Hx; split; [intros; split; auto; discriminate|tauto]).
  split; [discriminate|]. intros [H _]. congruence.
Qed.

Definition nosq (e : expr) : Prop := allh (fun h => h <> HSym SSquare) e.

Lemma creatable_x : creatable (fun h => h <> HX).
Proof. repeat split; intros; discriminate. Qed.
Lemma creatable_sq : creatable (fun h => h <> HSym SSquare).
Proof. repeat split; intros; discriminate. Qed.

Lemma rw_xfree : forall ti e e', rw ti e e' -> xfree e -> xfree e'.
Proof. intros ti e e' H. rewrite !xfree_allh. apply (rw_allh _ creatable_x ti); auto. Qed.

Lemma xfree_args : forall h args, xfree (Node h args) -> Forall xfree args.
Proof.
  intros h args H. apply xfree_allh in H. apply allh_args in H. destruct H as [_ H].
  eapply Forall_impl; [|exact H]. intros a. now rewrite xfree_allh.
Qed.

(** *** Monomials and linear forms *)

Lemma mono_args : forall h args, monomial (Node h args) -> Forall monomial args.
Proof. intros h args [H _]. now apply all_Forall. Qed.

Lemma mono_cpow : forall q args, Forall monomial args -> monomial (Node (HCPow q) args).
Proof. intros q args H. split; [now apply all_Forall|exact I]. Qed.
Lemma mono_mul : forall args, Forall monomial args -> monomial (Node (HSym SMul) args).
Proof. intros args H. split; [now apply all_Forall|exact I]. Qed.

Lemma rw_mono : forall ti e e', rw ti e e' -> monomial e -> monomial e'.
Proof.
  intros ti e e' Hrw Hm. pose proof Hm as Hm0.
  destruct Hrw as [a r|h q args E|p q a r2 r E|p q a r2 r|q a r2 r|a p r2 r|ms r|q ms r| |ms p r
    |l1 js l2|op args Hop|op a Hop|op v args Hu|op v args a Hu Ef|args Ez|q js r E|t l q b r Ec Eq
    |t a r Ec|a b r]; pose proof (mono_args _ _ Hm) as HF; destruct Hm as [_ Hh];
    try (inversion HF; auto; fail); try contradiction.
  - now apply mono_cpow.
  - inversion HF as [|? ? H1 H2]; subst. apply mono_args in H1. inversion H1; auto.
  - inversion HF as [|? ? H1 H2]; subst. apply mono_args in H1. inversion H1; subst.
    now apply mono_cpow; auto.
  - inversion HF as [|? ? H1 H2]; subst. apply mono_args in H1. apply mono_mul. apply Forall_map.
    rewrite Forall_forall in *. intros a Ha. apply mono_cpow. auto.
  - inversion HF as [|? ? H1 H2]; subst. apply mono_args in H1. inversion H2; subst.
    inversion Hh; subst. apply mono_mul. apply Forall_map.
    rewrite Forall_forall in *. intros a Ha. split; [repeat split; auto|]. constructor; auto.
  - apply Forall_app in HF. destruct HF as [_ HF]. inversion HF as [|? ? H1 _]; subst.
    destruct H1 as [_ []].
  - destruct Hop as [->| ->]; [contradiction|]. apply mono_mul. apply flat_Forall; auto.
    intros a Ha _. destruct a. eapply mono_args; eauto.
  - destruct Hu; [contradiction|]. apply mono_mul. now apply Forall_filter.
  - assert (HF' : Forall monomial [a]) by (rewrite <- Ef; now apply Forall_filter).
    inversion HF'; auto.
  - repeat split.
  - inversion HF as [|? ? H1 H2]; subst. destruct H1 as [_ []].
  - inversion HF as [|? ? H1 H2]; subst. inversion H2; subst. repeat split; auto.
  - inversion HF as [|? ? H1 H2]; subst. repeat split; auto.
Qed.

Definition sumlike (e : expr) : Prop :=
  monomial e \/ exists ms, e = Node (HSym SAdd) ms /\ Forall monomial ms.

Lemma rw_sumlike : forall ti e e', rw ti e e' -> sumlike e -> sumlike e'.
Proof.
  intros ti e e' Hrw [Hm|[ms [-> Hms]]]; [left; eapply rw_mono; eauto|].
  inversion Hrw; subst.
  - discriminate.
  - assert (Hflat : flat SAdd ms = ms).
    { clear - Hms. unfold flat. induction Hms as [|a l Ha Hl IH]; auto. simpl. rewrite IH.
      destruct (is_sym SAdd a) eqn:E; auto. apply is_sym_inv in E. rewrite E in Ha.
      destruct Ha as [_ []]. }
    right. exists ms. rewrite Hflat. auto.
  - left. inversion Hms; auto.
  - right. eexists. split; eauto. now apply Forall_filter.
  - left. assert (HF' : Forall monomial [e']).
    { match goal with H : filter _ _ = [e'] |- _ => rewrite <- H end. now apply Forall_filter. }
    inversion HF'; auto.
Qed.

Lemma app_split_eq : forall (A : Type) (P : A -> Prop) l1 a l2 k1 b k2,
  l1 ++ a :: l2 = k1 ++ b :: k2 -> Forall P (k1 ++ k2) -> ~ P a ->
  l1 = k1 /\ a = b /\ l2 = k2.
Proof.
  intros A P. induction l1 as [|c l1 IH]; intros a l2 k1 b k2 H HF Hn.
  - destruct k1 as [|d k1]; simpl in H; inversion H; subst; auto.
    inversion HF; subst. contradiction.
  - destruct k1 as [|d k1]; simpl in H; inversion H; subst.
    + simpl in HF. apply Forall_app in HF. destruct HF as [_ HF]. inversion HF; subst. contradiction.
    + inversion HF; subst. destruct (IH _ _ _ _ _ H2 H4 Hn) as [-> [-> ->]]. auto.
Qed.

Ltac no_op :=
  try (match goal with H : _ = SAdd \/ _ = SMul |- _ => destruct H; discriminate end);
  try (match goal with H : unit_of _ _ |- _ => inversion H; fail end);
  try (match goal with H : unit_of _ _ |- _ => inversion H; discriminate end).

Section Lin.
Variable ti : tinfo.
Notation linf := (linear_form ti).
Notation cst := (fun a => monomial a /\ contains_x a = false).

Lemma mono_dec_mul : forall l1 m l2, monomial m -> Forall cst (l1 ++ l2) ->
  monomial (Node (HSym SMul) (l1 ++ m :: l2)).
Proof.
  intros l1 m l2 Hm HF. apply mono_mul. apply Forall_app in HF. destruct HF as [H1 H2].
  apply Forall_app. split; [|constructor; auto]; eapply Forall_impl; [|eassumption| |eassumption]; simpl; tauto.
Qed.

Lemma flat_cst : forall l, Forall cst l -> Forall cst (flat SMul l).
Proof.
  intros l H. apply flat_Forall; auto. intros a [Ha Hx] _. destruct a as [h args]. simpl args_of.
  apply mono_args in Ha. apply xfree_args in Hx. rewrite Forall_forall in *. intros b Hb. split; auto.
  apply Hx; auto.
Qed.

Lemma rw_lin : forall e e', rw ti e e' -> linf e -> linf e'.
Proof.
  intros e e' Hrw Hl.
  destruct Hl as [e Hm|args Hargs|l1 m l2 Hm Hc|m Hm|ms Hms|q ms Hq Hms|m Hm|t m Ht Hm].
  - apply lf_mono. eapply rw_mono; eauto.
  - (* sum *)
    inversion Hrw; subst.
    + discriminate.
    + apply lf_add. apply flat_Forall; auto. intros a Ha E. apply is_sym_inv in E.
      rewrite E in Ha. inversion Ha; subst; auto; [destruct H as [_ []]].
    + inversion Hargs; auto.
    + apply lf_add. now apply Forall_filter.
    + assert (HF' : Forall linf [e']).
      { match goal with H : filter _ _ = [e'] |- _ => rewrite <- H end. now apply Forall_filter. }
      inversion HF'; auto.
  - (* product *)
    inversion Hrw; subst.
    + discriminate.
    + (* distribution *)
      match goal with H : _ ++ _ :: _ = _ ++ _ :: _ |- _ =>
        apply (app_split_eq _ cst) in H; auto; [destruct H as [-> [<- ->]]|] end.
      2:{ intros [[_ []] _]. }
      inversion Hm as [? Hm'|js' Hjs| | | | | |]; subst; [destruct Hm' as [_ []]|].
      apply lf_add. apply Forall_map. rewrite Forall_forall in *. intros j Hj.
      change ((l1 ++ l2) ++ [j]) with ((l1 ++ l2) ++ j :: []). apply lf_mul; auto.
      rewrite app_nil_r. now apply Forall_forall.
    + (* flattening *)
      unfold flat. rewrite flat_map_app. cbn [flat_map].
      fold (flat SMul l1). fold (flat SMul l2).
      apply Forall_app in Hc. destruct Hc as [Hc1 Hc2].
      destruct (is_sym SMul m) eqn:E.
      * apply is_sym_inv in E. rewrite E in Hm. set (margs := args_of m) in *. clearbody margs.
        inversion Hm as [? Hm'| |k1 m' k2 Hm' Hk| | | | |]; subst.
        -- apply lf_mono. apply mono_mul. apply mono_args in Hm'.
           apply flat_cst in Hc1. apply flat_cst in Hc2.
           apply Forall_app. split; [|apply Forall_app; split; auto];
             (eapply Forall_impl; [|eassumption]); simpl; tauto.
        -- replace (flat SMul l1 ++ (k1 ++ m' :: k2) ++ flat SMul l2)
             with ((flat SMul l1 ++ k1) ++ m' :: (k2 ++ flat SMul l2))
             by (rewrite <- !app_assoc; reflexivity).
           apply lf_mul; auto. apply Forall_app in Hk. destruct Hk as [Hk1 Hk2].
           repeat (apply Forall_app; split); auto; now apply flat_cst.
      * simpl app. apply lf_mul; auto. apply Forall_app; split; now apply flat_cst.
    + (* single *)
      assert (Hl1 : l1 = [] /\ l2 = [] /\ m = e').
      { destruct l1 as [|c l1]; simpl in *; [inversion H1; subst; auto|].
        inversion H1. destruct l1; discriminate. }
      destruct Hl1 as [_ [_ <-]]. auto.
    + (* units *)
      match goal with H : unit_of _ _ |- _ => inversion H; subst end.
      destruct (is_num 1 m) eqn:E.
      * apply lf_mono. eapply rw_mono; [exact Hrw|]. apply mono_dec_mul; auto.
        destruct m as [h l]. destruct h as [|q| | |]; try discriminate.
        inversion Hm; subst; auto; try discriminate.
      * rewrite filter_app. cbn [filter]. rewrite E. cbn [negb]. apply lf_mul; auto.
        apply Forall_app in Hc. destruct Hc as [Hc1 Hc2]. apply Forall_app. split; now apply Forall_filter.
    + match goal with H : unit_of _ _ |- _ => inversion H; subst end.
      match goal with H : filter _ _ = [e'] |- _ => rename H into Ef end.
      assert (HF' : Forall linf [e']).
      { rewrite <- Ef. apply Forall_filter. apply Forall_app in Hc. destruct Hc as [Hc1 Hc2].
        apply Forall_app. split; [|constructor; auto];
          (eapply Forall_impl; [|eassumption]); intros a [Ha _]; now apply lf_mono. }
      inversion HF'; auto.
    + apply lf_mono. repeat split.
  - (* log of a monomial *)
    inversion Hrw; subst; no_op.
    + discriminate.
    + pose proof (mono_args _ _ Hm) as HF. inversion HF; subst.
      change [Node (HNum q) []; Node (HSym SLog) [a]] with ([Node (HNum q) []] ++ Node (HSym SLog) [a] :: []).
      apply lf_mul; [now apply lf_log|]. repeat constructor.
    + pose proof (mono_args _ _ Hm) as HF. inversion HF as [|? ? H1 H2]; subst. inversion H2; subst.
      destruct Hm as [_ Hx]. simpl in Hx. inversion Hx; subst.
      change [p; Node (HSym SLog) [a]] with ([p] ++ Node (HSym SLog) [a] :: []).
      apply lf_mul; [now apply lf_log|]. simpl. repeat constructor; auto.
    + pose proof (mono_args _ _ Hm) as HF. apply lf_add. apply Forall_map.
      rewrite Forall_forall in *. intros a Ha. apply lf_log. auto.
  - (* square of a sum *)
    inversion Hrw; subst; no_op.
    match goal with H : power_ops _ = Some _ |- _ => inversion H; subst end.
    apply lf_cpow2; [reflexivity|auto].
  - (* second power of a sum *)
    inversion Hrw; subst; no_op.
    + discriminate.
    + apply lf_add. eapply Forall_impl; [intros a Ha; apply lf_mono; exact Ha|].
      apply square_terms_Forall; auto.
      * intros a Ha. apply mono_cpow. auto.
      * intros a b Ha Hb. apply mono_mul. repeat constructor; auto.
  - inversion Hrw; subst; no_op; auto. discriminate.
  - inversion Hrw; subst; no_op; auto. discriminate.
Qed.

Lemma Forall2_impl : forall (P Q : expr -> expr -> Prop) l l',
  (forall a b, P a b -> Q a b) -> Forall2 P l l' -> Forall2 Q l l'.
Proof. intros P Q l l' H F. induction F; constructor; auto. Qed.

(** What every rule but [add_const_simplify] guarantees. *)
Record good (e e' : expr) : Prop := mkgood {
  g_pw : pw_le e e';
  g_mono : monomial e -> monomial e';
  g_sum : sumlike e -> sumlike e';
  g_lin : linf e -> linf e';
  g_x : xfree e -> xfree e';
  g_sq : nosq e -> nosq e' }.

Lemma good_refl : forall e, good e e.
Proof. intros. constructor; unfold pw_le; auto. Qed.
Lemma good_trans : forall a b c, good a b -> good b c -> good a c.
Proof.
  intros a b c [A1 A2 A3 A4 A5 A6] [B1 B2 B3 B4 B5 B6]. constructor; unfold pw_le in *; auto.
Qed.
Lemma rw_good : forall e e', rw ti e e' -> good e e'.
Proof.
  intros e e' H. constructor.
  - eapply rw_pw; eauto.
  - eapply rw_mono; eauto.
  - eapply rw_sumlike; eauto.
  - eapply rw_lin; eauto.
  - eapply rw_xfree; eauto.
  - eapply (rw_allh _ creatable_sq); eauto.
Qed.

Lemma good_Forall : forall (P : expr -> Prop) args args',
  (forall a a', good a a' -> P a -> P a') -> Forall2 good args args' -> Forall P args -> Forall P args'.
Proof. intros P args args' Hg H. induction H; intros HF; auto. inversion HF; subst. constructor; eauto. Qed.

Lemma good_cong_x : forall h args args', Forall2 good args args' ->
  xfree (Node h args) -> xfree (Node h args').
Proof.
  intros h args args' H Hx. apply xfree_allh in Hx. apply xfree_allh.
  apply allh_args in Hx. apply allh_args. destruct Hx as [Hh Hx]. split; auto.
  eapply good_Forall; eauto. intros a a' G. rewrite <- !xfree_allh. apply (g_x _ _ G).
Qed.

Lemma good_cong : forall h args args', Forall2 good args args' -> good (Node h args) (Node h args').
Proof.
  intros h args args' H.
  assert (Hmono : monomial (Node h args) -> monomial (Node h args')).
  { intros [Ha Hh]. split.
    - apply all_Forall. apply all_Forall in Ha. eapply good_Forall; eauto. intros; eapply g_mono; eauto.
    - destruct h as [| | |s|]; auto. destruct s; auto.
      destruct H as [|a a' l l' G H]; auto. simpl in *.
      eapply good_Forall; eauto. intros b b' Gb. apply (g_x _ _ Gb). }
  constructor; auto.
  - apply pw_cong. eapply Forall2_impl; [|exact H]. intros a a' G. apply (g_pw _ _ G).
  - intros [Hm|[ms [E Hms]]]; [left; auto|]. inversion E; subst. right.
    exists args'. split; auto. eapply good_Forall; eauto. intros; eapply g_mono; eauto.
  - intros Hl. inversion Hl as [e Hm|args0 Hargs|l1 m l2 Hm Hc|m Hm|ms Hms|q ms Hq Hms|m Hm|t m Ht Hm]; subst.
    + apply lf_mono. auto.
    + apply lf_add. eapply good_Forall; eauto. intros; eapply g_lin; eauto.
    + apply Forall2_app_inv_l in H. destruct H as [k1 [k2 [F1 [F2 ->]]]].
      inversion F2 as [|? m' ? k2' Gm F3]; subst. apply lf_mul; [eapply g_lin; eauto|].
      apply Forall_app in Hc. destruct Hc as [Hc1 Hc2]. apply Forall_app.
      split; (eapply good_Forall; [|eassumption|eassumption]);
        intros a a' G [P1 P2]; (split; [eapply g_mono; eauto|eapply g_x; eauto]).
    + inversion H as [|? m' ? ? Gm F3]; subst. inversion F3; subst. apply lf_log. eapply g_mono; eauto.
    + inversion H as [|? m' ? ? Gm F3]; subst. inversion F3; subst.
      assert (Hs : sumlike m'). { apply (g_sum _ _ Gm). right. eauto. }
      destruct Hs as [Hs|[ms' [-> Hs]]]; [|now apply lf_square].
      apply lf_mono. repeat split; auto.
    + inversion H as [|? m' ? ? Gm F3]; subst. inversion F3; subst.
      assert (Hs : sumlike m'). { apply (g_sum _ _ Gm). right. eauto. }
      destruct Hs as [Hs|[ms' [-> Hs]]]; [|now apply lf_cpow2].
      apply lf_mono. repeat split; auto.
    + inversion H as [|? m' ? ? Gm F3]; subst. inversion F3; subst. apply lf_identity. eapply g_lin; eauto.
    + inversion H as [|? m' ? ? Gm F3]; subst. inversion F3; subst. apply lf_cast; auto. eapply g_lin; eauto.
  - now apply good_cong_x.
  - unfold nosq. rewrite !allh_args. intros [Hh Ha]. split; auto. eapply good_Forall; eauto.
    intros a a' G. apply (g_sq _ _ G).
Qed.

(** ** Values through contexts *)

Variable en : env.
Hypothesis Hen : env_ok ti en.

Definition exact (e e' : expr) : Prop :=
  pw_le e e' /\ (powers_within 7 e -> forall x, refines ti en x e e').

Lemma exact_refl : forall e, exact e e.
Proof. intros e. split; [unfold pw_le; auto|]. unfold refines. auto. Qed.
Lemma exact_trans : forall a b c, exact a b -> exact b c -> exact a c.
Proof.
  intros a b c [A1 A2] [B1 B2]. split; [unfold pw_le in *; auto|].
  intros Hp x Hd. destruct (A2 Hp x Hd) as [D1 [D2 D3]].
  destruct (B2 (A1 7%nat (le_n _) Hp) x D1) as [E1 [E2 E3]]. repeat split; auto. congruence.
Qed.
Lemma rw_exact : forall e e', rw ti e e' -> exact e e'.
Proof.
  intros e e' H. split; [eapply rw_pw; eauto|]. intros Hp x. apply rw_sound; auto.
Qed.

Lemma refines_list : forall x args args', Forall2 (refines ti en x) args args' ->
  Forall (dom ti en x) args ->
  Forall (dom ti en x) args' /\ map (den en x) args' = map (den en x) args.
Proof.
  intros x args args' H. induction H as [|a a' l l' Ha Hl IH]; intros HF; auto.
  inversion HF; subst. destruct (Ha H1) as [D1 [D2 _]]. destruct (IH H2) as [E1 E2].
  split; auto. simpl. congruence.
Qed.

Lemma refines_spos_list : forall x args args', Forall2 (refines ti en x) args args' ->
  Forall (dom ti en x) args -> Forall (spos ti en x) args -> Forall (spos ti en x) args'.
Proof.
  intros x args args' H. induction H as [|a a' l l' Ha Hl IH]; intros HF HS; auto.
  inversion HF; subst. inversion HS; subst. destruct (Ha H1) as [_ [_ D3]]. constructor; auto.
Qed.

Lemma refines_cong : forall x h args args', Forall2 (refines ti en x) args args' ->
  refines ti en x (Node h args) (Node h args').
Proof.
  intros x h args args' H Hd.
  pose proof (dom_args ti en x h args Hd) as HF.
  destruct (refines_list x args args' H HF) as [HF' Hm].
  assert (Hden : den en x (Node h args') = den en x (Node h args)).
  { rewrite !den_node, Hm. reflexivity. }
  assert (Hhd : forall a r, args = a :: r -> exists a' r', args' = a' :: r' /\
     den en x a' = den en x a /\ (spos ti en x a -> spos ti en x a') /\ Forall2 (refines ti en x) r r').
  { intros a r ->. inversion H as [|? a' ? r' G F]; subst. inversion HF; subst.
    destruct (G H2) as [D1 [D2 D3]]. eauto 8. }
  assert (Hempty : args = [] -> args' = []) by (intros ->; inversion H; auto).
  split; [|split; auto].
  - split; [now apply all_Forall|]. destruct Hd as [_ Hs].
    destruct h as [| | |s|q]; auto.
    + destruct s; auto.
      * destruct args as [|a r]; [contradiction|].
        destruct (Hhd _ _ eq_refl) as [a' [r' [-> [D2 [D3 _]]]]]. auto.
      * destruct args as [|a [|p r]]; try contradiction.
        destruct (Hhd _ _ eq_refl) as [a' [r' [-> [D2 [D3 F]]]]]. inversion F; subst. auto.
      * destruct args as [|a r]; [contradiction|].
        destruct (Hhd _ _ eq_refl) as [a' [r' [-> [D2 [D3 _]]]]]. auto.
      * destruct args as [|a r]; [contradiction|].
        destruct (Hhd _ _ eq_refl) as [a' [r' [-> [D2 [D3 _]]]]]. rewrite D2. auto.
      * destruct args as [|a r]; [contradiction|].
        destruct (Hhd _ _ eq_refl) as [a' [r' [-> [D2 [D3 _]]]]]. auto.
    + destruct args as [|a r]; [contradiction|].
      destruct (Hhd _ _ eq_refl) as [a' [r' [-> [D2 [D3 _]]]]]. rewrite D2.
      destruct Hs as [[Hs|Hs] Hn]; split; auto.
  - assert (Hfirst : match args with a :: _ => spos ti en x a | [] => False end ->
                     match args' with a :: _ => spos ti en x a | [] => False end).
    { destruct args as [|a r]; [contradiction|].
      destruct (Hhd _ _ eq_refl) as [a' [r' [-> [D2 [D3 _]]]]]. auto. }
    intros Hs. destruct h as [| |t|s|q];
      try (cbn [spos] in Hs |- *; rewrite ?Hden; exact Hs); try (apply Hfirst; exact Hs).
    + cbn [spos] in Hs |- *. rewrite Hden. destruct args as [|a r].
      * rewrite (Hempty eq_refl). exact Hs.
      * destruct (Hhd _ _ eq_refl) as [a' [r' [-> [D2 [D3 _]]]]].
        destruct (is_cast ti t); auto.
    + destruct s; try (apply Hfirst; exact Hs); try (cbn [spos] in Hs |- *; rewrite ?Hden; exact Hs).
      * destruct Hs as [Hn Hs]. apply all_Forall in Hs. cbn [spos]. split.
        -- destruct args; [congruence|]. inversion H; discriminate.
        -- apply all_Forall. eapply refines_spos_list; eauto.
      * cbn [spos] in *. apply all_Forall in Hs. apply all_Forall. eapply refines_spos_list; eauto.
Qed.

Lemma exact_cong : forall h args args', Forall2 exact args args' -> exact (Node h args) (Node h args').
Proof.
  intros h args args' H. split.
  - apply pw_cong. eapply Forall2_impl; [|exact H]. intros a b [A _]. exact A.
  - intros Hp x. apply refines_cong. apply pw_args in Hp.
    induction H as [|a a' l l' [_ Ha] Hl IH]; constructor; inversion Hp; subst; auto.
Qed.

Lemma wrapped_other : forall fn, In fn (other_fns ti) ->
  forall e b e', wrapped fn e = Ret (b, e') -> good e e' /\ exact e e'.
Proof.
  intros fn Hfn e b e' H. split.
  - eapply (wrapped_closure good); eauto using good_refl, good_cong.
    intros. apply rw_good. eapply fn_rw; eauto.
  - eapply (wrapped_closure exact); eauto using exact_refl, exact_cong.
    intros. apply rw_exact. eapply fn_rw; eauto.
Qed.

Lemma other_dec : forall fn, In fn (other_fns ti) -> decreasing fn.
Proof.
  intros fn H. pose proof (all_decreasing ti) as HF. rewrite Forall_forall in HF. apply HF.
  unfold other_fns, simplify_fns in *. simpl in *. intuition.
Qed.

Lemma repeat_other : forall fn, In fn (other_fns ti) ->
  forall fuel did e d e', repeat_wrapped fuel fn did e = Some (Ret (d, e')) ->
  (good e e' /\ exact e e') /\ (forall s, subexpr s e' -> fn s = Nothing).
Proof.
  intros fn Hfn. apply (repeat_closure (fun e e' => good e e' /\ exact e e')).
  - intros; split; [apply good_refl|apply exact_refl].
  - intros a b c [] []. split; [eapply good_trans; eauto|eapply exact_trans; eauto].
  - now apply other_dec.
  - now apply wrapped_other.
Qed.

(** ** Pruning constants *)

Lemma den_xfree : forall e, xfree e -> forall x y, den en x e = den en y e.
Proof.
  induction e as [h args IH] using expr_ind'. intros Hx x y.
  rewrite !den_node. pose proof (xfree_args _ _ Hx) as HF.
  assert (Hm : map (den en x) args = map (den en y) args).
  { clear Hx. induction IH; auto. inversion HF; subst. simpl. rewrite IHIH; auto. f_equal. auto. }
  rewrite Hm. destruct h as [| | | |]; auto.
  discriminate Hx.
Qed.

Lemma wrapped_nothing : forall fn e, (forall s, subexpr s e -> fn s = Nothing) ->
  wrapped fn e = Ret (false, e).
Proof.
  intros fn. induction e as [h args IH] using expr_ind'. intros H.
  rewrite wrapped_eq. rewrite (H (Node h args)) by constructor.
  assert (Hl : wrapped_list fn args = Ret (false, args)).
  { assert (HH : forall a s, In a args -> subexpr s a -> fn s = Nothing).
    { intros a s Ha Hs. apply H. econstructor; eauto. }
    clear H. induction IH as [|a l Ha Hl IHl]; auto. simpl. rewrite Ha.
    - rewrite IHl; auto. intros b s Hb. apply HH. now right.
    - intros s. apply HH. now left. }
  now rewrite Hl.
Qed.

Lemma mono_sub : forall s e, subexpr s e -> monomial e -> monomial s.
Proof.
  intros s e H. induction H as [|h args a Ha Hs IH]; auto. intros Hm. apply mono_args in Hm.
  rewrite Forall_forall in Hm. auto.
Qed.

Lemma mono_no_add : forall e, monomial e -> forall s, subexpr s e -> add_const_simplify s = Nothing.
Proof.
  intros e Hm s Hs. pose proof (mono_sub _ _ Hs Hm) as H. unfold add_const_simplify.
  destruct (is_sym SAdd s) eqn:E; auto. apply is_sym_inv in E. rewrite E in H. destruct H as [_ []].
Qed.

Definition no_square_of_sum (e : expr) : Prop :=
  forall s, subexpr s e -> square_add_simplify s = Nothing.

Definition shifted (e e' : expr) : Prop :=
  linf e' /\ (nosq e -> nosq e') /\
  (forall x, dom ti en x e -> dom ti en x e') /\
  exists c, forall x, den en x e = den en x e' + c.

Lemma shifted_refl : forall e, linf e -> shifted e e.
Proof. intros e H. repeat split; auto. exists 0. intros. lra. Qed.

Lemma filter_x_den : forall args, exists c, forall x,
  rsum (map (den en x) args) = rsum (map (den en x) (filter contains_x args)) + c.
Proof.
  induction args as [|a args [c IH]]; [exists 0; intros; simpl; lra|].
  cbn [filter]. destruct (contains_x a) eqn:E.
  - exists c. intros x. cbn [map]. rewrite !rsum_cons, IH. lra.
  - exists (c + den en 0 a). intros x. cbn [map]. rewrite rsum_cons, IH.
    rewrite (den_xfree a E x 0). lra.
Qed.

Lemma wrapped_list_app : forall fn l1 l2 b l',
  wrapped_list fn (l1 ++ l2) = Ret (b, l') ->
  exists b1 l1' b2 l2', wrapped_list fn l1 = Ret (b1, l1') /\ wrapped_list fn l2 = Ret (b2, l2') /\
    l' = l1' ++ l2'.
Proof.
  intros fn. induction l1 as [|a l1 IH]; intros l2 b l' H.
  - simpl in H. exists false, [], b, l'. auto.
  - simpl in H. destruct (wrapped fn a) as [[ba a']|] eqn:E; [|discriminate].
    destruct (wrapped_list fn (l1 ++ l2)) as [[bb ll]|] eqn:El; inversion H; subst.
    apply IH in El. destruct El as [b1 [l1' [b2 [l2' [E1 [E2 ->]]]]]].
    exists (ba || b1)%bool, (a' :: l1'), b2, l2'. simpl. rewrite E, E1. auto.
Qed.

Lemma wrapped_list_mono : forall l, Forall monomial l ->
  wrapped_list add_const_simplify l = Ret (false, l).
Proof.
  intros l H. induction H as [|a l Ha Hl IH]; auto. simpl.
  rewrite (wrapped_nothing _ a (mono_no_add a Ha)), IH. reflexivity.
Qed.

Lemma add_const_shift : forall e, linf e -> nosq e -> no_square_of_sum e ->
  forall b e', wrapped add_const_simplify e = Ret (b, e') -> shifted e e' /\ no_square_of_sum e'.
Proof.
  induction e as [h args IH] using expr_ind'. intros Hl Hsq Hns b e' H.
  assert (Hsub : forall a, In a args -> no_square_of_sum a).
  { intros a Ha s Hs. apply Hns. econstructor; eauto. }
  assert (Hsqa : Forall nosq args) by (unfold nosq in Hsq; apply allh_args in Hsq; tauto).
  rewrite wrapped_eq in H.
  inversion Hl as [e Hm|args0 Hargs|l1 m l2 Hm Hc|m Hm|ms Hms|q ms Hq Hms|m Hm|t m Ht Hm]; subst.
  - rewrite <- wrapped_eq in H. rewrite (wrapped_nothing _ _ (mono_no_add _ Hm)) in H.
    inversion H; subst. split; auto. now apply shifted_refl.
  - (* sum *)
    unfold add_const_simplify in H at 1. cbn [is_sym sym_eqb args_of] in H.
    destruct (existsb (fun i => negb (contains_x i)) args) eqn:E.
    + inversion H; subst. clear H. destruct (filter_x_den args) as [c Hc]. split.
      * refine (conj _ (conj _ (conj _ _))).
        -- apply lf_add. now apply Forall_filter.
        -- intros _. unfold nosq. apply allh_args. split; [discriminate|]. now apply Forall_filter.
        -- intros x [H _]. split; [|exact I]. apply all_Forall. apply all_Forall in H. now apply Forall_filter.
        -- exists c. intros x. rewrite !den_node. apply Hc.
      * intros s Hs. inversion Hs as [|h' args' a Ha Hsa]; subst; [reflexivity|].
        apply filter_In in Ha. destruct Ha as [Ha _]. eapply Hsub; eauto.
    + clear E. destruct (wrapped_list add_const_simplify args) as [[b1 args']|] eqn:El; inversion H; subst.
      clear H.
      assert (Hres : Forall linf args' /\ Forall nosq args' /\ Forall no_square_of_sum args' /\
        (forall x, Forall (dom ti en x) args -> Forall (dom ti en x) args') /\
        exists c, forall x, rsum (map (den en x) args) = rsum (map (den en x) args') + c).
      { clear Hl Hsq Hns. revert b args' El. induction IH as [|a l Ha Hl IHl]; intros b args' El.
        - simpl in El. inversion El; subst. repeat split; auto. exists 0. intros; simpl; lra.
        - simpl in El. destruct (wrapped add_const_simplify a) as [[ba a']|] eqn:Ea; [|discriminate].
          destruct (wrapped_list add_const_simplify l) as [[bb ll]|] eqn:Ell; inversion El; subst.
          inversion Hargs; subst. inversion Hsqa; subst.
          destruct (Ha H1 H3 (Hsub a (or_introl eq_refl)) _ _ eq_refl) as [[S1 [S2 [S3 [c S4]]]] S5].
          destruct (IHl (fun b Hb => Hsub b (or_intror Hb)) H4 H2 _ _ eq_refl) as [T1 [T2 [T3 [T4 [c' T5]]]]].
          repeat split; auto.
          + intros x HF. inversion HF; subst. constructor; auto.
          + exists (c + c'). intros x. cbn [map]. rewrite !rsum_cons, S4, T5. lra. }
      destruct Hres as [T1 [T2 [T3 [T4 [c T5]]]]]. split.
      * refine (conj _ (conj _ (conj _ _))).
        -- now apply lf_add.
        -- intros _. unfold nosq. apply allh_args. split; [discriminate|auto].
        -- intros x [H _]. split; [|exact I]. apply all_Forall. apply all_Forall in H. auto.
        -- exists c. intros x. rewrite !den_node. apply T5.
      * intros s Hs. inversion Hs as [|h' args'' a Ha Hsa]; subst; [reflexivity|].
        rewrite Forall_forall in T3. eapply T3; eauto.
  - (* product *)
    unfold add_const_simplify in H at 1. cbn [is_sym sym_eqb] in H.
    destruct (wrapped_list add_const_simplify (l1 ++ m :: l2)) as [[b1 args']|] eqn:El; inversion H; subst.
    clear H. apply wrapped_list_app in El.
    destruct El as [b1 [l1' [b2 [l2' [E1 [E2 ->]]]]]].
    apply Forall_app in Hc. destruct Hc as [Hc1 Hc2].
    rewrite wrapped_list_mono in E1 by (eapply Forall_impl; [|exact Hc1]; simpl; tauto).
    inversion E1; subst. clear E1. simpl in E2.
    destruct (wrapped add_const_simplify m) as [[bm m']|] eqn:Em; [|discriminate].
    rewrite wrapped_list_mono in E2 by (eapply Forall_impl; [|exact Hc2]; simpl; tauto).
    inversion E2; subst. clear E2.
    rewrite Forall_forall in IH.
    assert (Hin : In m (l1' ++ m :: l2)) by (apply in_or_app; right; now left).
    apply Forall_app in Hsqa. destruct Hsqa as [Hsq1 Hsq2]. inversion Hsq2; subst.
    destruct (IH m Hin Hm H1 (Hsub m Hin) _ _ Em) as [[S1 [S2 [S3 [c S4]]]] S5].
    split.
    + refine (conj _ (conj _ (conj _ _))).
      * apply lf_mul; auto. apply Forall_app; auto.
      * intros _. unfold nosq. apply allh_args. split; [discriminate|]. apply Forall_app.
        split; [exact Hsq1|constructor; [exact (S2 H1)|assumption]].
      * intros x [H _]. split; [|exact I]. apply all_Forall. apply all_Forall in H. apply Forall_app in H.
        destruct H as [D1 D2]. inversion D2; subst. apply Forall_app. split; auto.
      * exists (rprod (map (den en 0) (l1' ++ l2)) * c). intros x.
        assert (Hcst : forall l, Forall cst l -> map (den en x) l = map (den en 0) l).
        { intros l Hl'. apply map_ext_in. intros a Ha. rewrite Forall_forall in Hl'.
          apply den_xfree. apply Hl'. auto. }
        rewrite !den_node. cbn [op_val]. rewrite !map_app. cbn [map]. rewrite !rprod_app, !rprod_cons.
        rewrite (Hcst l1' Hc1), (Hcst l2 Hc2), S4. ring.
    + intros s Hs. inversion Hs as [|h' args'' a Ha Hsa]; subst; [reflexivity|].
      apply in_app_or in Ha. destruct Ha as [Ha|[<-|Ha]].
      * apply (Hsub a); auto. apply in_or_app. auto.
      * apply S5. auto.
      * apply (Hsub a); auto. apply in_or_app. right. now right.
  - (* logarithm *)
    unfold add_const_simplify in H at 1. cbn [is_sym sym_eqb] in H.
    rewrite wrapped_list_mono in H by auto. inversion H; subst. split; auto. now apply shifted_refl.
  - (* square: excluded *)
    unfold nosq in Hsq. apply allh_args in Hsq. destruct Hsq as [Hsq _]. congruence.
  - (* second power of a sum: excluded *)
    exfalso. specialize (Hns _ (sub_refl _)). unfold square_add_simplify in Hns.
    apply Qeq_eq_bool in Hq. rewrite Hq in Hns. discriminate.
  - (* identity *)
    unfold add_const_simplify in H at 1. cbn [is_sym sym_eqb wrapped_list] in H.
    destruct (wrapped add_const_simplify m) as [[bm m']|] eqn:Em; inversion H; subst. clear H.
    inversion IH as [|? ? IHm _]; subst. inversion Hsqa; subst.
    destruct (IHm Hm H1 (Hsub m (or_introl eq_refl)) _ _ Em) as [[S1 [S2 [S3 [c S4]]]] S5].
    split.
    + refine (conj _ (conj _ (conj _ _))).
      * now apply lf_identity.
      * intros _. unfold nosq. apply allh_args. split; [discriminate|constructor; [now apply S2|constructor]].
      * intros x [[H _] _]. split; [|exact I]. split; [apply S3; exact H|exact I].
      * exists c. intros x. simpl. apply S4.
    + intros s Hs. inversion Hs as [|h' args'' a Ha Hsa]; subst; [reflexivity|].
      destruct Ha as [<-|[]]. auto.
  - (* cast *)
    unfold add_const_simplify in H at 1. cbn [is_sym wrapped_list] in H.
    destruct (wrapped add_const_simplify m) as [[bm m']|] eqn:Em; inversion H; subst. clear H.
    inversion IH as [|? ? IHm _]; subst. inversion Hsqa; subst.
    destruct (IHm Hm H1 (Hsub m (or_introl eq_refl)) _ _ Em) as [[S1 [S2 [S3 [c S4]]]] S5].
    split.
    + refine (conj _ (conj _ (conj _ _))).
      * now apply lf_cast.
      * intros _. unfold nosq. apply allh_args. split; [discriminate|constructor; [now apply S2|constructor]].
      * intros x [[H _] _]. split; [|exact I]. split; [apply S3; exact H|exact I].
      * exists c. intros x. simpl. destruct Hen as [Hc _]. rewrite !(Hc t _ _ Ht). apply S4.
    + intros s Hs. inversion Hs as [|h' args'' a Ha Hsa]; subst; [reflexivity|].
      destruct Ha as [<-|[]]. auto.
Qed.

Lemma shifted_trans : forall a b c, shifted a b -> shifted b c -> shifted a c.
Proof.
  intros a b c [A1 [A2 [A3 [k1 A4]]]] [B1 [B2 [B3 [k2 B4]]]].
  repeat split; auto. exists (k1 + k2). intros x. rewrite A4, B4. lra.
Qed.

Lemma add_const_pw : forall e b e', wrapped add_const_simplify e = Ret (b, e') -> pw_le e e'.
Proof.
  intros e0 b0 e0' H0.
  refine (wrapped_closure pw_le pw_cong add_const_simplify _ e0 b0 e0' H0).
  clear. intros e e' H. unfold add_const_simplify in H.
  destruct (is_sym SAdd e) eqn:E; [|discriminate].
  destruct (existsb _ (args_of e)); inversion H; subst. apply is_sym_inv in E. rewrite E.
  intros n Hn Hp. apply pw_args in Hp. apply pw_sym_intro; try discriminate. now apply Forall_filter.
Qed.

Lemma repeat_add_const : forall fuel did e d e',
  repeat_wrapped fuel add_const_simplify did e = Some (Ret (d, e')) ->
  linf e -> nosq e -> no_square_of_sum e -> shifted e e' /\ pw_le e e'.
Proof.
  induction fuel as [|f IH]; intros did e d e' H Hl Hsq Hns; [discriminate|].
  simpl in H. destruct (wrapped add_const_simplify e) as [[b e1]|] eqn:E; [|discriminate].
  destruct (add_const_shift e Hl Hsq Hns _ _ E) as [S1 S2].
  pose proof (add_const_pw _ _ _ E) as P1.
  destruct b.
  - destruct S1 as [L [N [D C]]].
    destruct (IH _ _ _ _ H L (N Hsq) S2) as [S3 P3]. split.
    + eapply shifted_trans; eauto. repeat split; auto.
    + unfold pw_le in *. auto.
  - inversion H; subst. auto.
Qed.

(** ** A sweep and the whole simplification *)

Definition shift_step (e e' : expr) : Prop :=
  linf e -> powers_within 7 e ->
  linf e' /\ powers_within 7 e' /\
  exists c, forall x, dom ti en x e -> dom ti en x e' /\ den en x e = den en x e' + c.

Lemma shift_step_trans : forall a b c, shift_step a b -> shift_step b c -> shift_step a c.
Proof.
  intros a b c H1 H2 L P. destruct (H1 L P) as [L1 [P1 [c1 C1]]].
  destruct (H2 L1 P1) as [L2 [P2 [c2 C2]]]. split; auto. split; auto.
  exists (c1 + c2). intros x D. destruct (C1 x D) as [D1 E1]. destruct (C2 x D1) as [D2 E2].
  split; auto. lra.
Qed.

Lemma good_exact_step : forall e e', good e e' -> exact e e' -> shift_step e e'.
Proof.
  intros e e' G [P E] L Pw. split; [now apply (g_lin _ _ G)|]. split; [apply P; auto|].
  exists 0. intros x D. destruct (E Pw x D) as [D1 [D2 _]]. split; auto. lra.
Qed.

Lemma sweep_others : forall fns, (forall fn, In fn fns -> In fn (other_fns ti)) ->
  forall fuel did e d e', sweep fuel fns did e = Some (Ret (d, e')) -> good e e' /\ exact e e'.
Proof.
  induction fns as [|fn fns IH]; intros Hin fuel did e d e' H.
  - simpl in H. inversion H; subst. split; [apply good_refl|apply exact_refl].
  - simpl in H. destruct (repeat_wrapped fuel fn false e) as [[[d1 e1]|]|] eqn:E; try discriminate.
    apply repeat_other in E; [|apply Hin; now left]. destruct E as [[G X] _].
    apply IH in H; [|intros; apply Hin; now right]. destruct H as [G2 X2].
    split; [eapply good_trans; eauto|eapply exact_trans; eauto].
Qed.

Lemma sweep_app : forall fns1 fns2 fuel did e r,
  sweep fuel (fns1 ++ fns2) did e = Some (Ret r) ->
  exists d1 e1, sweep fuel fns1 did e = Some (Ret (d1, e1)) /\ sweep fuel fns2 d1 e1 = Some (Ret r).
Proof.
  induction fns1 as [|fn fns IH]; intros fns2 fuel did e r H.
  - exists did, e. auto.
  - simpl in H |- *. destruct (repeat_wrapped fuel fn false e) as [[[d1 e1]|]|]; try discriminate.
    apply IH in H. exact H.
Qed.

Lemma power_normal_nosq : forall e, (forall s, subexpr s e -> power_op_simplify s = Nothing) -> nosq e.
Proof.
  induction e as [h args IH] using expr_ind'. intros H. unfold nosq. apply allh_args. split.
  - intros ->. specialize (H _ (sub_refl _)). discriminate H.
  - rewrite Forall_forall in *. intros a Ha. apply IH; auto. intros s Hs. apply H. econstructor; eauto.
Qed.

Lemma sweep_step : forall fuel e d e',
  sweep fuel (simplify_fns ti) false e = Some (Ret (d, e')) -> shift_step e e'.
Proof.
  intros fuel e d e' H.
  change (simplify_fns ti) with
    ([identity_op_simplify] ++ [power_op_simplify] ++
     [pow_simplify; log_pow_simplify; log_mul_simplify; pow_mul_simplify; mul_add_simplify;
      add_add_simplify; mul_mul_simplify; mul_one_simplify; add_zero_simplify; mul_zero_simplify] ++
     [square_add_simplify] ++ [add_const_simplify] ++
     [one_m_simplify ti; cast_simplify ti; onehot_simplify]) in H.
  apply sweep_app in H. destruct H as [d1 [e1 [H1 H]]].
  apply sweep_app in H. destruct H as [d2 [e2 [H2 H]]].
  apply sweep_app in H. destruct H as [d3 [e3 [H3 H]]].
  apply sweep_app in H. destruct H as [d4 [e4 [H4 H]]].
  apply sweep_app in H. destruct H as [d5 [e5 [H5 H]]].
  apply sweep_others in H1; [|intros fn Hf; unfold other_fns; simpl in *; tauto].
  apply sweep_others in H3; [|intros fn Hf; unfold other_fns; simpl in *; tauto].
  apply sweep_others in H; [|intros fn Hf; unfold other_fns; simpl in *; tauto].
  simpl in H2. destruct (repeat_wrapped fuel power_op_simplify false e1) as [[[x2 y2]|]|] eqn:E2; try discriminate.
  inversion H2; subst. apply repeat_other in E2; [|unfold other_fns; simpl; tauto].
  destruct E2 as [[G2 X2] N2].
  simpl in H4. destruct (repeat_wrapped fuel square_add_simplify false e3) as [[[x4 y4]|]|] eqn:E4; try discriminate.
  inversion H4; subst. apply repeat_other in E4; [|unfold other_fns; simpl; tauto].
  destruct E4 as [[G4 X4] N4].
  simpl in H5. destruct (repeat_wrapped fuel add_const_simplify false e4) as [[[x5 y5]|]|] eqn:E5; try discriminate.
  inversion H5; subst.
  destruct H1 as [G1 X1]. destruct H3 as [G3 X3]. destruct H as [G6 X6].
  assert (Hpre : good e e4 /\ exact e e4).
  { split; [eapply good_trans; [exact G1|]; eapply good_trans; [exact G2|]; eapply good_trans; [exact G3|exact G4]|].
    eapply exact_trans; [exact X1|]; eapply exact_trans; [exact X2|]; eapply exact_trans; [exact X3|exact X4]. }
  destruct Hpre as [Gp Xp].
  eapply shift_step_trans; [apply good_exact_step; eassumption|].
  eapply shift_step_trans; [|apply good_exact_step; eassumption].
  intros L P.
  assert (Hsq : nosq e4).
  { apply (g_sq _ _ G4). apply (g_sq _ _ G3). now apply power_normal_nosq. }
  destruct (repeat_add_const _ _ _ _ _ E5 L Hsq N4) as [[S1 [S2 [S3 [c S4]]]] S5].
  split; auto. split; [apply S5; auto|]. exists c. intros x D. split; auto.
Qed.

Lemma full_step : forall fuel e e',
  full_simplify ti fuel e = Some (Ret e') -> shift_step e e'.
Proof.
  unfold full_simplify. induction fuel as [|f IH]; intros e e' H; [discriminate|].
  cbn [full_simplify_with] in H.
  destruct (sweep (S f) (simplify_fns ti) false e) as [[[d e1]|]|] eqn:E; try discriminate.
  apply sweep_step in E. destruct d.
  - eapply shift_step_trans; eauto.
  - inversion H; subst. auto.
Qed.
End Lin.

Lemma full_simplify_sound : forall ti en e e' fuel (X : R -> Prop),
  env_ok ti en -> linear_form ti e -> powers_within 7 e ->
  (forall x, X x -> dom ti en x e) ->
  full_simplify ti fuel e = Some (Ret e') ->
  same_up_to_constant en X e e'.
Proof.
  intros ti en e e' fuel X Hen Hl Hp Hd H.
  destruct (full_step ti en Hen fuel e e' H Hl Hp) as [_ [_ [c Hc]]].
  exists c. intros x Hx. apply Hc. auto.
Qed.

Lemma rules_exact : forall ti en fn e e' x,
  env_ok ti en -> In fn (simplify_fns ti) -> fn <> add_const_simplify ->
  powers_within 7 e -> dom ti en x e -> fn e = Rewrites e' ->
  dom ti en x e' /\ den en x e' = den en x e.
Proof.
  intros ti en fn e e' x Hen Hin Hne Hp Hd H.
  assert (Hin' : In fn (other_fns ti)).
  { unfold simplify_fns, other_fns in *. simpl in *.
    repeat (destruct Hin as [<-|Hin]; [first [congruence|tauto]|]). destruct Hin. }
  destruct (rw_sound ti en Hen x e e' (fn_rw ti fn e e' Hin' H) Hp Hd) as [D1 [D2 _]]. auto.
Qed.
