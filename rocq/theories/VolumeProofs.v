(** * Iterated integrals of continuous functions with bounded support. *)
From Coquelicot Require Import Coquelicot.
From Coq Require Import Reals Lra Lia List Arith Psatz.
From Verif Require Import VolumeSpec.
Import ListNotations.
Local Open Scope R_scope.

(** ** One and two variables *)
Ltac in_R := match goal with |- @eq _ ?a ?b => change (@eq R a b) end.

Definition uc1 (u : R -> R) : Prop := forall eps, 0 < eps -> exists d, 0 < d /\ forall x y, Rabs (x - y) < d -> Rabs (u x - u y) < eps.

Lemma uc1_continuous : forall u x, uc1 u -> continuous u x.
Proof.
  intros u x H. apply continuity_pt_filterlim. intros eps He. destruct (H eps He) as [d [Hd E]].
  exists d. split; [exact Hd|]. intros y [_ Hy]. apply E. exact Hy.
Qed.
Lemma uc1_ex : forall u a b, uc1 u -> ex_RInt u a b.
Proof. intros u a b H. apply (ex_RInt_continuous (V := R_CompleteNormedModule)). intros z _. now apply uc1_continuous. Qed.

Lemma RInt_zero : forall (u : R -> R) a b, (forall x, Rmin a b < x < Rmax a b -> u x = 0) -> RInt u a b = 0.
Proof.
  intros u a b H. rewrite (RInt_ext u (fun _ => 0)) by exact H. rewrite RInt_const.
  change ((b - a) * 0 = 0). ring.
Qed.

Lemma RInt_chasles3 : forall u a b c, uc1 u -> RInt u a b + RInt u b c = RInt u a c.
Proof. intros u a b c H. apply (RInt_Chasles (V := R_CompleteNormedModule)); apply uc1_ex; exact H. Qed.

(** An integral over more than the support. *)
Lemma RInt_wider : forall u a b a' b', uc1 u -> a <= b -> a' <= a -> b <= b' ->
  (forall x, x < a \/ b < x -> u x = 0) -> RInt u a' b' = RInt u a b.
Proof.
  intros u a b a' b' H Hab Ha Hb Hz.
  rewrite <- (RInt_chasles3 u a' a b' H), <- (RInt_chasles3 u a b b' H).
  rewrite (RInt_zero u a' a), (RInt_zero u b b'); [in_R; ring| |].
  - intros x. rewrite Rmin_left, Rmax_right by lra. intros. apply Hz. lra.
  - intros x. rewrite Rmin_left, Rmax_right by lra. intros. apply Hz. lra.
Qed.

Lemma uc1_comp : forall u c s, Rabs s = 1 -> uc1 u -> uc1 (fun x => u (s * x + c)).
Proof.
  intros u c s Hs H eps He. destruct (H eps He) as [d [Hd E]]. exists d. split; [exact Hd|].
  intros x y Hxy. apply E. replace (s * x + c - (s * y + c)) with (s * (x - y)) by ring. rewrite Rabs_mult, Hs. lra.
Qed.

Lemma RInt_translate : forall u M c, uc1 u -> 0 <= M -> (forall x, M < Rabs x -> u x = 0) ->
  (forall x, M < Rabs x -> u (x + c) = 0) -> RInt (fun x => u (x + c)) (- M) M = RInt u (- M) M.
Proof.
  intros u M c H HM Hz Hz'.
  assert (E : RInt (fun x => u (x + c)) (- M) M = RInt u (- M + c) (M + c)).
  { pose proof (RInt_comp_lin (V := R_CompleteNormedModule) u 1 c (- M) M) as K.
    replace (1 * - M + c) with (- M + c) in K by ring. replace (1 * M + c) with (M + c) in K by ring.
    rewrite <- K by (apply uc1_ex; exact H). apply RInt_ext. intros x _.
    change (u (x + c) = 1 * u (1 * x + c)). rewrite !Rmult_1_l. reflexivity. }
  rewrite E. set (L := M + Rabs c).
  assert (HL : Rabs c >= 0) by (apply Rle_ge, Rabs_pos).
  assert (Hc : - Rabs c <= c <= Rabs c) by (unfold Rabs; destruct (Rcase_abs c); lra).
  assert (W : RInt u (- L) L = RInt u (- M) M).
  { apply RInt_wider; auto; try (unfold L; lra). intros x Hx. apply Hz. destruct Hx; [rewrite Rabs_left by lra|rewrite Rabs_right by lra]; lra. }
  rewrite <- W.
  symmetry. apply RInt_wider; auto; try (unfold L; lra).
  intros x Hx. replace x with ((x - c) + c) by ring. apply Hz'.
  destruct Hx; [rewrite Rabs_left by lra|rewrite Rabs_right by lra]; lra.
Qed.

Lemma RInt_mirror : forall u M, uc1 u -> RInt (fun x => u (- x)) (- M) M = RInt u (- M) M.
Proof.
  intros u M H. pose proof (RInt_comp_lin (V := R_CompleteNormedModule) u (-1) 0 (- M) M) as K.
  replace (-1 * - M + 0) with M in K by ring. replace (-1 * M + 0) with (- M) in K by ring.
  specialize (K (uc1_ex u M (- M) H)).
  assert (E : RInt (fun x => u (- x)) (- M) M = - RInt (fun y => scal (-1) (u (-1 * y + 0))) (- M) M).
  { transitivity (RInt (fun y => opp (scal (-1) (u (-1 * y + 0)))) (- M) M).
    - apply RInt_ext. intros x _. change (u (- x) = - (-1 * u (-1 * x + 0))). replace (-1 * x + 0) with (- x) by ring. ring.
    - apply (RInt_opp (V := R_CompleteNormedModule)). apply (ex_RInt_scal (V := R_NormedModule)).
      apply (uc1_ex (fun x => u (-1 * x + 0))). apply uc1_comp; auto. rewrite Rabs_left; lra. }
  refine (eq_trans E (eq_trans (f_equal Ropp K) _)).
  apply (opp_RInt_swap (V := R_CompleteNormedModule)). apply uc1_ex; exact H.
Qed.

Definition uc2 (g : R -> R -> R) : Prop := forall eps, 0 < eps -> exists d, 0 < d /\
  forall x y x' y', Rabs (x - x') < d -> Rabs (y - y') < d -> Rabs (g x y - g x' y') < eps.

Lemma uc2_l : forall g y, uc2 g -> uc1 (fun x => g x y).
Proof.
  intros g y H eps He. destruct (H eps He) as [d [Hd E]]. exists d. split; [exact Hd|]. intros. apply E; auto.
  rewrite Rminus_eq_0, Rabs_R0. exact Hd.
Qed.
Lemma uc2_r : forall g x, uc2 g -> uc1 (g x).
Proof.
  intros g x H eps He. destruct (H eps He) as [d [Hd E]]. exists d. split; [exact Hd|]. intros. apply E; auto.
  rewrite Rminus_eq_0, Rabs_R0. exact Hd.
Qed.
Lemma uc2_swap : forall g, uc2 g -> uc2 (fun x y => g y x).
Proof. intros g H eps He. destruct (H eps He) as [d [Hd E]]. exists d. split; [exact Hd|]. intros. apply E; auto. Qed.

Lemma RInt_diff_bound : forall u v a b e, a <= b -> uc1 u -> uc1 v -> (forall x, a <= x <= b -> Rabs (u x - v x) <= e) ->
  Rabs (RInt u a b - RInt v a b) <= (b - a) * e.
Proof.
  intros u v a b e Hab Hu Hv He.
  replace (RInt u a b - RInt v a b) with (RInt (fun x => minus (u x) (v x)) a b) by
    (apply (RInt_minus (V := R_CompleteNormedModule)); apply uc1_ex; auto).
  apply abs_RInt_le_const; auto. apply (ex_RInt_minus (V := R_NormedModule)); apply uc1_ex; auto.
Qed.

Lemma uc2_RInt : forall g a b, a <= b -> uc2 g -> uc1 (fun x => RInt (g x) a b).
Proof.
  intros g a b Hab H eps He. destruct (H (eps / (b - a + 1))) as [d [Hd E]].
  { apply Rdiv_lt_0_compat; lra. }
  exists d. split; [exact Hd|]. intros x y Hxy.
  apply Rle_lt_trans with ((b - a) * (eps / (b - a + 1))).
  - apply RInt_diff_bound; auto using uc2_r. intros t Ht. apply Rlt_le, E; auto. rewrite Rminus_eq_0, Rabs_R0. exact Hd.
  - apply Rmult_lt_reg_r with (b - a + 1); [lra|]. replace ((b - a) * (eps / (b - a + 1)) * (b - a + 1)) with ((b - a) * eps) by (field; lra). nra.
Qed.

Lemma fubini : forall g a b c d, a <= b -> c <= d -> uc2 g ->
  RInt (fun x => RInt (g x) c d) a b = RInt (fun y => RInt (fun x => g x y) a b) c d.
Proof.
  intros g a b c d Hab Hcd H.
  set (F := fun t => RInt (fun x => RInt (g x) c d) a t).
  set (G := fun t => RInt (fun y => RInt (fun x => g x y) a t) c d).
  assert (DF : forall t, is_derive F t (RInt (g t) c d)).
  { intros t. apply (is_derive_RInt (V := R_NormedModule) (fun x => RInt (g x) c d) F a t).
    - exists (mkposreal 1 Rlt_0_1). intros y _. apply (RInt_correct (V := R_CompleteNormedModule)). apply uc1_ex. now apply uc2_RInt.
    - apply uc1_continuous. now apply uc2_RInt. }
  assert (DI : forall y t, is_derive (fun t => RInt (fun x => g x y) a t) t (g t y)).
  { intros y t. apply (is_derive_RInt (V := R_NormedModule) (fun x => g x y) (fun t => RInt (fun x => g x y) a t) a t).
    - exists (mkposreal 1 Rlt_0_1). intros z _. apply (RInt_correct (V := R_CompleteNormedModule)). apply uc1_ex. now apply uc2_l.
    - apply (uc1_continuous (fun x => g x y)). now apply uc2_l. }
  assert (EX : forall t, ex_RInt (fun y => RInt (fun x => g x y) a t) c d).
  { intros t. destruct (Rle_dec a t) as [Hat|Hat].
    - apply uc1_ex. apply (uc2_RInt (fun y x => g x y)); auto. now apply uc2_swap.
    - apply (ex_RInt_ext (fun y => - RInt (fun x => g x y) t a)).
      + intros y _. apply (opp_RInt_swap (V := R_CompleteNormedModule)). apply uc1_ex. now apply uc2_l.
      + apply (ex_RInt_opp (V := R_NormedModule)). apply uc1_ex. apply (uc2_RInt (fun y x => g x y)); [lra|]. now apply uc2_swap. }
  assert (DG : forall t, is_derive G t (RInt (g t) c d)).
  { intros t. replace (RInt (g t) c d) with (RInt (fun y => Derive (fun u => RInt (fun x => g x y) a u) t) c d).
    - apply (is_derive_RInt_param (fun t y => RInt (fun x => g x y) a t) c d t).
      + exists (mkposreal 1 Rlt_0_1). intros z _ y _. eexists. apply DI.
      + intros y _ eps. destruct (H eps (cond_pos eps)) as [e [He E]]. exists (mkposreal e He). intros u v Hu Hv.
        apply Rle_lt_trans with (Rabs (g u v - g t y)); [right|apply E; auto].
        apply (f_equal Rabs), (f_equal2 Rminus); [exact (is_derive_unique _ _ _ (DI v u))|exact (is_derive_unique _ _ _ (DI y t))].
      + exists (mkposreal 1 Rlt_0_1). intros z _. apply EX.
    - apply RInt_ext. intros y _. apply is_derive_unique, DI. }
  destruct (Req_dec a b) as [<-|Hn].
  { transitivity 0; [apply (RInt_point (V := R_CompleteNormedModule))|]. symmetry. apply RInt_zero. intros y _. apply (RInt_point (V := R_CompleteNormedModule)). }
  change (F b = G b).
  assert (K : F a - G a = F b - G b).
  { apply (eq_is_derive (V := R_NormedModule) (fun t => F t - G t) a b); [|lra]. intros t _.
    replace (@zero R_NormedModule) with (minus (RInt (g t) c d) (RInt (g t) c d)) by (apply (minus_eq_zero (G := R_AbelianGroup))).
    apply (is_derive_minus (K := R_AbsRing) (V := R_NormedModule) F G); auto. }
  assert (Fa : F a = 0) by (unfold F; apply (RInt_point (V := R_CompleteNormedModule))).
  assert (Ga : G a = 0) by (unfold G; apply RInt_zero; intros y _; apply (RInt_point (V := R_CompleteNormedModule))).
  lra.
Qed.

(** ** Any number of variables *)
Definition ucn (n : nat) (f : list R -> R) : Prop := forall eps, 0 < eps -> exists d, 0 < d /\
  forall x y, length x = n -> length y = n -> close d x y -> Rabs (f x - f y) < eps.
Definition tst (n : nat) (M : R) (f : list R -> R) : Prop :=
  0 <= M /\ ucn n f /\ (forall x, length x = n -> ~ cube M x -> f x = 0).
Notation J := cube_integral.

Lemma close_refl : forall d x, 0 < d -> close d x x.
Proof. intros d x Hd. induction x; constructor; auto. rewrite Rminus_eq_0, Rabs_R0. exact Hd. Qed.
Lemma close_mono : forall d d' x y, d <= d' -> close d x y -> close d' x y.
Proof. intros d d' x y Hd H. induction H; constructor; auto. lra. Qed.
Lemma close_sym : forall d x y, close d x y -> close d y x.
Proof. intros d x y H. induction H; constructor; auto. rewrite Rabs_minus_sym. auto. Qed.
Lemma cube_mono : forall M M' x, M <= M' -> cube M x -> cube M' x.
Proof. intros M M' x H Hx. induction Hx; constructor; auto. lra. Qed.
Lemma cube_dec : forall M x, {cube M x} + {~ cube M x}.
Proof. intros M x. apply Forall_dec. intros a. apply Rle_dec. Qed.
Lemma cube_close : forall M d x y, cube M x -> close d x y -> cube (M + d) y.
Proof.
  intros M d x y Hx H. induction H; [constructor|]. inversion Hx; subst. constructor; [|apply IHForall2; auto].
  replace y with (x - (x - y)) by ring. eapply Rle_trans; [apply Rabs_triang|]. rewrite Rabs_Ropp. lra.
Qed.

Lemma ucn_slice : forall n f a, ucn (S n) f -> ucn n (fun l => f (a :: l)).
Proof.
  intros n f a H eps He. destruct (H eps He) as [d [Hd E]]. exists d. split; [exact Hd|].
  intros x y Hx Hy C. apply E; cbn; auto. constructor; auto. rewrite Rminus_eq_0, Rabs_R0. exact Hd.
Qed.
Lemma tst_slice : forall n M f a, tst (S n) M f -> tst n M (fun l => f (a :: l)).
Proof.
  intros n M f a [HM [H Hz]]. split; [exact HM|]. split; [apply ucn_slice; exact H|].
  intros x Hx Hc. apply Hz; [cbn; auto|]. intros K. inversion K; auto.
Qed.
Lemma tst_far : forall n M f a l, tst (S n) M f -> M < Rabs a -> length l = n -> f (a :: l) = 0.
Proof. intros n M f a l [_ [_ Hz]] Ha Hl. apply Hz; [cbn; auto|]. intros K. inversion K; subst. lra. Qed.

Lemma ucn_lin : forall n f g a b, ucn n f -> ucn n g -> ucn n (fun x => a * f x + b * g x).
Proof.
  intros n f g a b Hf Hg eps He.
  set (A := Rabs a + 1). set (B := Rabs b + 1).
  assert (HA : 0 < A) by (unfold A; pose proof (Rabs_pos a); lra). assert (HB : 0 < B) by (unfold B; pose proof (Rabs_pos b); lra).
  destruct (Hf (eps / (2 * A))) as [d1 [H1 E1]]; [apply Rdiv_lt_0_compat; lra|].
  destruct (Hg (eps / (2 * B))) as [d2 [H2 E2]]; [apply Rdiv_lt_0_compat; lra|].
  exists (Rmin d1 d2). split; [apply Rmin_pos; auto|]. intros x y Hx Hy C.
  specialize (E1 x y Hx Hy (close_mono _ _ _ _ (Rmin_l _ _) C)). specialize (E2 x y Hx Hy (close_mono _ _ _ _ (Rmin_r _ _) C)).
  replace (a * f x + b * g x - (a * f y + b * g y)) with (a * (f x - f y) + b * (g x - g y)) by ring.
  eapply Rle_lt_trans; [apply Rabs_triang|]. rewrite !Rabs_mult.
  assert (K1 : Rabs a * Rabs (f x - f y) <= A * Rabs (f x - f y)) by (apply Rmult_le_compat_r; [apply Rabs_pos|unfold A; lra]).
  assert (K2 : Rabs b * Rabs (g x - g y) <= B * Rabs (g x - g y)) by (apply Rmult_le_compat_r; [apply Rabs_pos|unfold B; lra]).
  assert (K3 : A * Rabs (f x - f y) < eps / 2).
  { replace (eps / 2) with (A * (eps / (2 * A))) by (field; lra). apply Rmult_lt_compat_l; auto. }
  assert (K4 : B * Rabs (g x - g y) < eps / 2).
  { replace (eps / 2) with (B * (eps / (2 * B))) by (field; lra). apply Rmult_lt_compat_l; auto. }
  lra.
Qed.
Lemma tst_lin : forall n M f g a b, tst n M f -> tst n M g -> tst n M (fun x => a * f x + b * g x).
Proof.
  intros n M f g a b [HM [Hf Zf]] [_ [Hg Zg]]. split; [exact HM|]. split; [apply ucn_lin; auto|].
  intros x Hx Hc. rewrite Zf, Zg by auto. ring.
Qed.

Lemma J_ext : forall n M f g, (forall x, length x = n -> f x = g x) -> J M n f = J M n g.
Proof.
  induction n as [|n IH]; intros M f g H; cbn [cube_integral]; [apply H; reflexivity|].
  apply RInt_ext. intros x _. apply IH. intros l Hl. apply H. cbn. auto.
Qed.

Lemma J_facts : forall n M,
  (forall f g a b, tst n M f -> tst n M g -> J M n (fun x => a * f x + b * g x) = a * J M n f + b * J M n g) /\
  (forall f e, 0 <= e -> tst n M f -> (forall x, length x = n -> Rabs (f x) <= e) -> Rabs (J M n f) <= (2 * M) ^ n * e) /\
  (forall f, tst (S n) M f -> uc1 (fun x => J M n (fun l => f (x :: l)))).
Proof.
  induction n as [|n IH]; intros M.
  - split; [intros; reflexivity|]. split.
    + intros f e He Hf H. cbn. rewrite Rmult_1_l. apply H. reflexivity.
    + intros f [_ [H _]] eps He. destruct (H eps He) as [d [Hd E]]. exists d. split; [exact Hd|].
      intros x y Hxy. cbn. apply E; auto. repeat constructor. exact Hxy.
  - destruct (IH M) as [L [B U]].
    assert (L' : forall f g a b, tst (S n) M f -> tst (S n) M g -> J M (S n) (fun x => a * f x + b * g x) = a * J M (S n) f + b * J M (S n) g).
    { intros f g a b Hf Hg. cbn [cube_integral].
      transitivity (RInt (fun x => plus (scal a (J M n (fun l => f (x :: l)))) (scal b (J M n (fun l => g (x :: l))))) (- M) M).
      - apply RInt_ext. intros x _. apply (L (fun l => f (x :: l)) (fun l => g (x :: l))); apply tst_slice; auto.
      - rewrite (RInt_plus (V := R_CompleteNormedModule)) by (apply (ex_RInt_scal (V := R_NormedModule)), uc1_ex, U; auto).
        rewrite !(RInt_scal (V := R_CompleteNormedModule)) by (apply uc1_ex, U; auto). reflexivity. }
    assert (B' : forall f e, 0 <= e -> tst (S n) M f -> (forall x, length x = S n -> Rabs (f x) <= e) -> Rabs (J M (S n) f) <= (2 * M) ^ (S n) * e).
    { intros f e He Hf H. cbn [cube_integral]. destruct Hf as [HM Hf'].
      eapply Rle_trans; [apply (abs_RInt_le_const _ (- M) M ((2 * M) ^ n * e)); [lra|apply uc1_ex, U; split; auto|]|cbn; right; ring].
      intros t Ht. apply B; auto; [apply tst_slice; split; auto|]. intros l Hl. apply H. cbn. auto. }
    split; [exact L'|]. split; [exact B'|].
    intros f Hf eps He. destruct Hf as [HM [H Z]].
    set (V := (2 * M) ^ S n). assert (HV : 0 <= V) by (apply pow_le; lra).
    destruct (H (eps / (V + 1))) as [d [Hd E]]; [apply Rdiv_lt_0_compat; lra|]. exists d. split; [exact Hd|].
    intros x y Hxy.
    assert (Tx : tst (S n) M (fun l => f (x :: l))) by (apply tst_slice; split; auto).
    assert (Ty : tst (S n) M (fun l => f (y :: l))) by (apply tst_slice; split; auto).
    replace (J M (S n) (fun l => f (x :: l)) - J M (S n) (fun l => f (y :: l))) with
      (J M (S n) (fun l => 1 * f (x :: l) + (-1) * f (y :: l))) by (rewrite (L' (fun l => f (x :: l)) (fun l => f (y :: l))) by auto; ring).
    apply Rle_lt_trans with (V * (eps / (V + 1))).
    + apply B'; [apply Rlt_le, Rdiv_lt_0_compat; lra|apply tst_lin; auto|]. intros l Hl. left.
      replace (1 * f (x :: l) + -1 * f (y :: l)) with (f (x :: l) - f (y :: l)) by ring. apply E; cbn; auto.
      constructor; auto. now apply close_refl.
    + apply Rmult_lt_reg_r with (V + 1); [lra|]. replace (V * (eps / (V + 1)) * (V + 1)) with (V * eps) by (field; lra). nra.
Qed.
Lemma J_lin : forall n M f g a b, tst n M f -> tst n M g -> J M n (fun x => a * f x + b * g x) = a * J M n f + b * J M n g.
Proof. intros n M. apply (proj1 (J_facts n M)). Qed.
Lemma J_uc : forall n M f, tst (S n) M f -> uc1 (fun x => J M n (fun l => f (x :: l))).
Proof. intros n M. apply (proj2 (proj2 (J_facts n M))). Qed.

Lemma J_le : forall n M f g, tst n M f -> tst n M g -> (forall x, length x = n -> f x <= g x) -> J M n f <= J M n g.
Proof.
  induction n as [|n IH]; intros M f g Hf Hg H; cbn [cube_integral]; [apply H; reflexivity|].
  apply RInt_le; [destruct Hf; lra|apply uc1_ex, J_uc; auto|apply uc1_ex, J_uc; auto|].
  intros x _. apply IH; [apply tst_slice; auto|apply tst_slice; auto|]. intros l Hl. apply H. cbn; auto.
Qed.
Lemma J_zero : forall n M f, (forall x, length x = n -> f x = 0) -> J M n f = 0.
Proof.
  induction n as [|n IH]; intros M f H; cbn [cube_integral]; [apply H; reflexivity|]. apply RInt_zero. intros x _. apply IH.
  intros l Hl. apply H. cbn; auto.
Qed.
Lemma J_nonneg : forall n M f, tst n M f -> (forall x, length x = n -> 0 <= f x) -> 0 <= J M n f.
Proof.
  intros n M f Hf H. rewrite <- (J_zero n M (fun x => 0 * f x + 0 * f x)) by (intros; ring).
  apply J_le; auto. - apply tst_lin; auto. - intros x Hx. rewrite !Rmult_0_l. specialize (H x Hx). lra.
Qed.

Lemma tst_wider : forall n M M' f, M <= M' -> tst n M f -> tst n M' f.
Proof.
  intros n M M' f HM [H0 [Hu Hz]]. split; [lra|]. split; [exact Hu|]. intros x Hx Hc. apply Hz; auto.
  intros K. apply Hc. eapply cube_mono; eauto.
Qed.
Lemma J_wider : forall n M M' f, M <= M' -> tst n M f -> J M' n f = J M n f.
Proof.
  induction n as [|n IH]; intros M M' f HM Hf; [reflexivity|]. cbn [cube_integral].
  transitivity (RInt (fun x => J M n (fun l => f (x :: l))) (- M') M').
  - apply RInt_ext. intros x _. apply IH; auto. now apply tst_slice.
  - destruct Hf as [H0 Hf']. apply RInt_wider; try lra; [apply J_uc; split; auto|].
    intros x Hx. apply J_zero. intros l Hl. apply (tst_far n M f x l); auto; [split; auto|].
    destruct Hx; [rewrite Rabs_left by lra|rewrite Rabs_right by lra]; lra.
Qed.

(** ** Order of integration *)
Lemma J_uc2 : forall n M f, tst (S (S n)) M f -> uc2 (fun x y => J M n (fun l => f (x :: y :: l))).
Proof.
  intros n M f Hf eps He. destruct (J_facts n M) as [L [B _]]. destruct Hf as [HM [H Z]].
  set (V := (2 * M) ^ n). assert (HV : 0 <= V) by (apply pow_le; lra).
  destruct (H (eps / (V + 1))) as [d [Hd E]]; [apply Rdiv_lt_0_compat; lra|]. exists d. split; [exact Hd|].
  intros x y x' y' Hx Hy.
  assert (Tx : tst n M (fun l => f (x :: y :: l))) by (apply (tst_slice n M (fun l => f (x :: l))), tst_slice; split; auto).
  assert (Ty : tst n M (fun l => f (x' :: y' :: l))) by (apply (tst_slice n M (fun l => f (x' :: l))), tst_slice; split; auto).
  replace (J M n (fun l => f (x :: y :: l)) - J M n (fun l => f (x' :: y' :: l))) with
    (J M n (fun l => 1 * f (x :: y :: l) + (-1) * f (x' :: y' :: l))) by (rewrite (L (fun l => f (x :: y :: l)) (fun l => f (x' :: y' :: l))) by auto; ring).
  apply Rle_lt_trans with (V * (eps / (V + 1))).
  - apply B; [apply Rlt_le, Rdiv_lt_0_compat; lra|apply tst_lin; auto|]. intros l Hl. left.
    replace (1 * f (x :: y :: l) + -1 * f (x' :: y' :: l)) with (f (x :: y :: l) - f (x' :: y' :: l)) by ring. apply E; cbn; auto.
    constructor; auto. constructor; auto. now apply close_refl.
  - apply Rmult_lt_reg_r with (V + 1); [lra|]. replace (V * (eps / (V + 1)) * (V + 1)) with (V * eps) by (field; lra). nra.
Qed.

Lemma J_swap : forall n M f g, tst (S (S n)) M f -> (forall x y l, g (x :: y :: l) = f (y :: x :: l)) ->
  J M (S (S n)) g = J M (S (S n)) f.
Proof.
  intros n M f g Hf Hg. cbn [cube_integral].
  transitivity (RInt (fun x => RInt (fun y => J M n (fun l => f (y :: x :: l))) (- M) M) (- M) M).
  - apply RInt_ext. intros x _. apply RInt_ext. intros y _. apply J_ext. intros l _. apply Hg.
  - destruct Hf as [HM Hf']. apply (fubini (fun x y => J M n (fun l => f (y :: x :: l)))); try lra.
    apply (uc2_swap (fun x y => J M n (fun l => f (x :: y :: l)))). apply J_uc2. split; auto.
Qed.

(** Maps that only move entries about. *)
Definition rigid (n : nat) (T : list R -> list R) : Prop :=
  (forall x, length x = n -> length (T x) = n) /\ (forall d x y, length x = n -> length y = n -> close d x y -> close d (T x) (T y)) /\
  (forall M x, length x = n -> cube M x <-> cube M (T x)).
Lemma tst_rigid : forall n T M f, rigid n T -> tst n M f -> tst n M (fun x => f (T x)).
Proof.
  intros n T M f [L [C B]] [HM [H Z]]. split; [exact HM|]. split.
  - intros eps He. destruct (H eps He) as [d [Hd E]]. exists d. split; [exact Hd|]. intros x y Hx Hy K. apply E; auto.
  - intros x Hx Hc. apply Z; auto. intros K. apply Hc. apply B; auto.
Qed.

Definition rot (l : list R) : list R := match l with [] => [] | x :: l' => l' ++ [x] end.
Lemma rot_length : forall x, length (rot x) = length x.
Proof. intros [|x l]; cbn; auto. rewrite app_length. cbn. lia. Qed.
Lemma rot_close : forall d x y, close d x y -> close d (rot x) (rot y).
Proof. intros d x y H. destruct H; cbn; [constructor|]. apply Forall2_app; auto. Qed.
Lemma rot_cube : forall M x, cube M x <-> cube M (rot x).
Proof.
  intros M [|x l]; cbn; [reflexivity|]. unfold cube. rewrite Forall_app. split.
  - intros H. inversion H; subst. auto.
  - intros [A B]. inversion B; subst. constructor; auto.
Qed.
Lemma rot_rigid : forall n, rigid n rot.
Proof.
  intros n. unfold rigid. repeat apply conj; intros.
  - rewrite rot_length. assumption.
  - now apply rot_close.
  - apply rot_cube.
Qed.
Definition exch (l : list R) : list R := match l with x :: y :: l' => y :: x :: l' | _ => l end.
Lemma exch_cube : forall M x, cube M x -> cube M (exch x).
Proof. intros M [|x [|y l]] H; auto. inversion H as [|? ? H1 H2]; inversion H2; subst. constructor; [assumption|constructor; assumption]. Qed.
Lemma swap_rigid : forall n, rigid n exch.
Proof.
  intros n. unfold rigid. repeat apply conj.
  - intros [|x [|y l]]; cbn; auto.
  - intros d x y _ _ H. destruct H as [|a b x y H1 [|a' b' x' y' H2 H]]; cbn; [constructor|constructor; [auto|constructor]|constructor; [auto|constructor; auto]].
  - intros M x _. split; [apply exch_cube|]. intros H. apply exch_cube in H. destruct x as [|x [|y l]]; exact H.
Qed.

Lemma J_slices : forall n M f g, (forall x, J M n (fun l => f (x :: l)) = J M n (fun l => g (x :: l))) -> J M (S n) f = J M (S n) g.
Proof. intros n M f g H. cbn [cube_integral]. apply RInt_ext. intros x _. apply H. Qed.
Lemma J_rot : forall n M f, tst n M f -> J M n (fun x => f (rot x)) = J M n f.
Proof.
  induction n as [|n IH]; intros M f Hf; [reflexivity|].
  destruct n as [|n].
  { cbn [cube_integral]. apply RInt_ext. intros x _. reflexivity. }
  rewrite (J_swap n M (fun x => f (rot (exch x))) (fun x => f (rot x))).
  - apply J_slices. intros y. transitivity (J M (S n) (fun l => f (y :: rot l))).
    + apply J_ext. intros [|x l] Hl; [discriminate|]. reflexivity.
    + apply (IH M (fun l => f (y :: l))). apply tst_slice. exact Hf.
  - apply (tst_rigid _ exch M (fun x => f (rot x)) (swap_rigid _)).
    apply tst_rigid; [apply rot_rigid|exact Hf].
  - intros x y l. reflexivity.
Qed.

(** ** Translations *)
Definition plusl (a b : list R) : list R := map (fun p => fst p + snd p) (combine a b).
Lemma J_translate : forall n M f v, length v = n -> tst n M f -> tst n M (fun x => f (plusl x v)) ->
  J M n (fun x => f (plusl x v)) = J M n f.
Proof.
  induction n as [|n IH]; intros M f v Hv Hf Hg; [destruct v; [reflexivity|discriminate]|].
  destruct v as [|a v]; [discriminate|]. injection Hv as Hv. cbn [cube_integral].
  assert (S : forall x, J M n (fun l => f (plusl (x :: l) (a :: v))) = J M n (fun l => f ((x + a) :: l))).
  { intros x. apply (IH M (fun l => f ((x + a) :: l)) v Hv); [apply tst_slice; exact Hf|].
    exact (tst_slice n M _ x Hg). }
  transitivity (RInt (fun x => J M n (fun l => f ((x + a) :: l))) (- M) M).
  { apply RInt_ext. intros x _. apply S. }
  apply (RInt_translate (fun x => J M n (fun l => f (x :: l))) M a); [apply J_uc; exact Hf|apply Hf| |].
  - intros x Hx. apply J_zero. intros l Hl. eapply tst_far; eauto.
  - intros x Hx. rewrite <- S. apply J_zero. intros l Hl. exact (tst_far n M _ x l Hg Hx Hl).
Qed.

Definition kick_block (a : nat) (h : list R -> list R) (l : list R) : list R := firstn a l ++ plusl (skipn a l) (h (firstn a l)).
Lemma J_kick : forall a b M f h, (forall z, length z = a -> length (h z) = b) -> tst (a + b) M f -> tst (a + b) M (fun x => f (kick_block a h x)) ->
  J M (a + b) (fun x => f (kick_block a h x)) = J M (a + b) f.
Proof.
  induction a as [|a IH]; intros b M f h Hh Hf Hg.
  - cbn [Nat.add]. apply (J_translate b M f (h [])); auto.
  - cbn [Nat.add cube_integral]. apply RInt_ext. intros x _.
    apply (IH b M (fun l => f (x :: l)) (fun z => h (x :: z))); [intros z Hz; apply Hh; cbn; auto|apply (tst_slice (a + b)); exact Hf|].
    exact (tst_slice (a + b) M _ x Hg).
Qed.

(** Opposite entries from position [a] on. *)
Definition mirror_block (a : nat) (l : list R) : list R := firstn a l ++ map Ropp (skipn a l).
Lemma map_opp_rigid : forall d x y, close d x y -> close d (map Ropp x) (map Ropp y).
Proof. intros d x y H. induction H; cbn; constructor; auto. replace (- x - - y) with (- (x - y)) by ring. rewrite Rabs_Ropp. auto. Qed.
Lemma J_mirror0 : forall n M f, tst n M f -> J M n (fun x => f (map Ropp x)) = J M n f.
Proof.
  induction n as [|n IH]; intros M f Hf; [reflexivity|]. cbn [cube_integral map].
  transitivity (RInt (fun x => J M n (fun l => f (- x :: l))) (- M) M).
  - apply RInt_ext. intros x _. apply (IH M (fun l => f (- x :: l))). now apply tst_slice.
  - apply (RInt_mirror (fun x => J M n (fun l => f (x :: l)))). now apply J_uc.
Qed.
Lemma J_mirror : forall a b M f, tst (a + b) M f -> J M (a + b) (fun x => f (mirror_block a x)) = J M (a + b) f.
Proof.
  induction a as [|a IH]; intros b M f Hf; [apply J_mirror0; exact Hf|].
  cbn [Nat.add cube_integral]. apply RInt_ext. intros x _. apply (IH b M (fun l => f (x :: l))). apply (tst_slice (a + b)). exact Hf.
Qed.
