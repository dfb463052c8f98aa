(** * Approximations with uncountably many values that meet the hypotheses of C66. *)
From Coquelicot Require Import Coquelicot.
From Coq Require Import Reals List Arith Bool Lia Lra Permutation.
From Verif Require Import Graph GraphSpec GraphProofs Feed Transform TransformProofs VI VISpec VIProofs VIGradProofs VIRefuteProofs RBSpec RBProofs RBExampleProofs
  VIIntegralSpec VIIntegralProofs RBIntegralSpec RBIntegralProofs.
Import ListNotations.
Local Open Scope R_scope.

(** On the graph of [RBExampleProofs] the approximation 10 is uniform on the unit
    interval and 11 has density 1 + theta (2 z - 1), theta being variable 51. *)
Definition real_q (t : params) (q : nat) (e : nat -> R) (u : R) : list R :=
  match q with 10%nat => [0] | _ => [ln (1 + t 51%nat * (2 * u - 1))] end.
Definition real_bound (env : list (nat * R)) (k : nat) : R := match Feed.dict_get env k with Some w => w | None => 0 end.
Definition real_p (t : params) (k : nat) (env : list (nat * R)) (u : R) : list R :=
  match k with 0%nat => [u] | 1%nat => [u / 2] | 2%nat => [real_bound env 0] | _ => [real_bound env 1 / 2] end.
Definition real_obs : list (nat * R) := [(2%nat, 1); (3%nat, 1)].
Definition real_D (q : nat) (u : R) : Prop := 0 < u < 1.
Definition real_I (q : nat) : (R -> R) -> R -> Prop := by_RInt 0 1.
Notation th0 := (fun _ : nat => 0).

Lemma interchange_plus : forall {A} (D : A -> Prop) I (F G : params -> A -> R) th v, integral D I ->
  (forall x, D x -> differentiable (fun t => F t x) th v) -> (forall x, D x -> differentiable (fun t => G t x) th v) ->
  interchange I F th v -> interchange I G th v -> interchange I (fun t x => F t x + G t x) th v.
Proof.
  intros A D I F G th v HI DF DG (L1 & d1 & N1 & D1 & E1) (L2 & d2 & N2 & D2 & E2). exists (fun t => L1 t + L2 t), (d1 + d2). split; [|split].
  - unfold nearby in *. eapply filter_imp; [|apply (filter_and _ _ N1 N2)]. intros y [A1 A2]. apply (int_add _ _ HI); assumption.
  - apply (is_derive_plus (K := R_AbsRing) (V := R_NormedModule) (fun y => L1 (set_param th v y)) (fun y => L2 (set_param th v y))); auto.
  - eapply (int_ext _ _ HI); [|apply (int_add _ _ HI); [exact E1|exact E2]]. intros x Hx. unfold partial. symmetry.
    apply (Derive_plus (fun y => F (set_param th v y) x) (fun y => G (set_param th v y) x)); [apply DF|apply DG]; exact Hx.
Qed.

(** Renaming the variable, and changing the integrand far from 0 only. *)
Lemma interchange_local : forall {A} (D : A -> Prop) I (F G : params -> A -> R) v v', integral D I ->
  (forall y x, Rabs y < 1 / 4 -> D x -> F (set_param th0 v y) x = G (set_param th0 v' y) x) ->
  interchange I F th0 v -> interchange I G th0 v'.
Proof.
  intros A D I F G v v' HI E (L & d & N & DL & ID).
  assert (S : forall y, set_param th0 v' y v' = y) by (intros y; unfold set_param; rewrite Nat.eqb_refl; reflexivity).
  exists (fun t => L (set_param th0 v (t v'))), d. split; [|split].
  - unfold nearby in *. eapply filter_imp; [|apply (filter_and _ _ N (near_quarter _ (fun y Hy => Hy)))]. intros y [A1 A2]. rewrite S.
    apply (int_ext _ _ HI (F (set_param th0 v y))); [intros x Hx; apply E; assumption|exact A1].
  - apply (is_derive_ext (fun y => L (set_param th0 v y))); [intros y; rewrite S; reflexivity|exact DL].
  - apply (int_ext _ _ HI (fun x => partial (fun t => F t x) th0 v)); [|exact ID]. intros x Hx. unfold partial.
    apply Derive_ext_loc. apply near_quarter. intros y Hy. apply E; assumption.
Qed.

Section Two.
Variable e0 : nat -> R.
Notation J := (fun f => iterated real_D real_I [10; 11]%nat f e0).
Lemma unit_integral : integral (fun z => 0 < z < 1) (by_RInt 0 1).
Proof. apply RInt_integral. lra. Qed.
Lemma two_integral : integral (on_space real_D [10; 11]%nat e0) J.
Proof. apply iterated_integral. intros q _. exact unit_integral. Qed.

Lemma two_product : forall (a b : R -> R) m k, by_RInt 0 1 a m -> by_RInt 0 1 b k -> J (fun e => a (e 10%nat) * b (e 11%nat)) (m * k).
Proof.
  intros a b m k Ha Hb. exists (fun u => a u * k). split.
  - intros u Hu. exists (fun z => a u * b z). split; [intros z Hz; reflexivity|]. apply (int_scal _ _ unit_integral). exact Hb.
  - unfold real_I. rewrite Rmult_comm. apply (int_ext _ _ unit_integral (fun u => k * a u)); [intros; ring|]. apply (int_scal _ _ unit_integral). exact Ha.
Qed.

Lemma two_interchange : forall (a : R -> R) m (G : params -> R -> R) th v, by_RInt 0 1 a m -> interchange (by_RInt 0 1) G th v ->
  interchange J (fun t e => a (e 10%nat) * G t (e 11%nat)) th v.
Proof.
  intros a m G th v Ha (L & d & N & DL & ID). exists (fun t => m * L t), (m * d). split; [|split].
  - unfold nearby in *. eapply filter_imp; [|exact N]. intros y Hy. exact (two_product a (G (set_param th v y)) m _ Ha Hy).
  - apply (is_derive_scal (fun y => L (set_param th v y))). exact DL.
  - apply (int_ext _ _ two_integral (fun e => a (e 10%nat) * partial (fun t => G t (e 11%nat)) th v)).
    + intros e _. unfold partial. rewrite Derive_scal. reflexivity.
    + exact (two_product a (fun z => partial (fun t => G t z) th v) m d Ha ID).
Qed.

Notation dens := (fun t z => 1 + t 51%nat * (2 * z - 1)).
Notation th := (fun _ : nat => 0).

Lemma raw_dens : interchange (by_RInt 0 1) dens th 51.
Proof.
  apply (interchange_local (fun z => 0 < z < 1) (by_RInt 0 1) _ _ 0%nat 51%nat unit_integral) with (2 := slope_swap_dens).
  intros y z Hy Hz. rewrite slope_dens; [reflexivity|exact Hy|lra].
Qed.
Lemma raw_integrand : interchange (by_RInt 0 1) (fun t z => dens t z * (z - ln (1 + t 51%nat * (2 * z - 1)))) th 51.
Proof.
  apply (interchange_local (fun z => 0 < z < 1) (by_RInt 0 1) _ _ 0%nat 51%nat unit_integral) with (2 := slope_swap_integrand).
  intros y z Hy Hz. rewrite slope_integrand; [reflexivity|exact Hy|lra].
Qed.
Lemma one_int : by_RInt 0 1 (fun _ => 1) 1.
Proof. unfold by_RInt. replace 1 with (scal (1 - 0) 1) at 2 by (unfold scal; simpl; unfold mult; simpl; ring). apply (is_RInt_const 0 1 1). Qed.
Lemma id_int : by_RInt 0 1 (fun u => u) (1 / 2).
Proof.
  unfold by_RInt. replace (1 / 2) with (minus (1 * 1 / 2) (0 * 0 / 2)) by (unfold minus, plus, opp; simpl; field).
  apply (is_RInt_derive (fun z => z * z / 2) (fun z => z)).
  - intros z _. auto_derive; [exact I|]. field.
  - intros z _. apply continuous_id.
Qed.
Lemma raw_first : interchange (by_RInt 0 1) (fun t z => dens t z * (z / 2)) th 51.
Proof.
  apply interchange_RInt; [lra| | |].
  - apply near_quarter. intros y _. apply (ex_RInt_continuous (V := R_CompleteNormedModule)). intros z _.
    apply (ex_derive_continuous (K := R_AbsRing) (V := R_NormedModule)). auto_derive. exact I.
  - apply near_quarter. intros y _ z _. unfold set_param. simpl. auto_derive. exact I.
  - intros x _. apply (continuity_2d_pt_ext (fun u z => (2 * z - 1) * (z * / 2))).
    + intros u z. symmetry. apply is_derive_unique. unfold set_param. simpl. auto_derive; [exact I|]. field.
    + apply continuity_2d_pt_mult.
      * apply continuity_2d_pt_minus; [|apply continuity_2d_pt_const]. apply continuity_2d_pt_mult; [apply continuity_2d_pt_const|apply continuity_2d_pt_id2].
      * apply continuity_2d_pt_mult; [apply continuity_2d_pt_id2|apply continuity_2d_pt_const].
Qed.

Variable prior : nat -> R.
Notation draw := (fun e => mksample e real_obs prior).
Notation density := (fun t e => draw_density real_q rb_latent (fun _ => 1) t (mksample e real_obs prior)).

Lemma real_log_q : forall t e, log_q real_q rb_latent [] t (draw e) = ln (1 + t 51%nat * (2 * e 11%nat - 1)).
Proof. intros t e. unfold log_q, real_q, factor, rb_latent. simpl. ring. Qed.
Lemma real_joint : forall t e, log_joint real_p rb_latent [] t (draw e) = 2 * e 10%nat + e 11%nat.
Proof. intros t e. unfold log_joint, scaled_sum, latent_values, bindings, real_p, real_bound, factor, rb_latent, real_obs. simpl. field. Qed.
Lemma real_density : forall y e, Rabs y < 1 / 4 -> on_space real_D [10; 11]%nat e0 e -> density (set_param th 51 y) e = 1 + y * (2 * e 11%nat - 1).
Proof.
  intros y e Hy [He _]. cbv beta. unfold draw_density. rewrite real_log_q. assert (H : 0 < e 11%nat < 1) by (apply (He 11%nat); simpl; auto).
  rewrite exp_ln; [unfold set_param; simpl; ring|]. apply slope_pos; [exact Hy|lra].
Qed.

(** Products of a function of 10 and a function of 11. *)
Lemma real_lift : forall (a : R -> R) m (G : params -> R -> R) (F : params -> (nat -> R) -> R), by_RInt 0 1 a m -> interchange (by_RInt 0 1) G th 51 ->
  (forall y e, Rabs y < 1 / 4 -> on_space real_D [10; 11]%nat e0 e -> F (set_param th 51 y) e = a (e 10%nat) * G (set_param th 51 y) (e 11%nat)) ->
  interchange J F th 51.
Proof.
  intros a m G F Ha HG E.
  apply (interchange_local (on_space real_D [10; 11]%nat e0) J (fun t e => a (e 10%nat) * G t (e 11%nat)) F 51%nat 51%nat two_integral).
  - intros y x Hy Hx. symmetry. apply E; assumption.
  - apply (two_interchange a m); assumption.
Qed.

Lemma real_terms : forall c, rb_term real_p real_q rb_latent [] real_obs prior th c -> interchange J (fun t e => density t e * c e) th 51.
Proof.
  intros c Hc. assert (U : forall y e, Rabs y < 1 / 4 -> on_space real_D [10; 11]%nat e0 e -> density (set_param th 51 y) e = dens (set_param th 51 y) (e 11%nat))
    by exact real_density.
  assert (T : forall y, set_param th 51 y 51%nat = y) by reflexivity.
  inversion Hc as [E|k Hk E|q Hq E]; clear Hc E.
  - apply (real_lift (fun _ => 1) 1 dens _ one_int raw_dens). intros y e Hy He. pose proof (U y e Hy He) as X. cbv beta in X |- *. rewrite X. ring.
  - simpl in Hk. destruct Hk as [<-|[<-|[<-|[<-|[]]]]].
    + apply (real_lift (fun u => u) (1 / 2) dens _ id_int raw_dens). intros y e Hy He. pose proof (U y e Hy He) as X. cbv beta in X |- *. rewrite X.
      unfold real_p, bindings, latent_values, factor, rb_latent, real_obs. cbn. ring.
    + apply (real_lift (fun _ => 1) 1 _ _ one_int raw_first). intros y e Hy He. pose proof (U y e Hy He) as X. cbv beta in X |- *. rewrite X.
      unfold real_p, bindings, latent_values, factor, rb_latent, real_obs. cbn. field.
    + apply (real_lift (fun u => u) (1 / 2) dens _ id_int raw_dens). intros y e Hy He. pose proof (U y e Hy He) as X. cbv beta in X |- *. rewrite X.
      unfold real_p, real_bound, bindings, latent_values, factor, rb_latent, real_obs. cbn. ring.
    + apply (real_lift (fun _ => 1) 1 _ _ one_int raw_first). intros y e Hy He. pose proof (U y e Hy He) as X. cbv beta in X |- *. rewrite X.
      unfold real_p, real_bound, bindings, latent_values, factor, rb_latent, real_obs. cbn. field.
  - assert (Z : by_RInt 0 1 (fun _ => 0) (0 * 1)) by (apply (int_ext _ _ unit_integral (fun u => 0 * 1)); [intros; ring|];
      apply (int_scal _ _ unit_integral 0 (fun _ => 1) 1 one_int)).
    apply (real_lift (fun _ => 0) (0 * 1) dens _ Z raw_dens). intros y e Hy He. rewrite Rmult_0_l.
    simpl in Hq. destruct Hq as [<-|[<-|[]]]; unfold real_q at 2; cbn [sumR]; [ring|]. rewrite Rmult_0_l, !Rplus_0_r, ln_1. ring.
Qed.

Notation integrand := (fun t e => density t e * (log_joint real_p rb_latent [] t (draw e) - log_q real_q rb_latent [] t (draw e))).

Lemma real_log_diff : forall e, on_space real_D [10; 11]%nat e0 e ->
  differentiable (fun t => dens t (e 11%nat) * (e 11%nat - ln (1 + t 51%nat * (2 * e 11%nat - 1)))) th 51.
Proof. intros e [He _]. unfold differentiable, set_param. simpl. auto_derive. lra. Qed.

Lemma real_integrand : interchange J integrand th 51.
Proof.
  apply (interchange_local (on_space real_D [10; 11]%nat e0) J
    (fun t e => 2 * e 10%nat * dens t (e 11%nat) + 1 * (dens t (e 11%nat) * (e 11%nat - ln (1 + t 51%nat * (2 * e 11%nat - 1))))) integrand 51%nat 51%nat two_integral).
  - intros y e Hy He. cbv beta. pose proof (real_density y e Hy He) as U. cbv beta in U. rewrite U, real_joint, real_log_q. unfold set_param; simpl. ring.
  - apply (interchange_plus (on_space real_D [10; 11]%nat e0) J (fun t e => 2 * e 10%nat * dens t (e 11%nat))
      (fun t e => 1 * (dens t (e 11%nat) * (e 11%nat - ln (1 + t 51%nat * (2 * e 11%nat - 1))))) th 51 two_integral).
    + intros e He. unfold differentiable, set_param. simpl. auto_derive. exact I.
    + intros e He. apply (ex_derive_scal (fun y => dens (set_param th 51 y) (e 11%nat) * (e 11%nat - ln (1 + set_param th 51 y 51%nat * (2 * e 11%nat - 1)))) 1 (th 51%nat)). apply real_log_diff. exact He.
    + apply (two_interchange (fun u => 2 * u) (2 * (1 / 2)) dens); [|exact raw_dens]. apply (int_scal _ _ unit_integral). exact id_int.
    + apply (two_interchange (fun _ => 1) 1 (fun t z => dens t z * (z - ln (1 + t 51%nat * (2 * z - 1))))); [exact one_int|exact raw_integrand].
Qed.

Lemma real_normal : nearby (fun t => forall q e, In q (map snd rb_latent) -> real_I q (fun u => exp (sumR (real_q t q e u))) 1) th 51.
Proof.
  apply near_quarter. intros y Hy q e Hq. unfold real_I. simpl in Hq. destruct Hq as [<-|[<-|[]]]; unfold real_q; cbn [sumR].
  - apply (int_ext _ _ unit_integral (fun _ => 1)); [intros; rewrite Rplus_0_r, exp_0; reflexivity|exact one_int].
  - apply (int_ext _ _ unit_integral (fun z => 1 + y * (2 * z - 1))).
    + intros z Hz. rewrite Rplus_0_r. unfold set_param. simpl. rewrite exp_ln; [reflexivity|]. apply slope_pos; [exact Hy|lra].
    + unfold by_RInt. assert (X : minus (1 + y * (1 * 1 - 1)) (0 + y * (0 * 0 - 0)) = 1) by (unfold minus, plus, opp; simpl; ring).
      cut (is_RInt (fun z => 1 + y * (2 * z - 1)) 0 1 (minus (1 + y * (1 * 1 - 1)) (0 + y * (0 * 0 - 0)))); [rewrite X; auto|].
      apply (is_RInt_derive (fun z => z + y * (z * z - z)) (fun z => 1 + y * (2 * z - 1))).
      * intros z _. auto_derive; [exact I|]. ring.
      * intros z _. apply (ex_derive_continuous (K := R_AbsRing) (V := R_NormedModule)). auto_derive. exact I.
Qed.

Lemma real_smooth : forall q e u, In q (map snd rb_latent) -> real_D q u -> differentiable (fun t => sumR (real_q t q e u)) th 51.
Proof.
  intros q e u Hq Hu. unfold differentiable. simpl in Hq. destruct Hq as [<-|[<-|[]]]; unfold real_q, set_param; simpl.
  - apply (ex_derive_const (K := R_AbsRing) (V := R_NormedModule)).
  - auto_derive. lra.
Qed.

Lemma real_hypotheses :
  NoDup (map fst rb_latent ++ map fst real_obs) /\ distinct_values rb_graph (map fst rb_latent ++ map fst real_obs) /\
  model_follows rb_graph (map fst rb_latent ++ map fst real_obs) real_p /\ approximation_follows rb_graph (map snd rb_latent) real_q /\
  acts_along_graph rb_graph rb_tensor (map snd rb_latent) real_q th 51 /\
  (forall q, In q (map snd rb_latent) -> integral (real_D q) (real_I q)) /\
  nearby (fun t => forall q e, In q (map snd rb_latent) -> real_I q (fun u => exp (sumR (real_q t q e u))) 1) th 51 /\
  (forall q e u, In q (map snd rb_latent) -> real_D q u -> differentiable (fun t => sumR (real_q t q e u)) th 51) /\
  (forall c, rb_term real_p real_q rb_latent [] real_obs prior th c -> interchange J (fun t e => density t e * c e) th 51) /\
  (forall e, on_space real_D [10; 11]%nat e0 e -> independent (fun t => log_joint real_p rb_latent [] t (draw e)) th 51) /\
  interchange J integrand th 51 /\ (exists L, nearby (fun t => J (integrand t) (L t)) th 51) /\
  log_joint real_p rb_latent [] th (draw (fun _ => 1 / 2)) = 3 / 2.
Proof.
  split; [repeat constructor; simpl; lia|]. split; [exact rb_distinct_p|].
  split.
  { intros t k env env' u Hk H. simpl in Hk. destruct Hk as [<-|[<-|[<-|[<-|[]]]]]; auto; unfold real_p, real_bound.
    - rewrite (H 0%nat); auto. apply rb_x2. simpl; auto.
    - rewrite (H 1%nat); auto. apply rb_x3. simpl; auto. }
  split; [intros t q e e' u Hq H; reflexivity|]. split.
  { intros q Hq Hn x e u. simpl in Hq. destruct Hq as [<-|[<-|[]]]; auto. exfalso. apply Hn. apply rb_reach; simpl; auto. }
  split; [intros q _; exact unit_integral|]. split; [exact real_normal|]. split; [exact real_smooth|]. split; [exact real_terms|].
  split; [intros e _ y; rewrite !real_joint; reflexivity|]. split; [exact real_integrand|]. split.
  - destruct real_integrand as (L & d & N & _). exists L. exact N.
  - rewrite real_joint. field.
Qed.
End Two.
