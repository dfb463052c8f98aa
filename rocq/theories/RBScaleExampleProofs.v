(** * Proofs for C66: a scaled latent variable. *)
From Coquelicot Require Import Coquelicot.
From Coq Require Import Reals List Arith Bool Lia Lra Permutation.
From Verif Require Import Graph GraphSpec GraphProofs Feed Transform VI VISpec VIProofs VIGradProofs VIRefuteProofs RBSpec RBProofs RBExampleProofs.
From Verif Require Import RBScaleProofs.
Import ListNotations.
Local Open Scope R_scope.

(** Variable 0 is tensor 5, the approximation 1 (tensor 11) is computed from it and
    stands for the latent variable 0 (tensor 21). *)
Definition one_graph : graph := {|
  ops := [{| op_in := []; op_out := [5] |}; {| op_in := [5]; op_out := [11] |}; {| op_in := []; op_out := [21] |}];
  value := fun r => match r with 1 => 11 | 0 => 21 | _ => 0 end;
  vref := fun v => v |}%nat.
Definition one_tensor (v : nat) : nat := 5%nat.
Definition one_latent : list (nat * nat) := [(0%nat, 1%nat)].

Lemma one_producer : single_producer one_graph.
Proof.
  intros o1 o2 t H1 H2. simpl in H1, H2.
  repeat (destruct H1 as [<-|H1]; [repeat (destruct H2 as [<-|H2]; [simpl; intros A B; first [reflexivity|exfalso; lia]|]); destruct H2|]).
  destruct H1.
Qed.
Lemma one_distinct : forall l, length l = 1%nat -> distinct_values one_graph l.
Proof. intros [|a [|b l]] H; try discriminate. intros r s [<-|[]] [<-|[]]. auto. Qed.
Lemma one_no_parent : forall k j, ~ parent_rel one_graph [k] j k.
Proof. intros k j ([E|[]] & H & _). congruence. Qed.
Lemma one_first : parents_first one_graph [1%nat] [1%nat].
Proof.
  intros l1 q l2 E j Hj. destruct l1 as [|a [|b l1]]; [|discriminate|discriminate]. injection E as <- _. exfalso. exact (one_no_parent _ _ Hj).
Qed.
Lemma one_reach : down one_graph anything 5 11.
Proof.
  assert (H : get_descendants one_graph [1%nat] (fun _ => 0%nat) (enough one_graph) (NT 5) = Some [1%nat]) by (vm_compute; reflexivity).
  destruct (get_descendants_correct _ _ _ _ _ _ (one_distinct [1%nat] eq_refl) H) as [_ E]. destruct (E 1%nat) as [E' _].
  destruct E' as (_ & _ & D); [simpl; auto|]. exact D.
Qed.
Lemma one_acts : acts_along_graph one_graph one_tensor [1%nat] coin_q half 0.
Proof. intros q [<-|[]] Hn. exfalso. apply Hn. exact one_reach. Qed.
Lemma one_normal : forall q e, nearby (fun t => sumR (map (fun u => exp (sumR (coin_q t q e u))) [true; false]) = 1) half 0.
Proof.
  intros q e. assert (P : 0 < 1 / 4) by lra. exists (mkposreal _ P). intros x Hx.
  unfold ball in Hx; simpl in Hx; unfold AbsRing_ball, abs, minus, plus, opp in Hx; simpl in Hx. apply Rabs_lt_between in Hx. unfold half in Hx.
  unfold coin_q, coin, set_param, half; simpl. rewrite !Rplus_0_r, !exp_ln by lra. lra.
Qed.
Lemma one_smooth : forall q e u, differentiable (fun t => sumR (coin_q t q e u)) half 0.
Proof. intros q e u. unfold differentiable, coin_q, coin, set_param, half; simpl. destruct u; auto_derive; lra. Qed.

Definition one_draw (e0 prior : nat -> bool) (b : bool) : sample bool := mksample (update e0 1 b) [] prior.
Lemma one_draws : forall e0 prior, all_draws (fun _ => [true; false]) [1%nat] e0 [] prior = [one_draw e0 prior true; one_draw e0 prior false].
Proof. reflexivity. Qed.
Lemma one_draw_posed : forall e0 prior b, posed one_latent (one_draw e0 prior b).
Proof. intros e0 prior b. split; [constructor; [simpl; tauto|constructor]|]. split; [constructor|]. simpl. tauto. Qed.
Lemma one_log_q : forall scale t e0 prior b, log_q coin_q one_latent scale t (one_draw e0 prior b) = factor scale 0 * ln (coin (t 0%nat) b).
Proof. intros. unfold log_q, coin_q, one_draw, update. simpl. lra. Qed.
Lemma one_log_p : forall t e0 prior b, log_joint coin_prior one_latent [(0%nat, 2)] t (one_draw e0 prior b) = if b then 2 else 0.
Proof. intros. unfold log_joint, scaled_sum, latent_values, coin_prior, factor. simpl. destruct b; simpl; lra. Qed.
Lemma one_density : forall e0 prior b, draw_density coin_q one_latent (fun _ => 1) half (one_draw e0 prior b) = 1 / 2.
Proof. intros. unfold draw_density. rewrite one_log_q. unfold factor, half, coin. simpl. rewrite !Rmult_1_l. destruct b; rewrite exp_ln; lra. Qed.

Lemma rb_scale_refuted : exists (log_prob : params -> nat -> list (nat * bool) -> bool -> list R) q_log_prob latent scale g tensor_of_var pick obs prior vals order e0 th v,
  NoDup (map fst latent ++ map fst obs) /\ NoDup (map snd latent) /\ single_producer g /\
  distinct_values g (map fst latent ++ map fst obs) /\ distinct_values g (map snd latent) /\
  Permutation order (map snd latent) /\ parents_first g (map snd latent) order /\
  model_follows g (map fst latent ++ map fst obs) log_prob /\ approximation_follows g (map snd latent) q_log_prob /\
  acts_along_graph g tensor_of_var (map snd latent) q_log_prob th v /\
  (forall q e, In q (map snd latent) -> nearby (fun t => sumR (map (fun u => exp (sumR (q_log_prob t q e u))) (vals q)) = 1) th v) /\
  (forall q e u, In q (map snd latent) -> differentiable (fun t => sumR (q_log_prob t q e u)) th v) /\
  let space := all_draws vals order e0 obs prior in
  let density := draw_density q_log_prob latent (fun _ => 1) in
  (forall d, In d space -> independent (fun t => log_joint log_prob latent scale t d) th v) /\
  expected space (density th) 1 (fun l =>
    rb_gradient log_prob q_log_prob latent scale (fun _ => []) g tensor_of_var pick (enough g) (map fst obs) (fixed_draws l) th v) <>
  partial (fun t => - mean_of space (density t)
    (fun d => log_joint log_prob latent scale t d - log_q q_log_prob latent scale t d) + penalty (fun _ => []) t) th v.
Proof.
  exists coin_prior, coin_q, one_latent, [(0%nat, 2)], one_graph, one_tensor, (fun _ => 0%nat), [], (fun _ => true), (fun _ => [true; false]), [1%nat], (fun _ => true), half, 0%nat.
  assert (A1 : NoDup (map fst one_latent ++ map fst (@nil (nat * bool)))) by (repeat constructor; simpl; tauto).
  assert (A2 : NoDup (map snd one_latent)) by (repeat constructor; simpl; tauto).
  assert (A3 : distinct_values one_graph (map fst one_latent ++ map fst (@nil (nat * bool)))) by (apply one_distinct; reflexivity).
  assert (A4 : distinct_values one_graph (map snd one_latent)) by (apply one_distinct; reflexivity).
  assert (A5 : model_follows one_graph (map fst one_latent ++ map fst (@nil (nat * bool))) coin_prior) by (intros t k env env' u _ _; reflexivity).
  assert (A6 : approximation_follows one_graph (map snd one_latent) coin_q) by (intros t k e e' u _ _; reflexivity).
  split; [exact A1|]. split; [exact A2|]. split; [exact one_producer|]. split; [exact A3|]. split; [exact A4|]. split; [apply Permutation_refl|].
  split; [exact one_first|]. split; [exact A5|]. split; [exact A6|]. split; [exact one_acts|]. split; [intros q e _; apply one_normal|]. split; [intros q e u _; apply one_smooth|].
  cbv zeta. split; [intros d _ x; reflexivity|].
  rewrite (rb_as_score_gradient coin_prior coin_q one_latent [(0%nat, 2)] (fun _ => []) one_graph one_tensor (fun _ => 0%nat) (enough one_graph) []
    (fun _ => true) (fun _ => [true; false]) [1%nat] (fun _ => true) half 0 1); auto.
  2:{ exact one_producer. } 2:{ exact one_first. } 2:{ exact one_acts. } 2:{ intros; apply one_normal. } 2:{ intros; apply one_smooth. }
  2:{ unfold differentiable, penalty. simpl. apply (ex_derive_const (K := R_AbsRing) (V := R_NormedModule)). }
  rewrite one_draws.
  assert (G : forall b, gradient (score_objective coin_prior coin_q one_latent [(0%nat, 2)] (fun _ => []) (fixed_draws [one_draw (fun _ => true) (fun _ => true) b]) half) half 0 =
    - (2 * (if b then 2 else -2) * ((if b then 2 else 0) - 2 * ln (1 / 2)))).
  { intros b. unfold gradient. apply is_derive_unique.
    apply (is_derive_ext (fun x => - (2 * ln (coin x b) * ((if b then 2 else 0) - 2 * ln (1 / 2))))).
    - intros x. unfold score_objective, reduce_mean, reg_penalty. unfold fixed_draws. cbn [map length sumR].
      rewrite !q_total_spec, p_total_spec by (apply one_draw_posed). rewrite !one_log_q, one_log_p, set_half. unfold factor.
      replace (coin (half 0%nat) b) with (1 / 2) by (unfold half, coin; destruct b; lra). simpl. lra.
    - unfold half. destruct b; unfold coin; auto_derive; try lra; field. }
  cbn [expected map sumR]. rewrite !G, !one_density.
  assert (D : partial (fun t => - mean_of [one_draw (fun _ => true) (fun _ => true) true; one_draw (fun _ => true) (fun _ => true) false] (draw_density coin_q one_latent (fun _ => 1) t)
    (fun d => log_joint coin_prior one_latent [(0%nat, 2)] t d - log_q coin_q one_latent [(0%nat, 2)] t d) + penalty (fun _ => []) t) half 0 = -2).
  { unfold partial. apply is_derive_unique.
    apply (is_derive_ext_loc (fun x => - (x * (2 - 2 * ln x) + (1 - x) * (0 - 2 * ln (1 - x))))).
    - assert (P : 0 < 1 / 4) by lra. exists (mkposreal _ P). intros x Hx.
      unfold ball in Hx; simpl in Hx; unfold AbsRing_ball, abs, minus, plus, opp in Hx; simpl in Hx. apply Rabs_lt_between in Hx. unfold half in Hx.
      unfold mean_of, draw_density. cbn [map sumR]. rewrite !one_log_q, !one_log_p, !set_half. unfold factor, penalty, coin. simpl.
      rewrite !Rmult_1_l, !exp_ln by lra. lra.
    - unfold half. auto_derive; [lra|]. replace (1 + - (1 / 2)) with (1 / 2) by lra. field. }
  rewrite D. lra.
Qed.
