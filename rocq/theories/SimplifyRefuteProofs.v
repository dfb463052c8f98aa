(** * Counterexamples to the simplifier, and composition (proofs). *)
From Coq Require Import List Arith ZArith QArith Qreals Reals Bool Lra Lia.
From Verif Require Import Simplify SimplifySpec SimplifyTermProofs SimplifyProofs SimplifyExtractProofs.
Import ListNotations.
Local Open Scope R_scope.

Definition ti0 : tinfo := mktinfo (fun _ => false) (fun _ => CUnknown).
Definition en0 : env := mkenv (fun _ _ => 1) (fun _ => 0).

Lemma ok0 : env_ok ti0 en0.
Proof. repeat split; simpl; intros; auto; discriminate. Qed.

Lemma log_sum_refuted : exists ti en e e' fuel,
  env_ok ti en /\ powers_within 7 e /\ (forall x, 0 < x -> dom ti en x e) /\
  full_simplify ti fuel e = Some (Ret e') /\
  ~ same_up_to_constant en (fun x => 0 < x) e e'.
Proof.
  exists ti0, en0, (Node (HSym SLog) [Node (HSym SAdd) [X; Node (HTens 7) []]]),
    (Node (HSym SLog) [X]), 10%nat.
  split; [exact ok0|]. split; [cbv; auto|]. split; [|split; [vm_compute; reflexivity|]].
  - intros x Hx. unfold X. cbn. repeat split; auto; try discriminate; try lra.
  - intros [c Hc].
    pose proof (Hc 1 ltac:(lra)) as H1. pose proof (Hc 2 ltac:(lra)) as H2. simpl in H1, H2.
    rewrite ln_1 in H1. replace (1 + (1 + 0)) with 2 in H1 by lra.
    replace (2 + (1 + 0)) with 3 in H2 by lra.
    assert (H : ln 3 = ln (2 * 2)) by (rewrite ln_mult; lra).
    apply ln_inv in H; lra.
Qed.

Lemma root_square_refuted : exists ti en e e' fuel,
  env_ok ti en /\ linear_form ti e /\ powers_within 7 e /\
  full_simplify ti fuel e = Some (Ret e') /\
  ~ same_up_to_constant en (fun _ => True) e e'.
Proof.
  exists ti0, en0, (Node (HSym SSqrt) [Node (HSym SSquare) [X]]), X, 10%nat.
  split; [exact ok0|]. split; [apply lf_mono; cbv; tauto|]. split; [cbv; repeat split; lia|].
  split; [vm_compute; reflexivity|].
  intros [c Hc]. pose proof (Hc 1 I) as H1. pose proof (Hc (-1) I) as H2. simpl in H1, H2.
  rewrite Rmult_1_r, sqrt_1 in H1. replace (-1 * -1) with 1 in H2 by lra. rewrite sqrt_1 in H2. lra.
Qed.

(** Eight nested square roots. *)
Fixpoint roots (n : nat) (e : expr) : expr :=
  match n with O => e | S k => Node (HSym SSqrt) [roots k e] end.

Lemma sqrt_exp : forall y, sqrt (exp (2 * y)) = exp y.
Proof.
  intros y. replace (2 * y) with (y + y) by ring. rewrite exp_plus. apply sqrt_square.
  left. apply exp_pos.
Qed.

Lemma rounded_refuted : exists ti en e e' fuel,
  env_ok ti en /\ linear_form ti e /\ (forall x, 0 < x -> dom ti en x e) /\
  full_simplify ti fuel e = Some (Ret e') /\
  ~ same_up_to_constant en (fun x => 0 < x) e e'.
Proof.
  exists ti0, en0, (roots 8 X), (Node (HCPow (19531 # 5000000)) [X]), 40%nat.
  split; [exact ok0|]. split; [apply lf_mono; cbv; tauto|].
  split; [|split; [vm_compute; reflexivity|]].
  - intros x Hx. unfold X. cbn. repeat split; auto.
  - intros [c Hc].
    pose proof (Hc 1 ltac:(lra)) as H1.
    pose proof (Hc (exp 256) (exp_pos _)) as H2.
    unfold X in H1, H2. cbn in H1, H2. rewrite !sqrt_1 in H1.
    unfold cpow in H1, H2. cbn in H1, H2. unfold Rpower in H1, H2.
    rewrite ln_1, Rmult_0_r, exp_0 in H1. rewrite ln_exp in H2.
    replace 256 with (2 * (2 * (2 * (2 * (2 * (2 * (2 * (2 * 1)))))))) in H2 at 1 by lra.
    rewrite !sqrt_exp in H2.
    assert (Hc0 : c = 0) by lra. subst c. rewrite Rplus_0_r in H2.
    apply exp_inv in H2. unfold Q2R in H2. simpl in H2. lra.
Qed.

Lemma statistic_of_tensor :
  forall ti en base stop g e' fuel (A : R -> Prop) ms k,
  env_ok ti en ->
  linear_form ti (symbolic_suff_stat base stop g) ->
  powers_within 7 (symbolic_suff_stat base stop g) ->
  (forall x, A x -> dom ti en x (symbolic_suff_stat base stop g)) ->
  full_simplify ti fuel (symbolic_suff_stat base stop g) = Some (Ret e') ->
  extract_s_stat_multipliers e' = (ms, items_of k) ->
  exists m c, forall x, A x -> tval en base stop x g = m * den en x k + c.
Proof.
  intros ti en base stop g e' fuel A ms k Hen Hl Hp Hd H He.
  destruct (full_simplify_sound ti en _ e' fuel A Hen Hl Hp Hd H) as [c Hc].
  destruct (extract_exact _ _ _ He) as [HF Hv].
  exists (rprod (map (den en 0) ms)), c. intros x Hx.
  rewrite <- symbolic_den, (Hc x Hx), Hv. f_equal. f_equal. f_equal.
  apply map_ext_in. intros m Hm. rewrite Forall_forall in HF. apply den_xfree. apply HF. auto.
Qed.

Lemma rebuild_refuted : exists ti e fuel e' ms k,
  full_simplify ti fuel e = Some (Ret e') /\
  extract_s_stat_multipliers e' = (ms, items_of k) /\ In k table_statistics /\
  reconstruct_multiplier ms = Exc.
Proof.
  exists ti0, (Node (HSym SSquare) [Node (HSym SMul)
     [X; Node (HSym SExp) [Node (HSym SMul) [Node (HTens 2) []; Node (HTens 7) []]]]]), 10%nat.
  eexists. eexists. exists (Node (HCPow 2) [X]).
  split; [vm_compute; reflexivity|]. split; [vm_compute; reflexivity|].
  split; [vm_compute; tauto|reflexivity].
Qed.
