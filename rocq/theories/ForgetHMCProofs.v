(** * Proofs for C89: Hamiltonian Monte Carlo that never forgets. *)
From Coquelicot Require Import Coquelicot.
From Coq Require Import Reals List Arith Bool Lia Lra.
From Verif Require Import Ext Feed MonteCarlo MonteCarloSpec Transform HMC HMCSpec VolumeExampleProofs.
Import ListNotations.
Local Open Scope R_scope.
Set Bullet Behavior "Strict Subproofs".

Notation half_turn := (hmc_kernel normal_model [(O, None)] normal_grad 1 2).
Lemma half_leap : forall y x r, leapfrog (normal_grad [(1%nat, [y])]) 1 2 [[x]] [[r]] = ([[y - x]], [[- r]]).
Proof. intros y x r. unfold leapfrog, leap, kick_drift, kick, normal_grad, vadd, vscal. cbn. f_equal; f_equal; f_equal; field. Qed.
Lemma half_move : forall t y x d, h_data d = [(1%nat, [y])] -> (exists r, h_momenta d = [[r]]) -> 0 < h_u d < 1 ->
  half_turn t tt [[x]] d = Some (tt, [[y - x]], true).
Proof.
  intros t y x d Hd [r Hr] Hu. unfold hmc_kernel, hmc_sample. rewrite Hd, Hr, half_leap.
  assert (E : log_joint_unconstrained normal_model [(O, None)] [(1%nat, [y])] [[y - x]] = log_joint_unconstrained normal_model [(O, None)] [(1%nat, [y])] [[x]]).
  { unfold log_joint_unconstrained, log_joint, normal_model. cbn. f_equal. f_equal. field. }
  rewrite E. clear E. unfold log_joint_unconstrained, log_joint, normal_model. cbn.
  assert (Hl : ln (h_u d) < 0) by (rewrite <- ln_1; apply ln_increasing; lra).
  assert (Ha : forall e, e = 0 -> eltb (elog (Fin (h_u d))) (Fin e) = true).
  { intros e ->. unfold elog, eltb. destruct (Rlt_dec 0 (h_u d)); [|lra]. destruct (Rlt_dec (ln (h_u d)) 0); [reflexivity|lra]. }
  match goal with |- context[if ?b then _ else _] => replace b with true; [reflexivity|symmetry; apply Ha; unfold kinetic; cbn; field] end.
Qed.
Lemma half_chain : forall y x us, (forall i, h_data (fst (us i)) = [(1%nat, [y])] /\ (exists r, h_momenta (fst (us i)) = [[r]]) /\ 0 < h_u (fst (us i)) < 1) ->
  forall j, chain half_turn tt [[x]] us j tt [[if Nat.even j then y - x else x]] (repeat true (S j)).
Proof.
  intros y x us H. induction j as [|j IH].
  - apply chain_first. destruct (H O) as (A & B & C). exact (half_move _ y x _ A B C).
  - replace (repeat true (S (S j))) with (repeat true (S j) ++ [true]) by (rewrite <- repeat_cons; reflexivity).
    apply chain_next with (1 := IH). destruct (H (S j)) as (A & B & C).
    rewrite (half_move _ y _ _ A B C). rewrite Nat.even_succ, <- Nat.negb_even. destruct (Nat.even j); cbn [negb]; [replace (y - (y - x)) with x by ring|]; reflexivity.
Qed.
Lemma half_gradient : forall y z, exists f, (forall v, log_joint_unconstrained normal_model [(O, None)] [(1%nat, [y])] [[v]] = Some (Fin (f v))) /\
  is_derive f z (hd 0 (hd [] (normal_grad [(1%nat, [y])] [[z]]))).
Proof.
  intros y z. exists (fun v => - (v * v / 2) - (y - v) * (y - v) / 2). split.
  - intros v. unfold log_joint_unconstrained, log_joint, normal_model. cbn. f_equal. f_equal. field.
  - cbn. auto_derive; [exact Logic.I|field].
Qed.
Theorem hmc_never_forgets : exists log_prob latent grad step_size, forall y, let data := [(1%nat, [y])] in hmc_posed log_prob latent data /\
  (forall z, exists f, (forall v, log_joint_unconstrained log_prob latent data [[v]] = Some (Fin (f v))) /\ is_derive f z (hd 0 (hd [] (grad data [[z]])))) /\
  forall us, (forall i, h_data (fst (us i)) = data /\ (exists r, h_momenta (fst (us i)) = [[r]]) /\ 0 < h_u (fst (us i)) < 1) ->
  forall x j, chain (hmc_kernel log_prob latent grad step_size 2) tt [[x]] us j tt [[if Nat.even j then y - x else x]] (repeat true (S j)).
Proof.
  exists normal_model, [(O, None)], normal_grad, 1. intros y data. split; [apply normal_posed|]. split; [intros z; apply half_gradient|].
  intros us H x j. apply half_chain. exact H.
Qed.
