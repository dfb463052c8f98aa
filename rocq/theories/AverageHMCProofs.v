(** * Proofs for C92: a run of HMC whose averages keep where it started. *)
From Coquelicot Require Import Coquelicot.
From Coq Require Import Reals List Arith Bool Lia Lra.
From Verif Require Import Ext Feed MonteCarlo MonteCarloSpec Transform MH MHSpec HMC HMCSpec VI VISpec VIIntegralSpec ExtProofs VIProofs ForgetHMCProofs.
Import ListNotations.
Local Open Scope R_scope.
Set Bullet Behavior "Strict Subproofs".

Lemma average_const : forall {A} (f : A -> R) k l, l <> [] -> (forall x, In x l -> f x = k) -> average (map f l) = k.
Proof.
  intros A f k l Hl H. unfold average. rewrite map_length.
  assert (E : sumR (map f l) = INR (length l) * k).
  { clear Hl. induction l as [|x l IH]; [cbn; ring|]. cbn [map sumR length]. rewrite S_INR, (H x (or_introl eq_refl)), IH by (intros; apply H; right; assumption). ring. }
  rewrite E. field. apply not_0_INR. destruct l; [congruence|cbn; lia].
Qed.

Theorem hmc_averages : exists log_prob latent data grad step_size phi, hmc_posed log_prob latent data /\
  (forall z, exists f, (forall v, log_joint_unconstrained log_prob latent data [[v]] = Some (Fin (f v))) /\ is_derive f z (hd 0 (hd [] (grad data [[z]])))) /\
  forall us, (forall i, h_data (fst (us i)) = data /\ (exists r, h_momenta (fst (us i)) = [[r]]) /\ 0 < h_u (fst (us i)) < 1) ->
  forall x, exists zs, (forall j, chain (hmc_kernel log_prob latent grad step_size 2) tt [[x]] us j tt (zs j) (repeat true (S j))) /\
    forall n, (0 < n)%nat -> average (map (fun j => phi (zs j)) (seq 0 n)) = x * x.
Proof.
  destruct hmc_never_forgets as (lp & latent & grad & eps & H). destruct (H 0) as (H1 & H2 & H3). cbv zeta in *.
  exists lp, latent, [(1%nat, [0])], grad, eps, (fun z => hd 0 (hd [] z) * hd 0 (hd [] z)). split; [exact H1|]. split; [exact H2|].
  intros us Hus x. exists (fun j => [[if Nat.even j then 0 - x else x]]). split; [intros j; apply H3; exact Hus|].
  intros n Hn. apply average_const; [destruct n; [lia|discriminate]|]. intros j _. cbn [hd]. destruct (Nat.even j); ring.
Qed.
