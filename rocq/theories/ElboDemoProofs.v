(** * Proofs for C90: a hierarchy, and examples. *)
From Coquelicot Require Import Coquelicot.
From Coq Require Import Reals List Arith Bool Lia Lra.
From Verif Require Import Feed Transform VI VISpec VIProofs VIGradProofs VIIntegralSpec VIIntegralProofs.
From Verif Require Import ForgetSpec.
From Verif Require Import ElboSpec ElboProofs.
Import ListNotations.
Local Open Scope R_scope.
Set Bullet Behavior "Strict Subproofs".

Definition tq : R := ln 3 - ln 4.
Definition oq : R := - ln 4.
Lemma exp_tq : exp tq = 3 / 4.
Proof. unfold tq, Rminus. rewrite exp_plus, exp_Ropp, !exp_ln by lra. reflexivity. Qed.
Lemma exp_oq : exp oq = 1 / 4.
Proof. unfold oq. rewrite exp_Ropp, exp_ln by lra. field. Qed.
Lemma exp_half : exp (- ln 2) = 1 / 2.
Proof. rewrite exp_Ropp, exp_ln by lra. field. Qed.

(** Variable 0 is fair; variable 1 agrees with it with probability 3/4; their
    approximations 10 and 11 are true with probability 3/4 and 1/4; variable 2 is
    observed, with a likelihood that makes the approximations the posterior. *)
Definition hq (_ : params) (q : nat) (_ : nat -> bool) (v : bool) : list R := [if Bool.eqb v (Nat.eqb q 10) then tq else oq].
Definition hval (d : list (nat * bool)) (k : nat) : bool := match Feed.dict_get d k with Some b => b | None => true end.
Definition hprior1 (a b : bool) : R := if Bool.eqb a b then tq else oq.
Definition hp (th : params) (z : nat) (d : list (nat * bool)) (v : bool) : list R :=
  match z with
  | 0%nat => [- ln 2]
  | 1%nat => [hprior1 (hval d 0) v]
  | _ => [(if hval d 0 then tq else oq) + (if hval d 1 then oq else tq) + ln 2 - hprior1 (hval d 0) (hval d 1)]
  end.
Definition hlat : list (nat * nat) := [(0, 10); (1, 11)]%nat.
Definition hdraw (x : bool * bool) : sample bool := mksample (fun k => if Nat.eqb k 10 then fst x else snd x) [(2%nat, true)] (fun _ => true).
Definition hspace : list (bool * bool) := [(true, true); (true, false); (false, true); (false, false)].
Definition hkl (th : params) (z q : nat) (own : nat -> bool) : list R :=
  [sumR (map (fun u => exp (sumR (hq th q own u)) * (sumR (hq th q own u) - sumR (hp th z (map (fun zq => (fst zq, own (fst zq))) hlat) u))) [true; false])].
Definition th0 : params := fun _ => 0.
Definition hh (a : bool) : R := (if a then ln 3 / 2 else 0) - 3 / 8 * ln 3.
Notation hdens := (fun x => draw_density hq hlat (fun _ => 1) th0 (hdraw x)).

Lemma hposed : forall x, posed hlat (hdraw x).
Proof. intros x. unfold posed. cbn. repeat split; [repeat constructor; cbn; intuition discriminate|repeat constructor; cbn; intuition discriminate|]. intros k [<-|[<-|[]]] [E|[]]; discriminate. Qed.
Lemma hdens_at : forall x, hdens x = exp (if fst x then tq else oq) * exp (if snd x then oq else tq).
Proof. intros [a b]. rewrite <- exp_plus. unfold draw_density. rewrite Rmult_1_l. f_equal. destruct a, b; cbn; ring. Qed.
Lemma hjoint : forall x, log_q hq hlat [] th0 (hdraw x) = log_joint hp hlat [] th0 (hdraw x).
Proof. intros [a b]. unfold log_joint, scaled_sum. destruct a, b; cbn; ring. Qed.
Lemma hdens_joint : forall x, exp (log_joint hp hlat [] th0 (hdraw x)) = hdens x.
Proof. intros x. rewrite <- hjoint. unfold draw_density. rewrite Rmult_1_l. reflexivity. Qed.
Lemma htotal : sumR (map hdens hspace) = 1.
Proof. unfold hspace. cbn [map sumR]. rewrite !hdens_at. cbn [fst snd]. rewrite exp_tq, exp_oq. field. Qed.
Lemma hkl_total : forall own, sumR (map (fun zq => sumR (hkl th0 (fst zq) (snd zq) own)) hlat) =
  (3 / 4 * (tq + ln 2) + 1 / 4 * (oq + ln 2)) + (if own 0%nat then ln 3 / 2 else 0).
Proof.
  intros own. unfold hlat, hkl. cbn [map sumR fst snd]. unfold hq, hp. cbn. destruct (own 0%nat); cbn; rewrite !Rplus_0_r, exp_tq, exp_oq; unfold tq, oq; field.
Qed.
Lemma hexpected : forall own n, (0 < n)%nat ->
  expected_by (fun x => In x hspace) (by_sum hspace) hdens n (fun l => reparam_kl_loss hp hlat [] (fun _ => []) hkl [] own (fixed_draws (map hdraw l)) th0) (hh (own 0%nat)).
Proof.
  intros own n Hn.
  set (K := sumR (map (fun zq => sumR (hkl th0 (fst zq) (snd zq) own)) hlat)).
  set (m := hh (own 0%nat)).
  replace m with (- (- m) + penalty (fun _ => []) th0) by (cbn; ring).
  apply (expected_loss hq hlat (fun _ => []) (fun x => In x hspace) (by_sum hspace) (sum_integral hspace) hdraw th0 htotal _ n
    (fun x => log_lik hp hlat [] th0 (hdraw x) + - K) (- m) Hn).
  - intros l Ll Dl. rewrite (reparam_kl_spec hp hlat [] (fun _ => []) hkl [] own _ th0 (fixed_posed (fun x => In x hspace) hlat hdraw th0 l (fun x _ => hposed x) Dl)), (fixed_map hdraw th0 (fun d => log_lik hp hlat [] th0 d)).
    rewrite <- (map_map (fun x => log_lik hp hlat [] th0 (hdraw x)) (fun r => r + - K)), average_shift by (destruct l; [cbn in Ll; lia|discriminate]).
    assert (E : sumR (map (fun zq => factor [] (fst zq) * sumR (hkl th0 (fst zq) (snd zq) own)) hlat) = K).
    { unfold K. f_equal. apply map_ext. intros zq. cbn [factor find]. ring. }
    rewrite E. ring.
  - unfold by_sum, hspace. cbn [map sumR]. rewrite !hdens_at. cbn [fst snd]. unfold K, m. rewrite hkl_total, exp_tq, exp_oq. unfold hh.
    unfold log_lik, scaled_sum. cbn. unfold tq, oq. destruct (own 0%nat); field.
Qed.
Theorem kl_hierarchy_refuted : exists (log_prob : params -> nat -> list (nat * bool) -> bool -> list R) (q_log_prob : params -> nat -> (nat -> bool) -> bool -> list R)
  latent (draw : bool * bool -> sample bool) (kl : params -> nat -> nat -> (nat -> bool) -> list R) th (h : bool -> R),
  let space := [(true, true); (true, false); (false, true); (false, false)] in
  let dens := fun x => draw_density q_log_prob latent (fun _ => 1) th (draw x) in
  (forall x, posed latent (draw x)) /\ sumR (map dens space) = 1 /\
  sumR (map (fun x => exp (log_joint log_prob latent [] th (draw x))) space) = 1 /\
  (forall x, log_q q_log_prob latent [] th (draw x) = log_joint log_prob latent [] th (draw x)) /\
  (forall zq own, In zq latent -> kl th (fst zq) (snd zq) own = [sumR (map (fun u => exp (sumR (q_log_prob th (snd zq) own u)) *
     (sumR (q_log_prob th (snd zq) own u) - sumR (log_prob th (fst zq) (map (fun zq => (fst zq, own (fst zq))) latent) u))) [true; false])]) /\
  (forall own n, (0 < n)%nat -> expected_by (fun x => In x space) (by_sum space) dens n
     (fun l => reparam_kl_loss log_prob latent [] (fun _ => []) kl [] own (fixed_draws (map draw l)) th) (h (own 0%nat))) /\
  exp (sumR (log_prob th 0%nat [] true)) * h true + exp (sumR (log_prob th 0%nat [] false)) * h false < - ln 1.
Proof.
  exists hp, hq, hlat, hdraw, hkl, th0, hh. cbv zeta. split; [exact hposed|]. split; [exact htotal|]. split; [|split; [exact hjoint|split; [reflexivity|split; [exact hexpected|]]]].
  - rewrite <- htotal. f_equal. apply map_ext. intros x. apply hdens_joint.
  - cbn [hp sumR]. rewrite Rplus_0_r, exp_half, ln_1. unfold hh. assert (0 < ln 3) by (rewrite <- ln_1; apply ln_increasing; lra). lra.
Qed.

(** The same model with fair approximations. *)
Definition fq (_ : params) (_ : nat) (_ : nat -> bool) (_ : bool) : list R := [- ln 2].
Lemma fdens_at : forall x, draw_density fq hlat (fun _ => 1) th0 (hdraw x) = 1 / 4.
Proof. intros x. unfold draw_density, log_q, fq, hlat. cbn. rewrite Rmult_1_l. replace (1 * (- ln 2 + 0) + (1 * (- ln 2 + 0) + 0)) with (- ln 2 + - ln 2) by ring. rewrite exp_plus, exp_half. field. Qed.
Lemma hevidence : by_sum hspace (fun x => exp (log_joint hp hlat [] th0 (hdraw x))) 1.
Proof. unfold by_sum. rewrite <- htotal. f_equal. apply map_ext. intros x. apply hdens_joint. Qed.
Lemma ln_4 : ln 4 = 2 * ln 2.
Proof. replace 4 with (2 * 2) by ring. rewrite ln_mult by lra. ring. Qed.
Lemma hjoint_at : forall x, log_joint hp hlat [] th0 (hdraw x) = (if fst x then tq else oq) + (if snd x then oq else tq).
Proof. intros [a b]. unfold log_joint, scaled_sum. destruct a, b; cbn; ring. Qed.
Lemma fair_value : by_sum hspace (fun x => draw_density fq hlat (fun _ => 1) th0 (hdraw x) * (log_joint hp hlat [] th0 (hdraw x) - log_q fq hlat [] th0 (hdraw x))) (ln 3 - ln 4).
Proof. unfold by_sum, hspace. cbn [map sumR]. rewrite !fdens_at, !hjoint_at. unfold log_q, fq, hlat. cbn. unfold tq, oq. rewrite ln_4. field. Qed.
Lemma fair_total : by_sum hspace (fun x => draw_density fq hlat (fun _ => 1) th0 (hdraw x)) 1.
Proof. unfold by_sum, hspace. cbn [map sumR]. rewrite !fdens_at. field. Qed.
Lemma fair_joint : by_sum hspace (fun x => draw_density fq hlat (fun _ => 1) th0 (hdraw x) * log_joint hp hlat [] th0 (hdraw x)) (ln 3 - 2 * ln 4).
Proof. unfold by_sum, hspace. cbn [map sumR]. rewrite !fdens_at, !hjoint_at. cbn. unfold tq, oq. field. Qed.
Lemma fair_entropy : forall zq, In zq hlat -> by_sum hspace (fun x => draw_density fq hlat (fun _ => 1) th0 (hdraw x) * - log_q_of fq th0 (hdraw x) zq) (sumR [ln 2]).
Proof. intros zq _. unfold by_sum, hspace. cbn [map sumR]. rewrite !fdens_at. unfold log_q_of, fq. cbn. field. Qed.

(** One latent variable. *)
Definition op (th : params) (z : nat) (d : list (nat * bool)) (v : bool) : list R :=
  match z with 0%nat => [- ln 2] | _ => [if hval d 0 then oq else tq] end.
Definition olat : list (nat * nat) := [(0, 10)]%nat.
Definition odraw (x : bool) : sample bool := mksample (fun _ => x) [(1%nat, true)] (fun _ => true).
Lemma odens_at : forall x, draw_density hq olat (fun _ => 1) th0 (odraw x) = if x then 3 / 4 else 1 / 4.
Proof. intros x. unfold draw_density, log_q, hq, olat. cbn. rewrite Rmult_1_l. destruct x; cbn; [rewrite <- exp_tq|rewrite <- exp_oq]; f_equal; ring. Qed.
Lemma oposed : forall x, posed olat (odraw x).
Proof. intros x. unfold posed. cbn. repeat split; [repeat constructor; cbn; intuition discriminate|repeat constructor; cbn; intuition discriminate|]. intros k [<-|[]] [E|[]]; discriminate. Qed.
Lemma ototal : by_sum [true; false] (fun x => draw_density hq olat (fun _ => 1) th0 (odraw x)) 1.
Proof. unfold by_sum. cbn [map sumR]. rewrite !odens_at. field. Qed.
Lemma oevidence : by_sum [true; false] (fun x => exp (log_joint op olat [] th0 (odraw x))) (1 / 2).
Proof.
  unfold by_sum, log_joint, scaled_sum. cbn. rewrite !Rmult_1_l, !Rplus_0_r, !exp_plus, exp_half, exp_tq, exp_oq. field.
Qed.
Lemma okl : forall zq, In zq olat -> by_sum [true; false] (fun x => draw_density hq olat (fun _ => 1) th0 (odraw x) *
  (log_q_of hq th0 (odraw x) zq - log_prior_of op olat th0 (odraw x) zq)) (sumR [3 / 4 * ln 3 - ln 2]).
Proof. intros zq [<-|[]]. unfold by_sum. cbn [map sumR]. rewrite !odens_at. unfold log_q_of, log_prior_of. cbn. unfold tq, oq. rewrite ln_4. field. Qed.
Lemma olik : by_sum [true; false] (fun x => draw_density hq olat (fun _ => 1) th0 (odraw x) * log_lik op olat [] th0 (odraw x)) (ln 3 / 4 - ln 4).
Proof. unfold by_sum. cbn [map sumR]. rewrite !odens_at. unfold log_lik, scaled_sum. cbn. unfold tq, oq. field. Qed.
Lemma half_pos : 0 < 1 / 2.
Proof. lra. Qed.
Lemma hdistinct : NoDup (map fst hlat ++ [2%nat]) /\ NoDup (map snd hlat).
Proof. split; repeat constructor; cbn; intuition discriminate. Qed.
Notation hsome_draws := (fixed_draws (map hdraw [(true, false); (false, false); (true, true)])).
Lemma hsome : hsome_draws <> [].
Proof. discriminate. Qed.
Lemma hdraws_posed : forall d, In d hsome_draws -> posed hlat (d th0).
Proof. intros d Hd. apply (fixed_posed (fun _ => True) hlat hdraw th0 [(true, false); (false, false); (true, true)]); [intros x _; apply hposed|auto|exact Hd]. Qed.
Lemma hdraws_exact : forall d, In d hsome_draws -> log_q hq hlat [] th0 (d th0) = log_joint hp hlat [] th0 (d th0) - ln 1.
Proof. intros d Hd. rewrite ln_1, Rminus_0_r. unfold fixed_draws in Hd. rewrite map_map in Hd. apply in_map_iff in Hd. destruct Hd as [x [<- _]]. apply hjoint. Qed.
