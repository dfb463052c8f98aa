(** * Proofs for C92: Metropolis-Hastings and Gibbs on finite spaces. *)
From Coquelicot Require Import Coquelicot.
From Coq Require Import Reals List Arith Bool Lia Lra.
From Verif Require Import Ext Feed MonteCarlo Transform Gibbs GibbsSpec MH MHSpec HMC HMCSpec VI VISpec VIIntegralSpec ExtProofs VIProofs MHProofs GibbsProofs GibbsLawProofs InvariantSpec InvariantProofs.
From Verif Require Import GibbsBlockSpec GibbsBlockProofs ForgetSpec ForgetProofs ForgetWalkProofs ForgetGibbsProofs.
From Verif Require Import AverageSpec AverageProofs.
Import ListNotations.
Local Open Scope R_scope.
Set Bullet Behavior "Strict Subproofs".

Lemma apart_range : forall delta x y, 0 < delta -> 0 <= apart delta x y <= / (delta * delta) * Rsqr (x - y).
Proof.
  intros delta x y Hd. assert (P : 0 < / (delta * delta)) by (apply Rinv_0_lt_compat, Rmult_lt_0_compat; exact Hd).
  unfold apart. destruct (Rle_dec delta (Rabs (x - y))) as [L|L].
  - split; [lra|]. apply (Rmult_le_reg_l (delta * delta)); [apply Rmult_lt_0_compat; exact Hd|].
    rewrite <- Rmult_assoc, Rinv_r, Rmult_1_r, Rmult_1_l by (apply Rgt_not_eq, Rmult_lt_0_compat; exact Hd).
    rewrite (Rsqr_abs (x - y)). unfold Rsqr. apply Rmult_le_compat; lra.
  - split; [lra|]. apply Rmult_le_pos; [lra|apply Rle_0_sqr].
Qed.

(** What [average_square] says of a chain that forgets its start. *)
Lemma averages : forall {A : Type} (D : A -> Prop) (step : (A -> R) -> (A -> R) -> Prop) P,
  (forall c f a g b, step f a -> step g b -> step (fun z => f z + c * g z) (fun z => a z + c * b z)) ->
  (forall k, step (fun _ => k) (fun _ => k)) ->
  (forall f a g b, step f a -> step g b -> (forall z, D z -> f z <= g z) -> forall z, D z -> a z <= b z) ->
  (forall f, step f (P f)) ->
  forall phi m B rho, 0 <= rho < 1 -> 0 <= B -> (forall k z, D z -> Rabs (later P phi k z - m) <= rho ^ k * B) ->
  forall n, (0 < n)%nat ->
  ((exists G, path_mean D step n (fun l => Rsqr (average (map phi l) - m)) G) /\
   forall G, path_mean D step n (fun l => Rsqr (average (map phi l) - m)) G -> forall z, D z -> 0 <= G z <= 12 / Rsqr (1 - rho) * (B * B) / INR n) /\
  forall delta, 0 < delta ->
  ((exists G, path_mean D step n (fun l => apart delta (average (map phi l)) m) G) /\
   forall G, path_mean D step n (fun l => apart delta (average (map phi l)) m) G -> forall z, D z ->
     0 <= G z <= 12 / Rsqr (1 - rho) * (B * B) / INR n / (delta * delta)).
Proof.
  intros A D step P H1 H2 H3 H4 phi m B rho Hr HB HL n Hn. split; [split|].
  - exact (path_exists D step P H4 n _).
  - intros G HG z Hz. split.
    + refine (path_low D step H2 H3 0 n _ G HG _ z Hz). intros l _ _. apply Rle_0_sqr.
    + rewrite <- (Rmult_1_l (12 / _ * _ / _)). refine (average_square D step P H1 H2 H3 H4 phi m B rho Hr HB HL n 1 _ G Hn ltac:(lra) HG _ z Hz). intros l _ _. lra.
  - intros delta Hd. split; [exact (path_exists D step P H4 n _)|]. intros G HG z Hz. split.
    + refine (path_low D step H2 H3 0 n _ G HG _ z Hz). intros l _ _. apply apart_range. exact Hd.
    + unfold Rdiv at 1. rewrite Rmult_comm.
      refine (average_square D step P H1 H2 H3 H4 phi m B rho Hr HB HL n (/ (delta * delta)) _ G Hn _ HG _ z Hz).
      * left. apply Rinv_0_lt_compat, Rmult_lt_0_compat; exact Hd.
      * intros l _ _. apply apart_range. exact Hd.
Qed.

Section Walk.
Context {V : Type} (veq : forall a b : V, {a = b} + {a <> b}).
Variable log_prob proposal_log_prob : nat -> list (nat * V) -> V -> ext.
Variable latent proposals : list nat.
Variable data : list (nat * V).
Hypothesis WF : well_posed latent proposals data.
Hypothesis LD : log_densities log_prob proposal_log_prob.
Hypothesis NE : latent <> [].
Variable space : list (list V).
Hypothesis HL : forall z, In z space -> length z = length latent.
Notation p := (joint log_prob latent data).
Notation g := (propose_density veq proposal_log_prob latent proposals data).
Notation ap z z' := (accept_prob (p z' * g z' z) (p z * g z z')).
Hypothesis HG : forall z, In z space -> by_sum space (g z) 1.
Notation step := (one_step veq log_prob proposal_log_prob latent proposals data (fun z => In z space) (by_sum space)).
Definition walk_P (f : list V -> R) (z : list V) : R := sumR (map (fun z' => g z z' * (ap z z' * f z' + (1 - ap z z') * f z)) space).

Lemma walk_step : forall f a, (forall z, In z space -> a z = walk_P f z) -> step f a.
Proof.
  intros f a Ha. exists (fun z z' => ap z z' * f z' + (1 - ap z z') * f z). split; [|split; [|apply by_sum_exchangeable]].
  - intros z z' Hz Hz' Hg. eapply mean_step_exists with (D := fun z => In z space); eauto.
  - intros z Hz. unfold by_sum. rewrite (Ha z Hz). reflexivity.
Qed.
Lemma walk_eq : forall f a, step f a -> forall z, In z space -> a z = walk_P f z.
Proof.
  intros f a (e & He & Hp & _) z Hz. rewrite <- (Hp z Hz). unfold walk_P. f_equal. apply map_ext_in. intros z' Hz'.
  destruct (Req_dec (g z z') 0) as [->|Hg]; [ring|]. f_equal.
  exact (mean_step_eq veq log_prob proposal_log_prob latent proposals data WF LD NE (fun z => In z space) HL z z' f (e z z') Hz Hz' Hg (He z z' Hz Hz' Hg)).
Qed.
Lemma walk_add : forall c f a h b, step f a -> step h b -> step (fun z => f z + c * h z) (fun z => a z + c * b z).
Proof.
  intros c f a h b Hf Hh. apply walk_step. intros z Hz. rewrite (walk_eq f a Hf z Hz), (walk_eq h b Hh z Hz). unfold walk_P. clear.
  generalize space. intros l. induction l as [|x l IH]; cbn [map sumR]; [ring|]. rewrite <- IH. ring.
Qed.
Lemma walk_const : forall k, step (fun _ => k) (fun _ => k).
Proof.
  intros k. apply walk_step. intros z Hz. unfold walk_P. pose proof (HG z Hz) as E. unfold by_sum in E.
  transitivity (k * sumR (map (g z) space)); [rewrite E; ring|]. clear. generalize space. intros l.
  induction l as [|x l IH]; cbn [map sumR]; [ring|]. rewrite <- IH. ring.
Qed.
Lemma walk_mono : forall f a h b, step f a -> step h b -> (forall z, In z space -> f z <= h z) -> forall z, In z space -> a z <= b z.
Proof.
  intros f a h b Hf Hh L z Hz. rewrite (walk_eq f a Hf z Hz), (walk_eq h b Hh z Hz). apply sum_le. intros z' Hz'.
  apply Rmult_le_compat_l; [apply g_nonneg|]. pose proof (ap_range veq log_prob proposal_log_prob latent proposals data z z') as Q.
  pose proof (L z Hz). pose proof (L z' Hz'). apply Rplus_le_compat; apply Rmult_le_compat_l; lra.
Qed.
Lemma walk_later : forall phi k, steps_mean veq log_prob proposal_log_prob latent proposals data (fun z => In z space) (by_sum space) k phi (later walk_P phi k).
Proof.
  intros phi. induction k as [|k IH]; [constructor|]. econstructor; [exact IH| |reflexivity]. apply walk_step. reflexivity.
Qed.
End Walk.

Lemma walk_averages : forall {V} (veq : forall a b : V, {a = b} + {a <> b})
  (log_prob proposal_log_prob : nat -> list (nat * V) -> V -> ext) latent proposals data,
  well_posed latent proposals data -> log_densities log_prob proposal_log_prob -> latent <> [] ->
  forall space, space <> [] -> (forall z, In z space -> length z = length latent) ->
  let p := joint log_prob latent data in
  let g := propose_density veq proposal_log_prob latent proposals data in
  (forall z, In z space -> 0 < p z) -> (forall z z', In z space -> In z' space -> 0 < g z z') ->
  (forall z, In z space -> by_sum space (g z) 1) ->
  let step := one_step veq log_prob proposal_log_prob latent proposals data (fun z => In z space) (by_sum space) in
  exists K, 0 <= K /\ forall phi lo hi, (forall z, In z space -> lo <= phi z <= hi) ->
    let m := sumR (map (fun z => p z * phi z) space) / sumR (map p space) in
    forall n, (0 < n)%nat ->
    ((exists G, path_mean (fun z => In z space) step n (fun l => Rsqr (average (map phi l) - m)) G) /\
     forall G, path_mean (fun z => In z space) step n (fun l => Rsqr (average (map phi l) - m)) G ->
       forall z, In z space -> 0 <= G z <= K * Rsqr (hi - lo) / INR n) /\
    forall delta, 0 < delta ->
    ((exists G, path_mean (fun z => In z space) step n (fun l => apart delta (average (map phi l)) m) G) /\
     forall G, path_mean (fun z => In z space) step n (fun l => apart delta (average (map phi l)) m) G ->
       forall z, In z space -> 0 <= G z <= K * Rsqr (hi - lo) / INR n / (delta * delta)).
Proof.
  intros V veq lp plp latent proposals data WF LD NE space NS HL p g PP PG HG step.
  destruct (finite_forgets veq lp plp latent proposals data WF LD NE space NS HL PP PG HG) as (rho & Hr & HF).
  exists (12 / Rsqr (1 - rho)). split.
  { unfold Rdiv. apply Rmult_le_pos; [lra|]. left. apply Rinv_0_lt_compat. apply Rlt_0_sqr. lra. }
  intros phi lo hi Hphi m n Hn. change (Rsqr (hi - lo)) with ((hi - lo) * (hi - lo)).
  apply (averages (fun z => In z space) step (walk_P veq lp plp latent proposals data space)).
  - intros c f a h b. apply walk_add; assumption.
  - intros k. apply walk_const; assumption.
  - intros f a h b. apply walk_mono; assumption.
  - intros f. apply walk_step; try assumption. reflexivity.
  - exact Hr.
  - destruct space as [|z sp]; [congruence|]. specialize (Hphi z (or_introl eq_refl)). lra.
  - intros k z Hz. destruct (HF k phi lo hi Hphi) as (psi & _ & Q). apply Q; [|exact Hz]. apply walk_later; assumption.
  - exact Hn.
Qed.

Section GibbsScan.
Context {V : Type} (latent : list nat) (D : nat -> V -> Prop) (values : nat -> list V) (p : list V -> R) (c : nat -> list V -> R)
  (space : list (list V)) (rest : nat -> (list V -> R) -> R -> Prop).
Notation I := (fun i => by_sum (values i)).
Hypothesis Hlat : NoDup latent.
Hypothesis Hint : integration latent D I p c (by_sum space) rest (fun _ => True).
Hypothesis HV : forall i v, (i < length latent)%nat -> (D i v <-> In v (values i)).
Hypothesis HS : forall s, In s space <-> inside latent D s.
Hypothesis PP : forall s, inside latent D s -> 0 < p s.
Variable w0 : nat -> V.
Hypothesis Hw0 : inside latent D (map w0 latent).
Notation key := (key latent).
Notation inside := (inside latent D).
Notation cdens := (conditional_density p c).

Fixpoint draw_P (block todo : list nat) (f : list V -> R) (s : list V) (w : nat -> V) : R :=
  match todo with
  | [] => f (put latent w block s)
  | i :: todo' => sumR (map (fun v => cdens i s v * draw_P block todo' f s (fun k => if Nat.eqb k (key i) then v else w k)) (values i))
  end.
Fixpoint scan_P (order : list (list nat)) (f : list V -> R) : list V -> R :=
  match order with [] => f | b :: order' => fun s => draw_P b b (scan_P order' f) s w0 end.

Lemma draw_same : forall block f s todo w1 w2, (forall i, In i block -> ~ In i todo -> w1 (key i) = w2 (key i)) ->
  draw_P block todo f s w1 = draw_P block todo f s w2.
Proof.
  intros block f s. induction todo as [|i todo IH]; intros w1 w2 H; cbn [draw_P].
  - f_equal. apply put_same. intros i Hi. apply H; [exact Hi|intros []].
  - f_equal. apply map_ext. intros v. f_equal. apply IH. intros j Hj Hn.
    destruct (Nat.eqb_spec (key j) (key i)) as [E|E]; [reflexivity|]. apply H; [exact Hj|]. intros [<-|K]; [congruence|exact (Hn K)].
Qed.
Lemma draw_step : forall block f, (forall i, In i block -> (i < length latent)%nat) ->
  forall todo, (forall i, In i todo -> (i < length latent)%nat) -> drawing latent D I p c block todo f (draw_P block todo f).
Proof.
  intros block f Hb. induction todo as [|i todo IH]; intros Ht.
  - cbn [drawing draw_P]. intros s w t Hs Hw E. f_equal. pose proof (scanned_put latent Hlat block w s (proj1 Hs) Hb) as E'.
    unfold scanned_block in *. rewrite E in E'. clear - E'. set (u := put latent w block s) in *. clearbody u. revert u E'.
    induction t as [|x t IH]; intros [|y u] E; cbn in E; try congruence. injection E as -> E. f_equal. apply IH. exact E.
  - exists (draw_P block todo f). split; [apply IH; intros; apply Ht; right; assumption|]. intros s w Hs Hw. reflexivity.
Qed.
Lemma scan_step : forall order f, scan_order latent order -> after_scan latent D I p c order f (scan_P order f).
Proof.
  induction order as [|b order IH]; intros f Ho; [intros s _; reflexivity|].
  destruct (Ho b (or_introl eq_refl)) as (_ & _ & Hb). exists (scan_P order f). split; [apply IH; intros x Hx; apply Ho; right; exact Hx|].
  exists (draw_P b b (scan_P order f)). split; [apply draw_step; exact Hb|]. intros s w Hs Hw. cbn [scan_P]. apply draw_same. intros i H1 H2. destruct (H2 H1).
Qed.
Lemma draw_add : forall block k f h todo a b, drawing latent D I p c block todo f a -> drawing latent D I p c block todo h b ->
  drawing latent D I p c block todo (fun s => f s + k * h s) (fun s w => a s w + k * b s w).
Proof.
  intros block k f h. induction todo as [|i todo IH]; intros a b Ha Hb.
  - cbn [drawing] in *. intros s w t Hs Hw E. rewrite (Ha s w t Hs Hw E), (Hb s w t Hs Hw E). reflexivity.
  - destruct Ha as (a' & Ha & Ea). destruct Hb as (b' & Hb & Eb). exists (fun s w => a' s w + k * b' s w). split; [apply IH; assumption|].
    intros s w Hs Hw. specialize (Ea s w Hs Hw). specialize (Eb s w Hs Hw). cbv beta in *. unfold by_sum in *. rewrite <- Ea, <- Eb. clear.
    generalize (values i). intros l. induction l as [|v l IH]; cbn [map sumR]; [ring|]. rewrite IH. ring.
Qed.
Lemma scan_add : forall k order f a h b, after_scan latent D I p c order f a -> after_scan latent D I p c order h b ->
  after_scan latent D I p c order (fun s => f s + k * h s) (fun s => a s + k * b s).
Proof.
  intros k. induction order as [|bl order IH]; intros f a h b Ha Hb.
  - cbn in *. intros s Hs. rewrite (Ha s Hs), (Hb s Hs). reflexivity.
  - destruct Ha as (a' & Ha & a2 & Da & Ea). destruct Hb as (b' & Hb & b2 & Db & Eb). exists (fun s => a' s + k * b' s). split; [apply IH; assumption|].
    exists (fun s w => a2 s w + k * b2 s w). split; [apply draw_add; assumption|]. intros s w Hs Hw. rewrite (Ea s w Hs Hw), (Eb s w Hs Hw). reflexivity.
Qed.
Lemma draw_const : forall k block todo, (forall i, In i todo -> (i < length latent)%nat) ->
  drawing latent D I p c block todo (fun _ => k) (fun _ _ => k).
Proof.
  intros k block. induction todo as [|i todo IH]; intros Ht; [cbn [drawing]; reflexivity|]. exists (fun _ _ => k).
  split; [apply IH; intros; apply Ht; right; assumption|]. intros s w Hs Hw. cbv beta. unfold by_sum.
  pose proof (cdens_total latent D values p c space rest Hint i s (Ht i (or_introl eq_refl)) Hs) as T.
  transitivity (k * sumR (map (cdens i s) (values i))); [|rewrite T; ring]. clear. generalize (values i). intros l.
  induction l as [|v l IH]; cbn [map sumR]; [ring|]. rewrite IH. ring.
Qed.
Lemma scan_const : forall k order, scan_order latent order -> after_scan latent D I p c order (fun _ => k) (fun _ => k).
Proof.
  intros k. induction order as [|b order IH]; intros Ho; [intros s _; reflexivity|]. destruct (Ho b (or_introl eq_refl)) as (_ & _ & Hb).
  exists (fun _ => k). split; [apply IH; intros x Hx; apply Ho; right; exact Hx|]. exists (fun _ _ => k). split; [apply draw_const; exact Hb|reflexivity].
Qed.
Lemma scan_mono : forall order f a h b, scan_order latent order -> after_scan latent D I p c order f a -> after_scan latent D I p c order h b ->
  (forall s, inside s -> f s <= h s) -> forall s, inside s -> a s <= b s.
Proof.
  intros order f a h b Ho Ha Hb L s Hs.
  assert (HV1 : forall i v, (i < length latent)%nat -> D i v -> In v (values i)) by (intros; apply HV; assumption).
  assert (HV2 : forall i v, (i < length latent)%nat -> In v (values i) -> D i v) by (intros; apply HV; assumption).
  destruct (cdens_low latent D values p c space rest Hint HV1 HV2 HS PP) as (d & D0 & DL).
  destruct (scan_low latent D values p c space rest Hlat Hint HV1 HV2 PP d D0 DL w0 Hw0 order (fun s => h s + -1 * f s) (fun s => b s + -1 * a s) Ho) with (s := s) as [_ Q].
  - intros u Hu. specialize (L u Hu). lra.
  - apply scan_add; assumption.
  - exact Hs.
  - lra.
Qed.
Lemma scan_later : forall order f k, scan_order latent order -> scans latent D I p c order k f (later (scan_P order) f k).
Proof.
  intros order f k Ho. induction k as [|k IH]; [intros s _; reflexivity|]. exists (later (scan_P order) f k). split; [exact IH|]. apply scan_step. exact Ho.
Qed.
End GibbsScan.

Lemma gibbs_averages : forall {V} latent (D : nat -> V -> Prop) values p c space rest, NoDup latent -> latent <> [] ->
  integration latent D (fun i => by_sum (values i)) p c (by_sum space) rest (fun _ => True) ->
  (forall i v, (i < length latent)%nat -> (D i v <-> In v (values i))) ->
  (forall s, In s space <-> inside latent D s) -> (exists s, inside latent D s) -> (forall s, inside latent D s -> 0 < p s) ->
  forall order, scan_order latent order -> (forall i, (i < length latent)%nat -> exists block, In block order /\ In i block) ->
  (forall block, In block order -> free_block latent D p c block) ->
  let step := after_scan latent D (fun i => by_sum (values i)) p c order in
  exists K, 0 <= K /\ forall f lo hi, (forall s, inside latent D s -> lo <= f s <= hi) ->
    let m := sumR (map (fun s => p s * f s) space) / sumR (map p space) in
    forall n, (0 < n)%nat ->
    ((exists G, path_mean (inside latent D) step n (fun l => Rsqr (average (map f l) - m)) G) /\
     forall G, path_mean (inside latent D) step n (fun l => Rsqr (average (map f l) - m)) G ->
       forall s, inside latent D s -> 0 <= G s <= K * Rsqr (hi - lo) / INR n) /\
    forall delta, 0 < delta ->
    ((exists G, path_mean (inside latent D) step n (fun l => apart delta (average (map f l)) m) G) /\
     forall G, path_mean (inside latent D) step n (fun l => apart delta (average (map f l)) m) G ->
       forall s, inside latent D s -> 0 <= G s <= K * Rsqr (hi - lo) / INR n / (delta * delta)).
Proof.
  intros V latent D values p c space rest Hlat NE Hint HV HS [s0 Hs0] PP order Ho Hall Hfree step.
  destruct (gibbs_forgets latent D values p c space rest Hlat Hint HV HS (ex_intro _ s0 Hs0) PP order Ho Hall Hfree) as (rho & Hr & HF).
  destruct (some_values latent D Hlat s0 Hs0) as [w0 Hw0]; [destruct latent; [congruence|cbn; lia]|].
  exists (12 / Rsqr (1 - rho)). split.
  { unfold Rdiv. apply Rmult_le_pos; [lra|]. left. apply Rinv_0_lt_compat. apply Rlt_0_sqr. lra. }
  intros f lo hi Hf m n Hn. change (Rsqr (hi - lo)) with ((hi - lo) * (hi - lo)).
  apply (averages (inside latent D) step (scan_P latent values p c w0 order)).
  - intros k a b h q. apply scan_add.
  - intros k. apply (scan_const latent D values p c space rest Hint). exact Ho.
  - intros a b h q H1 H2. apply (scan_mono latent D values p c space rest Hlat Hint HV HS PP w0 Hw0 order); assumption.
  - intros h. apply scan_step; assumption.
  - exact Hr.
  - specialize (Hf s0 Hs0). lra.
  - intros k z Hz. apply (HF k f _ lo hi Hf); [apply scan_later; assumption|exact Hz].
  - exact Hn.
Qed.
