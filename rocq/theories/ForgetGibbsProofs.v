(** * Proofs for C89: Gibbs sampling on finite spaces. *)
From Coquelicot Require Import Coquelicot.
From Coq Require Import Reals List Arith Bool Lia Lra.
From Verif Require Import Transform Feed Gibbs GibbsSpec GibbsProofs GibbsLawProofs MHProofs VIIntegralSpec InvariantProofs GibbsBlockSpec GibbsBlockProofs GibbsBlockExampleProofs.
From Verif Require Import ForgetSpec ForgetProofs.
Import ListNotations.
Local Open Scope R_scope.
Set Bullet Behavior "Strict Subproofs".

Lemma sum_part : forall {A} (f : A -> R) l x, (forall y, In y l -> 0 <= f y) -> In x l -> f x <= sumR (map f l).
Proof.
  intros A f l x. induction l as [|y l IH]; intros H Hx; [destruct Hx|]. cbn [map sumR].
  assert (0 <= sumR (map f l)) by (apply (by_sum_positive l f); [intros; apply H; right; assumption|reflexivity]).
  pose proof (H y (or_introl eq_refl)). destruct Hx as [->|Hx]; [lra|]. pose proof (IH (fun z Hz => H z (or_intror Hz)) Hx). lra.
Qed.
Lemma sum_le : forall {A} (f h : A -> R) l, (forall x, In x l -> f x <= h x) -> sumR (map f l) <= sumR (map h l).
Proof. intros A f h l H. induction l as [|x l IH]; cbn [map sumR]; [lra|]. pose proof (H x (or_introl eq_refl)). specialize (IH (fun y Hy => H y (or_intror Hy))). lra. Qed.

Section Gibbs.
Context {V : Type} (latent : list nat) (D : nat -> V -> Prop) (values : nat -> list V) (p : list V -> R) (c : nat -> list V -> R)
  (space : list (list V)) (rest : nat -> (list V -> R) -> R -> Prop).
Notation I := (fun i => by_sum (values i)).
Notation J := (by_sum space).
Hypothesis Hlat : NoDup latent.
Hypothesis Hint : integration latent D I p c J rest (fun _ => True).
Hypothesis HV : forall i v, (i < length latent)%nat -> D i v -> In v (values i).
Hypothesis HV' : forall i v, (i < length latent)%nat -> In v (values i) -> D i v.
Hypothesis HS : forall s, In s space <-> inside latent D s.
Hypothesis PP : forall s, inside latent D s -> 0 < p s.
Notation key := (key latent).
Notation inside := (inside latent D).
Notation cdens := (conditional_density p c).

Lemma c_positive : forall i s, (i < length latent)%nat -> inside s -> 0 < c i s.
Proof.
  intros i s Hi Hs. destruct (normalised _ _ _ _ _ _ _ _ Hint i s Hi Hs) as [N Nz]. cbv beta in N. unfold by_sum in N.
  assert (0 <= c i s); [|lra]. rewrite <- N. apply (by_sum_positive (values i) (fun v => p (replaced i v s))); [|reflexivity].
  intros v Hv. left. apply PP. apply inside_replaced; auto.
Qed.

Lemma cdens_pos : forall i s v, (i < length latent)%nat -> inside s -> D i v -> 0 < cdens i s v.
Proof.
  intros i s v Hi Hs Hv. unfold conditional_density. apply Rmult_lt_0_compat; [apply PP; apply inside_replaced; auto|apply Rinv_0_lt_compat, c_positive; auto].
Qed.

Lemma cdens_total : forall i s, (i < length latent)%nat -> inside s -> sumR (map (cdens i s) (values i)) = 1.
Proof.
  intros i s Hi Hs. destruct (normalised _ _ _ _ _ _ _ _ Hint i s Hi Hs) as [N Nz]. cbv beta in N. unfold by_sum in N.
  unfold conditional_density. replace 1 with (c i s * / c i s) by (field; exact Nz). rewrite <- N at 1. clear N.
  induction (values i) as [|v l IH]; cbn [map sumR]; [ring|]. rewrite IH. unfold Rdiv. ring.
Qed.

Lemma cdens_low : exists d, 0 < d /\ forall i s v, (i < length latent)%nat -> inside s -> D i v -> d <= cdens i s v.
Proof.
  assert (Q : forall n, (n <= length latent)%nat -> exists d, 0 < d /\ forall i s v, (i < n)%nat -> inside s -> D i v -> d <= cdens i s v).
  { induction n as [|n IH]; intros Hn; [exists 1; split; [lra|intros; lia]|]. destruct (IH ltac:(lia)) as (d & D0 & H).
    destruct (list_low (list_prod space (values n)) (fun sv => cdens n (fst sv) (snd sv))) as (e & E0 & E).
    { intros [s v] Hin. apply in_prod_iff in Hin. destruct Hin as [Hs Hv]. cbn [fst snd]. apply cdens_pos; [lia|apply HS; exact Hs|apply HV'; [lia|exact Hv]]. }
    exists (Rmin d e). split; [apply Rmin_glb_lt; assumption|]. intros i s v Hi Hs Hv.
    destruct (Nat.eq_dec i n) as [->|Ni].
    - eapply Rle_trans; [apply Rmin_r|]. apply (E (s, v)). apply in_prod_iff. split; [apply HS; exact Hs|apply HV; [lia|exact Hv]].
    - eapply Rle_trans; [apply Rmin_l|]. apply H; [lia|exact Hs|exact Hv]. }
  destruct (Q _ (le_n _)) as (d & D0 & H). exists d. split; [exact D0|exact H].
Qed.

Variable d : R.
Hypothesis D0 : 0 < d.
Hypothesis DL : forall i s v, (i < length latent)%nat -> inside s -> D i v -> d <= cdens i s v.

(** ** Affine functions *)
Lemma drawing_affine : forall block a b f todo h, (forall i, In i todo -> (i < length latent)%nat) -> drawing latent D I p c block todo f h ->
  drawing latent D I p c block todo (fun s => a * f s + b) (fun s w => a * h s w + b).
Proof.
  intros block a b f. induction todo as [|i todo IH]; intros h Hb Hd.
  - cbn [drawing] in *. intros s w t Hs Hw Ht. rewrite (Hd s w t Hs Hw Ht). reflexivity.
  - destruct Hd as (h' & Hd & Hh). exists (fun s w => a * h' s w + b). split; [apply IH; [intros; apply Hb; right; assumption|exact Hd]|].
    intros s w Hs Hw. specialize (Hh s w Hs Hw). cbv beta in *. unfold by_sum in *. rewrite <- Hh.
    pose proof (cdens_total i s (Hb i (or_introl eq_refl)) Hs) as T.
    match goal with |- _ = ?x + b => replace (x + b) with (x + b * sumR (map (cdens i s) (values i))) by (rewrite T; ring) end. clear.
    induction (values i) as [|v l IH]; cbn [map sumR]; [ring|]. rewrite IH. ring.
Qed.
Lemma block_affine : forall block a b f g, (forall i, In i block -> (i < length latent)%nat) -> after_block latent D I p c block f g ->
  after_block latent D I p c block (fun s => a * f s + b) (fun s => a * g s + b).
Proof.
  intros block a b f g Hb (h & Hd & Hg). exists (fun s w => a * h s w + b). split; [apply drawing_affine; assumption|].
  intros s w Hs Hw. rewrite (Hg s w Hs Hw). reflexivity.
Qed.
Lemma scan_affine : forall order a b f g, scan_order latent order -> after_scan latent D I p c order f g ->
  after_scan latent D I p c order (fun s => a * f s + b) (fun s => a * g s + b).
Proof.
  intros order a b f. induction order as [|k order IH]; intros g Ho Hg.
  - cbn in *. intros s Hs. rewrite (Hg s Hs). reflexivity.
  - destruct Hg as (h & Hh & Hg). exists (fun s => a * h s + b). split; [apply IH; [intros x Hx; apply Ho; right; exact Hx|exact Hh]|].
    apply block_affine; [apply (Ho k (or_introl eq_refl))|exact Hg].
Qed.

(** ** Reaching any state *)
Lemma drawing_low : forall block f wt, inside (map wt latent) -> (forall i, In i block -> (i < length latent)%nat) -> (forall s, inside s -> 0 <= f s) ->
  forall todo h, (forall i, In i todo -> (i < length latent)%nat) -> drawing latent D I p c block todo f h ->
  forall s w, inside s -> inside (map w latent) ->
  exists w', inside (map w' latent) /\ (forall i, In i todo -> w' (key i) = wt (key i)) /\
    (forall i, (i < length latent)%nat -> ~ In i todo -> w' (key i) = w (key i)) /\
    d ^ length todo * f (put latent w' block s) <= h s w /\ 0 <= f (put latent w' block s).
Proof.
  intros block f wt Hwt Hblock Hf. induction todo as [|i todo IH]; intros h Hb Hd s w Hs Hw.
  - exists w. split; [exact Hw|]. split; [intros i []|]. split; [reflexivity|]. cbn [drawing] in Hd.
    rewrite (Hd s w _ Hs Hw (scanned_put latent Hlat block w s (proj1 Hs) Hblock)). cbn [length pow]. split; [lra|]. apply Hf. apply put_inside; assumption.
  - destruct Hd as (h' & Hd & Hh). assert (Hi : (i < length latent)%nat) by (apply Hb; left; reflexivity).
    assert (Hb' : forall j, In j todo -> (j < length latent)%nat) by (intros; apply Hb; right; assumption).
    assert (Hv : D i (wt (key i))) by (apply (proj2 Hwt i); apply nth_map_w; exact Hi).
    pose (w1 := fun k => if Nat.eqb k (key i) then wt (key i) else w k).
    assert (Hw1 : inside (map w1 latent)) by (apply inside_upd; auto).
    assert (NN : forall v, In v (values i) -> 0 <= h' s (fun k => if Nat.eqb k (key i) then v else w k)).
    { intros v Hin. destruct (IH h' Hb' Hd s (fun k => if Nat.eqb k (key i) then v else w k) Hs) as (u & _ & _ & _ & L & P0); [apply inside_upd; auto|].
      eapply Rle_trans; [|exact L]. apply Rmult_le_pos; [apply pow_le; lra|exact P0]. }
    destruct (IH h' Hb' Hd s w1 Hs Hw1) as (w' & A1 & A2 & A3 & A4 & A5).
    exists w'. split; [exact A1|]. split; [|split; [|split; [|exact A5]]].
    + intros j [<-|Hj]; [|apply A2; exact Hj]. destruct (in_dec Nat.eq_dec i todo) as [Hin|Hin]; [apply A2; exact Hin|].
      rewrite (A3 i Hi Hin). unfold w1. rewrite Nat.eqb_refl. reflexivity.
    + intros j Hj Hn. rewrite (A3 j Hj); [|intros Hin; apply Hn; right; exact Hin]. unfold w1.
      destruct (Nat.eqb_spec (key j) (key i)) as [E|E]; [|reflexivity]. exfalso. apply Hn. left. apply (key_inj latent Hlat); auto.
    + specialize (Hh s w Hs Hw). cbv beta in Hh. unfold by_sum in Hh. rewrite <- Hh.
      eapply Rle_trans; [|apply (sum_part (fun v => cdens i s v * h' s (fun k => if Nat.eqb k (key i) then v else w k)) (values i) (wt (key i))); [|apply HV; assumption]].
      * cbn [length pow]. rewrite Rmult_assoc. fold w1. apply Rmult_le_compat; [lra|apply Rmult_le_pos; [apply pow_le; lra|exact A5]|apply DL; assumption|exact A4].
      * intros v Hin. apply Rmult_le_pos; [left; apply cdens_pos; auto|apply NN; exact Hin].
Qed.

Lemma put_same : forall b (w1 w2 : nat -> V) s, (forall i, In i b -> w1 (key i) = w2 (key i)) -> put latent w1 b s = put latent w2 b s.
Proof.
  unfold put. induction b as [|i b IH]; intros w1 w2 s H; [reflexivity|]. cbn [fold_left]. rewrite (H i (or_introl eq_refl)). apply IH. intros j Hj. apply H. right. exact Hj.
Qed.

Lemma block_low : forall block f g wt, inside (map wt latent) -> (forall i, In i block -> (i < length latent)%nat) -> (forall s, inside s -> 0 <= f s) ->
  after_block latent D I p c block f g -> forall s, inside s -> d ^ length block * f (put latent wt block s) <= g s.
Proof.
  intros block f g wt Hwt Hb Hf (h & Hd & Hg) s Hs. rewrite (Hg s wt Hs Hwt).
  destruct (drawing_low block f wt Hwt Hb Hf block h Hb Hd s wt Hs Hwt) as (w' & _ & A2 & _ & A4 & _).
  rewrite <- (put_same block w' wt s A2). exact A4.
Qed.

Lemma scan_low : forall wt, inside (map wt latent) -> forall order f g, scan_order latent order -> (forall s, inside s -> 0 <= f s) ->
  after_scan latent D I p c order f g -> forall s, inside s ->
  d ^ length (concat order) * f (put latent wt (concat order) s) <= g s /\ 0 <= g s.
Proof.
  intros wt Hwt. induction order as [|b order IH]; intros f g Ho Hf Hg s Hs.
  - cbn in *. rewrite (Hg s Hs). pose proof (Hf s Hs). lra.
  - destruct Hg as (h & Hh & Hg). destruct (Ho b (or_introl eq_refl)) as (_ & _ & Hb).
    assert (Ho' : scan_order latent order) by (intros x Hx; apply Ho; right; exact Hx).
    pose proof (IH f h Ho' Hf Hh) as Q. pose proof (block_low b h g wt Hwt Hb (fun s Hs => proj2 (Q s Hs)) Hg s Hs) as B.
    assert (Hp : inside (put latent wt b s)) by (apply put_inside; assumption).
    destruct (Q _ Hp) as [Q1 Q2]. cbn [concat]. rewrite app_length, pow_add. unfold put in *. rewrite fold_left_app.
    pose proof (pow_le d (length b) ltac:(lra)) as P1. split.
    + rewrite Rmult_assoc. eapply Rle_trans; [|exact B]. apply Rmult_le_compat_l; [exact P1|exact Q1].
    + eapply Rle_trans; [|exact B]. apply Rmult_le_pos; assumption.
Qed.

Variable order : list (list nat).
Hypothesis Ho : scan_order latent order.
Hypothesis Hall : forall i, (i < length latent)%nat -> In i (concat order).
Hypothesis Hfree : forall block, In block order -> free_block latent D p c block.
Variable z0 : list V.
Hypothesis Hz0 : inside z0.
Notation eps := (d ^ length (concat order)).
Notation Z := (sumR (map p space)).

Lemma scan_any : forall f g lo s t, (forall s, inside s -> lo <= f s) -> after_scan latent D I p c order f g -> inside s -> inside t ->
  eps * (f t - lo) <= g s - lo.
Proof.
  intros f g lo s t Hf Hg Hs Ht.
  destruct (Nat.eq_dec (length latent) 0) as [E|E].
  { assert (order = []) as E'.
    { destruct order as [|b o]; [reflexivity|]. exfalso. destruct (Ho b (or_introl eq_refl)) as (N1 & _ & N3). destruct b as [|i b]; [congruence|]. specialize (N3 i (or_introl eq_refl)). lia. }
    rewrite E' in *. cbn in *. rewrite (Hg s Hs). destruct s as [|? s]; [|destruct Hs as [L _]; rewrite E in L; discriminate]. destruct t as [|? t]; [|destruct Ht as [L _]; rewrite E in L; discriminate]. lra. }
  destruct (some_values latent D Hlat z0 Hz0 ltac:(lia)) as [w0 Hw0].
  pose (wt := vals latent w0 t). assert (Hwt : inside (map wt latent)) by (apply inside_vals; auto).
  pose proof (scan_affine order 1 (- lo) f g Ho Hg) as Ga.
  destruct (scan_low wt Hwt order (fun s => 1 * f s + - lo) (fun s => 1 * g s + - lo) Ho) with (s := s) as [Q _]; [intros u Hu; specialize (Hf u Hu); lra|exact Ga|exact Hs|].
  assert (Et : put latent wt (concat order) s = t).
  { apply nth_ext_error. intros j. rewrite put_nth; [|apply Hs|].
    - destruct (in_dec Nat.eq_dec j (concat order)) as [Hj|Hj].
      + assert (Hjl : (j < length latent)%nat).
        { apply in_concat in Hj. destruct Hj as (b & Hb & Hj). destruct (Ho b Hb) as (_ & _ & N). apply N; exact Hj. }
        destruct (nth_error t j) as [v|] eqn:Ev; [|apply nth_error_None in Ev; destruct Ht as [L _]; lia].
        f_equal. unfold wt. apply vals_key; [exact Hlat|apply Ht|exact Ev].
      + assert (Hjl : (length latent <= j)%nat) by (destruct (le_lt_dec (length latent) j) as [L|L]; [exact L|exfalso; apply Hj, Hall, L]).
        transitivity (@None V); [apply nth_error_None|symmetry; apply nth_error_None]; [destruct Hs as [L _]|destruct Ht as [L _]]; lia.
    - intros i Hi. apply in_concat in Hi. destruct Hi as (b & Hb & Hi). destruct (Ho b Hb) as (_ & _ & N). apply N; exact Hi. }
  rewrite Et in Q. lra.
Qed.

Lemma Z_pos : 0 < Z.
Proof.
  pose proof (proj2 (HS z0) Hz0) as H0. pose proof (PP z0 Hz0).
  pose proof (sum_part p space z0 (fun y Hy => Rlt_le _ _ (PP y (proj1 (HS y) Hy))) H0). lra.
Qed.

Lemma scan_mean : forall f g lo s, (forall s, inside s -> lo <= f s) -> after_scan latent D I p c order f g -> inside s ->
  eps * (sumR (map (fun s => p s * f s) space) / Z) + (1 - eps) * lo <= g s.
Proof.
  intros f g lo s Hf Hg Hs. pose proof Z_pos as Z0.
  assert (S1 : sumR (map (fun t => p t * (eps * (f t - lo))) space) <= sumR (map (fun t => p t * (g s - lo)) space)).
  { apply sum_le. intros t Ht. apply HS in Ht. apply Rmult_le_compat_l; [left; apply PP; exact Ht|]. apply scan_any; assumption. }
  assert (E1 : sumR (map (fun t => p t * (eps * (f t - lo))) space) = eps * (sumR (map (fun s => p s * f s) space) - lo * Z)).
  { clear. induction space as [|x l IH]; cbn [map sumR]; [ring|]. rewrite IH. ring. }
  assert (E2 : sumR (map (fun t => p t * (g s - lo)) space) = (g s - lo) * Z).
  { clear. induction space as [|x l IH]; cbn [map sumR]; [ring|]. rewrite IH. ring. }
  rewrite E1, E2 in S1. set (m := sumR (map (fun s => p s * f s) space)) in *.
  apply (Rmult_le_compat_r (/ Z)) in S1; [|left; apply Rinv_0_lt_compat; exact Z0].
  replace ((g s - lo) * Z * / Z) with (g s - lo) in S1 by (field; lra). replace (eps * (m - lo * Z) * / Z) with (eps * (m / Z) - eps * lo) in S1 by (field; lra). lra.
Qed.

Lemma scan_bounds : forall f g lo hi s, (forall s, inside s -> lo <= f s <= hi) -> after_scan latent D I p c order f g -> inside s ->
  let m := sumR (map (fun s => p s * f s) space) / Z in eps * m + (1 - eps) * lo <= g s <= eps * m + (1 - eps) * hi.
Proof.
  intros f g lo hi s Hf Hg Hs m. split; [apply scan_mean; [intros; apply Hf; assumption|exact Hg|exact Hs]|].
  pose proof (scan_affine order (-1) 0 f g Ho Hg) as Ga.
  pose proof (scan_mean (fun s => -1 * f s + 0) (fun s => -1 * g s + 0) (- hi) s ltac:(intros u Hu; cbv beta; specialize (Hf u Hu); lra) Ga Hs) as Q. cbv beta in Q.
  replace (sumR (map (fun s => p s * (-1 * f s + 0)) space)) with (- sumR (map (fun s => p s * f s) space)) in Q.
  - unfold Rdiv in Q. rewrite Ropp_mult_distr_l_reverse in Q. unfold m, Rdiv. lra.
  - clear. induction space as [|x l IH]; cbn [map sumR]; [ring|]. rewrite <- IH. ring.
Qed.

Lemma eps_one : eps <= 1.
Proof.
  (* constants are kept by a scan *)
  destruct (Rle_lt_dec eps 1) as [L|L]; [exact L|exfalso].
  assert (Q : forall k, d <= 1 -> d ^ k <= 1) by (intros k Hd; induction k as [|k IH]; cbn [pow]; [lra|]; pose proof (pow_le d k ltac:(lra)); apply Rle_trans with (1 * 1); [apply Rmult_le_compat; lra|lra]).
  destruct (Rle_lt_dec d 1) as [L1|L1]; [specialize (Q (length (concat order)) L1); lra|].
  destruct (Nat.eq_dec (length latent) 0) as [E|E].
  { destruct order as [|b o]; [cbn in L; lra|]. destruct (Ho b (or_introl eq_refl)) as (N1 & _ & N3). destruct b as [|i b]; [congruence|]. specialize (N3 i (or_introl eq_refl)). lia. }
  assert (Hi : (0 < length latent)%nat) by lia. pose proof (cdens_total 0 z0 Hi Hz0) as T.
  destruct (nth_error z0 0) as [v|] eqn:Ev; [|apply nth_error_None in Ev; destruct Hz0 as [Lz _]; lia].
  pose proof (proj2 Hz0 0%nat v Ev) as Dv.
  pose proof (sum_part (cdens 0 z0) (values 0) v (fun y Hy => Rlt_le _ _ (cdens_pos 0 z0 y Hi Hz0 (HV' 0 y Hi Hy))) (HV 0 v Hi Dv)) as S1.
  pose proof (DL 0%nat z0 v Hi Hz0 Dv). lra.
Qed.

Lemma gibbs_bounds : forall n f g lo hi, (forall s, inside s -> lo <= f s <= hi) -> scans latent D I p c order n f g ->
  let m := sumR (map (fun s => p s * f s) space) / Z in
  (forall s, inside s -> m - (1 - eps) ^ n * (m - lo) <= g s <= m + (1 - eps) ^ n * (hi - m)) /\ J (fun s => p s * g s) (sumR (map (fun s => p s * f s) space)).
Proof.
  intros n f g lo hi Hf. cbv zeta. revert g. induction n as [|n IH]; intros g Hg.
  - cbn [scans] in Hg. split.
    + intros s Hs. rewrite (Hg s Hs). specialize (Hf s Hs). cbn [pow]. lra.
    + unfold by_sum. f_equal. apply map_ext_in. intros s Hs. apply HS in Hs. rewrite (Hg s Hs). reflexivity.
  - destruct Hg as (h & Hh & Hg). destruct (IH h Hh) as [B Jh].
    pose proof (scan_invariant' latent D I p c J rest (fun _ => True) Hlat Hint (ex_intro _ z0 Hz0) order h g _ Ho Hfree Logic.I Hg Jh) as Jg.
    split; [|exact Jg]. intros s Hs. pose proof (scan_bounds h g _ _ s B Hg Hs) as Q. cbv zeta in Q. unfold by_sum in Jh. rewrite Jh in Q.
    set (m := sumR (map (fun s => p s * f s) space) / Z) in *. cbn [pow].
    split; [replace (m - (1 - eps) * (1 - eps) ^ n * (m - lo)) with (eps * m + (1 - eps) * (m - (1 - eps) ^ n * (m - lo))) by ring|
      replace (m + (1 - eps) * (1 - eps) ^ n * (hi - m)) with (eps * m + (1 - eps) * (m + (1 - eps) ^ n * (hi - m))) by ring]; lra.
Qed.

Lemma gibbs_close : forall n f g lo hi, (forall s, inside s -> lo <= f s <= hi) -> scans latent D I p c order n f g ->
  forall s, inside s -> Rabs (g s - sumR (map (fun s => p s * f s) space) / Z) <= (1 - eps) ^ n * (hi - lo).
Proof.
  intros n f g lo hi Hf Hg s Hs. destruct (gibbs_bounds n f g lo hi Hf Hg) as [B _]. specialize (B s Hs). cbv zeta in B.
  set (m := sumR (map (fun s => p s * f s) space) / Z) in *. pose proof Z_pos as Z0. pose proof eps_one as E1.
  assert (M : lo <= m <= hi).
  { unfold m. split; apply (Rmult_le_reg_r Z); try exact Z0; unfold Rdiv; rewrite Rmult_assoc, Rinv_l, Rmult_1_r by lra.
    - replace (lo * Z) with (sumR (map (fun s => lo * p s) space)) by (clear; induction space as [|x l IH]; cbn [map sumR]; [ring|rewrite IH; ring]).
      apply sum_le. intros t Ht. apply HS in Ht. pose proof (PP t Ht). rewrite Rmult_comm. apply Rmult_le_compat_l; [lra|apply Hf; exact Ht].
    - replace (hi * Z) with (sumR (map (fun s => hi * p s) space)) by (clear; induction space as [|x l IH]; cbn [map sumR]; [ring|rewrite IH; ring]).
      apply sum_le. intros t Ht. apply HS in Ht. pose proof (PP t Ht). rewrite (Rmult_comm hi). apply Rmult_le_compat_l; [lra|apply Hf; exact Ht]. }
  pose proof (pow_lt d (length (concat order)) D0) as P0. pose proof (pow_le (1 - eps) n ltac:(lra)) as P. set (r := (1 - eps) ^ n) in *.
  assert (A1 : r * (m - lo) <= r * (hi - lo)) by (apply Rmult_le_compat_l; lra).
  assert (A2 : r * (hi - m) <= r * (hi - lo)) by (apply Rmult_le_compat_l; lra).
  apply Rabs_le. lra.
Qed.
End Gibbs.

Lemma gibbs_forgets : forall {V} latent (D : nat -> V -> Prop) values p c space rest, NoDup latent ->
  integration latent D (fun i => by_sum (values i)) p c (by_sum space) rest (fun _ => True) ->
  (forall i v, (i < length latent)%nat -> (D i v <-> In v (values i))) ->
  (forall s, In s space <-> inside latent D s) -> (exists s, inside latent D s) -> (forall s, inside latent D s -> 0 < p s) ->
  forall order, scan_order latent order -> (forall i, (i < length latent)%nat -> exists block, In block order /\ In i block) ->
  (forall block, In block order -> free_block latent D p c block) ->
  exists rho, 0 <= rho < 1 /\ forall n f g lo hi, (forall s, inside latent D s -> lo <= f s <= hi) ->
    scans latent D (fun i => by_sum (values i)) p c order n f g -> forall s, inside latent D s ->
    Rabs (g s - sumR (map (fun s => p s * f s) space) / sumR (map p space)) <= rho ^ n * (hi - lo).
Proof.
  intros V latent D values p c space rest Hlat Hint HV HS [z0 Hz0] PP order Ho Hall Hfree.
  assert (HV1 : forall i v, (i < length latent)%nat -> D i v -> In v (values i)) by (intros; apply HV; assumption).
  assert (HV2 : forall i v, (i < length latent)%nat -> In v (values i) -> D i v) by (intros; apply HV; assumption).
  assert (Hall' : forall i, (i < length latent)%nat -> In i (concat order)) by (intros i Hi; destruct (Hall i Hi) as (b & B1 & B2); apply in_concat; eauto).
  destruct (cdens_low latent D values p c space rest Hint HV1 HV2 HS PP) as (d & D0 & DL).
  exists (1 - d ^ length (concat order)). split.
  - pose proof (pow_lt d (length (concat order)) D0).
    pose proof (eps_one latent D values p c space rest Hint HV1 HV2 PP d D0 DL order Ho Hall' Hfree z0 Hz0). lra.
  - intros n f g lo hi Hf Hg s Hs.
    apply (gibbs_close latent D values p c space rest Hlat Hint HV1 HV2 HS PP d D0 DL order Ho Hall' Hfree z0 Hz0 n f g lo hi Hf Hg s Hs).
Qed.

Lemma gibbs_demo :
  integration [4%nat; 7%nat; 9%nat] any_D bits_I triple_p (bits_c triple_p) (by_sum triples) (bits_rest triples) (fun _ => True) /\
  (forall i v, any_D i v <-> In v bits) /\ (forall s, In s triples <-> inside [4%nat; 7%nat; 9%nat] any_D s) /\
  (forall s, inside [4%nat; 7%nat; 9%nat] any_D s -> 0 < triple_p s) /\
  scan_order [4%nat; 7%nat; 9%nat] [[0%nat]; [1%nat; 2%nat]] /\
  (forall i, (i < 3)%nat -> exists block, In block [[0%nat]; [1%nat; 2%nat]] /\ In i block) /\
  (forall block, In block [[0%nat]; [1%nat; 2%nat]] -> free_block [4%nat; 7%nat; 9%nat] any_D triple_p (bits_c triple_p) block) /\
  forall n f, exists g, scans [4%nat; 7%nat; 9%nat] any_D bits_I triple_p (bits_c triple_p) [[0%nat]; [1%nat; 2%nat]] n f g.
Proof.
  destruct triple_demo as (H1 & H2 & H3 & H4). split; [exact H1|]. split.
  { intros i v. split; intros _; [destruct v; cbn; auto|exact Logic.I]. }
  split.
  { intros s. split; [|apply triples_all]. intros Hs. apply any_inside. cbn in Hs. intuition (subst; reflexivity). }
  split.
  { intros s [L _]. destruct s as [|z [|a [|b [|? s]]]]; cbn in L; try lia. destruct z, a, b; cbn; lra. }
  split; [exact H2|]. split.
  { intros i Hi. destruct i as [|[|[|i]]]; [exists [0%nat]|exists [1%nat; 2%nat]|exists [1%nat; 2%nat]|lia]; cbn; auto. }
  split; [exact H3|]. induction n as [|n IH]; intros f; [exists f; cbn; reflexivity|].
  destruct (IH f) as [h Hh]. destruct (H4 h) as [g Hg]. exists g. exists h. split; assumption.
Qed.
