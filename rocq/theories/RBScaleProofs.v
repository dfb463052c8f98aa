(** * Proofs for C66 with scales: leaving terms out does not change the expected gradient. *)
From Coquelicot Require Import Coquelicot.
From Coq Require Import Reals List Arith Bool Lia Lra Permutation.
From Verif Require Import Graph GraphSpec GraphProofs Feed Transform VI VISpec VIProofs VIGradProofs RBSpec RBProofs.
Import ListNotations.
Local Open Scope R_scope.

Section S.
Context {V : Type}.
Notation dict := (list (nat * V)).
Variable log_prob : params -> nat -> dict -> V -> list R.
Variable q_log_prob : params -> nat -> (nat -> V) -> V -> list R.
Variable latent : list (nat * nat).
Variable scale : list (nat * R).
Variable reg : params -> list R.
Variable g : graph.
Variable tensor_of_var : nat -> nat.
Variable obs : dict.
Variable prior : nat -> V.
Variable vals : nat -> list V.
Variable order : list nat.
Variable e0 : nat -> V.
Variable th : params.
Variable v : nat.
Notation zs := (map fst latent).
Notation qs := (map snd latent).
Notation rvs := (zs ++ map fst obs).
Hypothesis Nk : NoDup rvs.
Hypothesis Nq : NoDup qs.
Hypothesis Dp : distinct_values g rvs.
Hypothesis Po : Permutation order qs.
Hypothesis First : parents_first g qs order.
Hypothesis Fm : model_follows g rvs log_prob.
Hypothesis Fq : approximation_follows g qs q_log_prob.
Hypothesis Act : acts_along_graph g tensor_of_var qs q_log_prob th v.
Hypothesis One : forall q e, In q qs -> nearby (fun t => sumR (map (fun u => exp (sumR (q_log_prob t q e u))) (vals q)) = 1) th v.
Hypothesis Diff : forall q e u, In q qs -> differentiable (fun t => sumR (q_log_prob t q e u)) th v.
Hypothesis Hr : differentiable (penalty reg) th v.
Variables ds VP VQ : list nat.
Hypothesis Facts : rb_facts latent g tensor_of_var obs v ds VP VQ.
Notation space := (all_draws vals order e0 obs prior).
Notation dens := (draw_density q_log_prob latent (fun _ : sample V => 1)).
Notation Q := (fun (x : R) (q : nat) (e : nat -> V) => sumR (q_log_prob (set_param th v x) q e (e q))).
Notation P := (fun (d : sample V) (k : nat) => p_term log_prob scale th (dict_swap latent d) k).

(** The scale of the latent variable of an approximation. *)
Fixpoint scale_of (l : list (nat * nat)) (q : nat) : R :=
  match l with [] => 1 | (z, q') :: l' => if Nat.eqb q' q then factor scale z else scale_of l' q end.
Notation sc := (scale_of latent).

Lemma scale_of_in : forall l z q, NoDup (map snd l) -> In (z, q) l -> scale_of l q = factor scale z.
Proof.
  induction l as [|[z' q'] l IH]; intros z q N H; [destruct H|]. simpl in *. inversion N; subst. destruct (Nat.eqb_spec q' q).
  - subst. destruct H as [E|H]; [congruence|]. exfalso. apply H2. apply in_map_iff. exists (z, q). auto.
  - destruct H as [E|H]; [congruence|]. apply IH; auto.
Qed.

(** Only [q0] follows the variable. *)
Definition only (q0 : nat) (t : params) (q : nat) (e : nat -> V) (u : V) : list R :=
  if Nat.eqb q q0 then q_log_prob t q e u else q_log_prob th q e u.

Lemma only_now : forall q0 q e u, only q0 th q e u = q_log_prob th q e u.
Proof. intros. unfold only. destruct (Nat.eqb q q0); auto. Qed.

Lemma log_q_only_now : forall q0 d, log_q (only q0) latent [] th d = log_q q_log_prob latent [] th d.
Proof. intros. unfold log_q. apply sumR_map_ext. intros zq _. rewrite only_now. auto. Qed.

Lemma log_q_only : forall q0 d x, In q0 qs -> log_q (only q0) latent [] (set_param th v x) d =
  Q x q0 (s_q d) + (log_q q_log_prob latent [] th d - sumR (q_log_prob th q0 (s_q d) (s_q d q0))).
Proof.
  intros q0 d x. unfold log_q. revert Nq. generalize latent as l. induction l as [|[z q] l IH]; intros N H; [destruct H|].
  cbn [map sumR fst snd] in *. inversion N; subst. unfold only at 1. destruct (Nat.eqb_spec q q0).
  - subst q. cbv beta. change (factor [] z) with 1.
    assert (E : forall l' : list (nat * nat), ~ In q0 (map snd l') -> sumR (map (fun zq => factor [] (fst zq) * sumR (only q0 (set_param th v x) (snd zq) (s_q d) (s_q d (snd zq)))) l') =
      sumR (map (fun zq => factor [] (fst zq) * sumR (q_log_prob th (snd zq) (s_q d) (s_q d (snd zq)))) l')).
    { intros l' Hn. apply sumR_map_ext. intros zq Hz. unfold only. destruct (Nat.eqb_spec (snd zq) q0); auto. exfalso. apply Hn. rewrite <- e. apply in_map. auto. }
    rewrite E by auto. lra.
  - destruct H as [H|H]; [congruence|]. specialize (IH H3 H). cbv beta in IH. rewrite IH. lra.
Qed.

Lemma score_one : forall q0 h, In q0 qs -> away ds h ->
  mean_of space (dens th) (fun d => Derive (fun x => Q x q0 (s_q d)) (th v) * h (s_q d)) = 0.
Proof.
  intros q0 h Hq Hh.
  assert (Z : mean_of space (draw_density (only q0) latent (fun _ => 1) th)
    (fun d => Derive (fun x => log_q (only q0) latent [] (set_param th v x) d) (th v) * h (s_q d)) = 0).
  { apply (score_away (only q0) latent reg g tensor_of_var (fun n => n) 0%nat obs prior vals order e0 th v) with (ds := ds) (VP := VP) (VQ := VQ); auto.
    - intros t q e e' u Hq' He. unfold only. destruct (Nat.eqb q q0); apply Fq; auto.
    - intros q Hq' Hn x e u. unfold only. destruct (Nat.eqb q q0); auto.
    - intros q e Hq'. unfold only. destruct (Nat.eqb q q0); [apply One; auto|].
      pose proof (locally_singleton _ _ (One q e Hq')) as L. cbv beta in L. rewrite set_same in L. unfold nearby. apply filter_forall. auto.
    - intros q e u Hq'. unfold only. destruct (Nat.eqb q q0); [apply Diff; auto|]. unfold differentiable.
      apply (ex_derive_const (K := R_AbsRing) (V := R_NormedModule)). }
  rewrite <- Z. unfold mean_of. apply sumR_map_ext. intros d Hd. f_equal; [unfold draw_density; rewrite log_q_only_now; auto|]. f_equal.
  rewrite (Derive_ext (fun x => log_q (only q0) latent [] (set_param th v x) d) _ (th v) (fun x => log_q_only q0 d x Hq)).
  rewrite Derive_plus; [rewrite Derive_const; lra| |apply (ex_derive_const (K := R_AbsRing) (V := R_NormedModule))].
  apply Diff. auto.
Qed.

(** The scaled log density of the draw. *)
Notation F := (fun (d : sample V) (x : R) => log_q q_log_prob latent scale (set_param th v x) d).
Notation F' := (fun (d : sample V) => sumR (map (fun q => sc q * Derive (fun x => Q x q (s_q d)) (th v)) qs)).

Lemma log_q_sc : forall t d, log_q q_log_prob latent scale t d = sumR (map (fun q => sc q * sumR (q_log_prob t q (s_q d) (s_q d q))) qs).
Proof.
  intros t d. unfold log_q. rewrite map_map. apply sumR_map_ext. intros [z q] H. cbn [fst snd]. rewrite (scale_of_in latent z q Nq H). auto.
Qed.

Lemma part_derive : forall (d : sample V) l, incl l qs ->
  is_derive (fun x => sumR (map (fun q => sc q * Q x q (s_q d)) l)) (th v) (sumR (map (fun q => sc q * Derive (fun x => Q x q (s_q d)) (th v)) l)).
Proof.
  intros d l Hl. apply (is_derive_sumR l (fun q x => sc q * Q x q (s_q d))). intros q Hq.
  apply (is_derive_scal (fun x => Q x q (s_q d))). apply derive_of. apply Diff. auto.
Qed.

Lemma score_scaled : forall h, away ds h -> mean_of space (dens th) (fun d => F' d * h (s_q d)) = 0.
Proof.
  intros h Hh.
  assert (X : forall l, incl l qs -> mean_of space (dens th) (fun d => sumR (map (fun q => sc q * Derive (fun x => Q x q (s_q d)) (th v)) l) * h (s_q d)) = 0).
  { induction l as [|q l IH]; intros Hl.
    - unfold mean_of. cbn [map sumR]. rewrite (sumR_map_ext space _ (fun _ => 0 * 0)) by (intros; lra). rewrite (sumR_map_scal space 0 (fun _ => 0)). lra.
    - unfold mean_of in *. cbn [map sumR].
      rewrite (sumR_map_ext space _ (fun d => sc q * (dens th d * (Derive (fun x => Q x q (s_q d)) (th v) * h (s_q d))) +
        dens th d * (sumR (map (fun q => sc q * Derive (fun x => Q x q (s_q d)) (th v)) l) * h (s_q d)))) by (intros; lra).
      rewrite sumR_map_add, IH by (intros k Hk; apply Hl; simpl; auto). rewrite sumR_map_scal.
      pose proof (score_one q h (Hl q (or_introl eq_refl)) Hh) as Z. unfold mean_of in Z. rewrite Z. lra. }
  apply X. intros k; auto.
Qed.

Lemma q_entry_scaled : forall (d : sample V) q t0 t, In q qs ->
  exists x, Feed.dict_get (q_entries q_log_prob latent scale (fun _ => d)) q = Some x /\ x t0 t = sc q * sumR (q_log_prob t q (s_q d) (s_q d q)).
Proof.
  intros d q t0 t Hq. apply in_map_iff in Hq. destruct Hq as ([z q'] & <- & Hz). cbn [snd].
  exists (fun th0 th1 => weighted (get_or_1 scale z) (q_log_prob th1 q' (s_q d) (s_q d q'))). split.
  - apply get_present. { unfold q_entries. rewrite map_map. auto. } unfold q_entries. apply in_map_iff. exists (z, q'). auto.
  - rewrite weighted_sum, get_or_1_factor, (scale_of_in latent z q' Nq Hz). auto.
Qed.

Lemma part_q_scaled : forall (d : sample V) t0 t, rb_part (q_entries q_log_prob latent scale (fun _ => d)) VQ t0 t =
  sumR (map (fun q => sc q * sumR (q_log_prob t q (s_q d) (s_q d q))) VQ).
Proof.
  intros d t0 t. unfold rb_part. apply sumR_map_ext. intros q Hq.
  destruct (q_entry_scaled d q t0 t (VQ_incl latent g tensor_of_var obs v ds VP VQ Facts q Hq)) as (x & E & Ex). rewrite E. auto.
Qed.

Lemma objective_last_scaled : forall l' d x, let t := set_param th v x in
  rb_objective log_prob q_log_prob latent scale reg (map fst obs) (fixed_draws (l' ++ [d])) VP VQ th t =
  - (sumR (map (fun q => sc q * Q x q (s_q d)) VQ) *
     (sumR (map (P d) VP) - sumR (map (fun q => sc q * sumR (q_log_prob th q (s_q d) (s_q d q))) VQ))) + penalty reg t.
Proof.
  intros l' d x t. unfold rb_objective. unfold fixed_draws at 1 2. rewrite !map_app. cbn [map].
  assert (K : distinct_keys latent (map fst obs)) by (split; auto).
  rewrite (rb_fill_p log_prob latent scale (map fst obs)), (rb_fill_q q_log_prob latent scale (map fst obs)) by auto.
  assert (C : combine (repeat 0%nat (S (length (map (fun a (_ : params) => a) l')))) (repeat 0%nat (S (length (map (fun a (_ : params) => a) l')))) =
    map (fun r => (r, r)) (repeat 0%nat (S (length (map (fun a (_ : params) => a) l'))))).
  { generalize (S (length (map (fun a (_ : params) => a) l'))). induction n as [|n IH]; simpl; auto. rewrite IH. auto. }
  rewrite C, map_map. cbn [fst snd].
  rewrite (map_ext_in _ (fun _ => rb_part (q_entries q_log_prob latent scale (fun _ => d)) VQ th t *
    (rb_part (p_entries log_prob latent scale (map fst obs) (fun _ => d)) VP th th - rb_part (q_entries q_log_prob latent scale (fun _ => d)) VQ th th))).
  - rewrite mean_same, !part_q_scaled, (part_p log_prob latent scale g tensor_of_var obs th v ds VP VQ Facts). auto.
  - intros r Hr'. apply repeat_spec in Hr'. subst r. auto.
Qed.

(** The approximations left out do not follow the variable. *)
Lemma left_out : forall q (d : sample V) x, In q (others VQ qs) -> Q x q (s_q d) = Q (th v) q (s_q d).
Proof.
  intros q d x Hq. apply others_In in Hq. destruct Hq as [Hq Hn]. cbv beta. rewrite set_same. f_equal. apply Act; auto.
  intros D. apply Hn. apply (ds_VQ latent g tensor_of_var obs v ds VP VQ Facts). destruct Facts as (F0 & _). apply F0. auto.
Qed.

Lemma F'_VQ : forall d, F' d = sumR (map (fun q => sc q * Derive (fun x => Q x q (s_q d)) (th v)) VQ).
Proof.
  intros d. destruct Facts as (_ & _ & _ & _ & N).
  rewrite (sum_split (fun q => sc q * Derive (fun x => Q x q (s_q d)) (th v)) VQ qs Nq N (VQ_incl latent g tensor_of_var obs v ds VP VQ Facts)).
  rewrite (sumR_map_ext (others VQ qs) _ (fun _ => 0 * 0)).
  - rewrite (sumR_map_scal (others VQ qs) 0 (fun _ => 0)). lra.
  - intros q Hq. rewrite (Derive_ext _ (fun _ => Q (th v) q (s_q d))) by (intros x; apply (left_out q d x Hq)). rewrite Derive_const. lra.
Qed.

Lemma rb_gradient_last_scaled : forall l' d,
  gradient (rb_objective log_prob q_log_prob latent scale reg (map fst obs) (fixed_draws (l' ++ [d])) VP VQ th) th v =
  - (F' d * (sumR (map (P d) VP) - sumR (map (fun q => sc q * sumR (q_log_prob th q (s_q d) (s_q d q))) VQ))) + partial (penalty reg) th v.
Proof.
  intros l' d. unfold gradient. apply is_derive_unique. rewrite F'_VQ.
  set (c := sumR (map (P d) VP) - sumR (map (fun q => sc q * sumR (q_log_prob th q (s_q d) (s_q d q))) VQ)).
  apply (is_derive_ext (fun x => - (c * sumR (map (fun q => sc q * Q x q (s_q d)) VQ)) + penalty reg (set_param th v x))).
  { intros x. rewrite objective_last_scaled. unfold c. cbv beta. lra. }
  apply (is_derive_plus (K := R_AbsRing) (V := R_NormedModule) (fun x => - (c * sumR (map (fun q => sc q * Q x q (s_q d)) VQ))) (fun x => penalty reg (set_param th v x)));
    [|apply derive_of; auto].
  apply (is_derive_opp (K := R_AbsRing) (V := R_NormedModule) (fun x => c * sumR (map (fun q => sc q * Q x q (s_q d)) VQ))). rewrite Rmult_comm.
  apply (is_derive_scal (fun x => sumR (map (fun q => sc q * Q x q (s_q d)) VQ))). apply part_derive.
  exact (VQ_incl latent g tensor_of_var obs v ds VP VQ Facts).
Qed.

Lemma away_Q_scaled : away ds (fun e => sumR (map (fun q => sc q * Q (th v) q e) (others VQ qs))).
Proof.
  intros e e' A. apply sumR_map_ext. intros q Hq. apply others_In in Hq. destruct Hq as [Hq Hn]. f_equal.
  pose proof (ds_VQ latent g tensor_of_var obs v ds VP VQ Facts) as DV.
  assert (Hd : ~ In q ds) by (intros H; apply Hn, DV; auto). cbv beta. rewrite (A q Hd). f_equal. apply Fq; auto.
  intros j Hj. apply A. intros Hjd. apply Hn. apply DV. exact (closed latent g tensor_of_var obs v ds VP VQ Facts j q Hq Hj Hjd).
Qed.

Lemma omitted_scaled :
  mean_of space (dens th) (fun d => F' d * (sumR (map (P d) VP) - sumR (map (fun q => sc q * sumR (q_log_prob th q (s_q d) (s_q d q))) VQ))) =
  mean_of space (dens th) (fun d => F' d * (log_joint log_prob latent scale th d - log_q q_log_prob latent scale th d)).
Proof.
  set (h1 := fun e => sumR (map (P (mk obs prior e)) (others VP rvs))). set (h2 := fun e => sumR (map (fun q => sc q * Q (th v) q e) (others VQ qs))).
  pose proof (score_scaled h1 (away_P log_prob latent scale g tensor_of_var obs prior th v Nk Dp Fm ds VP VQ Facts)) as Z1.
  pose proof (score_scaled h2 away_Q_scaled) as Z2.
  assert (E : mean_of space (dens th) (fun d => F' d * (log_joint log_prob latent scale th d - log_q q_log_prob latent scale th d)) =
    mean_of space (dens th) (fun d => F' d * (sumR (map (P d) VP) - sumR (map (fun q => sc q * sumR (q_log_prob th q (s_q d) (s_q d q))) VQ))) +
    (mean_of space (dens th) (fun d => F' d * h1 (s_q d)) - mean_of space (dens th) (fun d => F' d * h2 (s_q d)))).
  { unfold mean_of. rewrite <- sumR_map_sub, <- sumR_map_add. apply sumR_map_ext. intros d Hd.
    rewrite (joint_P log_prob latent scale obs prior vals order e0 th Nk d Hd). destruct Facts as (_ & _ & Np & _ & Nv).
    rewrite (sum_split (P d) VP rvs Nk Np (VP_incl latent g tensor_of_var obs v ds VP VQ Facts)).
    rewrite log_q_sc, (sum_split (fun q => sc q * sumR (q_log_prob th q (s_q d) (s_q d q))) VQ qs Nq Nv (VQ_incl latent g tensor_of_var obs v ds VP VQ Facts)).
    assert (Ed : mk obs prior (s_q d) = d) by (unfold all_draws in Hd; apply in_map_iff in Hd; destruct Hd as (e & <- & _); auto).
    unfold h1, h2. rewrite Ed, set_same. lra. }
  cbv beta in E, Z1, Z2 |- *. rewrite E, Z1, Z2. lra.
Qed.

Lemma rb_as_score : forall n, (0 < n)%nat ->
  expected space (dens th) n (fun l => gradient (rb_objective log_prob q_log_prob latent scale reg (map fst obs) (fixed_draws l) VP VQ th) th v) =
  expected space (dens th) n (fun l => gradient (score_objective log_prob q_log_prob latent scale reg (fixed_draws l) th) th v).
Proof.
  intros n Hn.
  assert (Now : sumR (map (dens th) space) = 1).
  { pose proof (locally_singleton _ _ (total_near q_log_prob latent g obs prior vals order e0 th v Nq Po First Fq One)) as T.
    cbv beta in T. rewrite set_same in T. exact T. }
  set (G := fun d => - (F' d * (sumR (map (P d) VP) - sumR (map (fun q => sc q * sumR (q_log_prob th q (s_q d) (s_q d q))) VQ))) + partial (penalty reg) th v).
  set (H := fun d => - (F' d * (log_joint log_prob latent scale th d - log_q q_log_prob latent scale th d))).
  rewrite (expected_ext space (dens th) n _ (fun l => G (last l (mk obs prior e0)))).
  2:{ intros l Hl Hs. destruct (exists_last (l := l)) as (l' & d & ->). { intros ->. simpl in Hl. lia. }
      rewrite last_last, rb_gradient_last_scaled. auto. }
  rewrite (expected_ext space (dens th) n (fun l => gradient (score_objective log_prob q_log_prob latent scale reg (fixed_draws l) th) th v)
    (fun l => partial (penalty reg) th v + average (map H l))).
  - rewrite (expected_last space (dens th) G (mk obs prior e0) Now n Hn), (expected_average space (dens th) Now n _ _ Hn).
    pose proof omitted_scaled as O. unfold G, H, mean_of in *.
    rewrite (sumR_map_ext space _ (fun d => partial (penalty reg) th v * dens th d - dens th d * (F' d *
      (sumR (map (P d) VP) - sumR (map (fun q => sc q * sumR (q_log_prob th q (s_q d) (s_q d q))) VQ))))) by (intros; lra).
    rewrite sumR_map_sub, sumR_map_scal. change (map (fun a => dens th a) space) with (map (dens th) space). rewrite Now, O.
    rewrite (sumR_map_ext space (fun a => dens th a * - (F' a * (log_joint log_prob latent scale th a - log_q q_log_prob latent scale th a)))
      (fun a => -1 * (dens th a * (F' a * (log_joint log_prob latent scale th a - log_q q_log_prob latent scale th a))))) by (intros; lra).
    rewrite sumR_map_scal. lra.
  - intros l _ Hl. unfold gradient. apply is_derive_unique. unfold score_objective.
    set (c := fun d => log_joint log_prob latent scale th d - log_q q_log_prob latent scale th d).
    apply (is_derive_ext (fun x => penalty reg (set_param th v x) + - average (map (fun d => F d x * c d) l))).
    { intros x. rewrite fixed_map. symmetry. rewrite (mean_average l _ (fun d => F d x * c d)).
      - unfold penalty, reg_penalty. lra.
      - intros d Hd. pose proof (space_posed latent obs prior vals order e0 Nk d (Hl d Hd)) as Hp. rewrite !q_total_spec, p_total_spec by auto. auto. }
    apply (is_derive_plus (K := R_AbsRing) (V := R_NormedModule) (fun x => penalty reg (set_param th v x))); [apply derive_of; auto|].
    replace (average (map H l)) with (- average (map (fun d => F' d * c d) l)).
    + apply (is_derive_opp (K := R_AbsRing) (V := R_NormedModule) (fun x => average (map (fun d => F d x * c d) l))).
      apply (is_derive_average l (fun d x => F d x * c d)). intros d Hd.
      apply (is_derive_ext (fun x => c d * sumR (map (fun q => sc q * Q x q (s_q d)) qs))); [intros x; cbv beta; rewrite log_q_sc; apply Rmult_comm|].
      rewrite Rmult_comm. apply (is_derive_scal (fun x => sumR (map (fun q => sc q * Q x q (s_q d)) qs))). apply part_derive. intros k; auto.
    + unfold average. rewrite !map_length.
      assert (Eh : sumR (map H l) = -1 * sumR (map (fun d => F' d * c d) l)) by (rewrite <- sumR_map_scal; apply sumR_map_ext; intros d Hd; unfold H, c; lra).
      rewrite Eh. unfold Rdiv. lra.
Qed.
End S.

Lemma rb_as_score_gradient : forall {V} (log_prob : params -> nat -> list (nat * V) -> V -> list R) q_log_prob latent scale reg g tensor_of_var pick fuel
  obs prior vals order e0 th v n,
  (0 < n)%nat -> NoDup (map fst latent ++ map fst obs) -> NoDup (map snd latent) ->
  single_producer g -> distinct_values g (map fst latent ++ map fst obs) -> distinct_values g (map snd latent) -> (enough g <= fuel)%nat ->
  Permutation order (map snd latent) -> parents_first g (map snd latent) order ->
  model_follows g (map fst latent ++ map fst obs) log_prob -> approximation_follows g (map snd latent) q_log_prob ->
  acts_along_graph g tensor_of_var (map snd latent) q_log_prob th v ->
  (forall q e, In q (map snd latent) -> nearby (fun t => sumR (map (fun u => exp (sumR (q_log_prob t q e u))) (vals q)) = 1) th v) ->
  (forall q e u, In q (map snd latent) -> differentiable (fun t => sumR (q_log_prob t q e u)) th v) ->
  differentiable (penalty reg) th v ->
  let space := all_draws vals order e0 obs prior in
  let density := draw_density q_log_prob latent (fun _ => 1) in
  expected space (density th) n (fun l =>
    rb_gradient log_prob q_log_prob latent scale reg g tensor_of_var pick fuel (map fst obs) (fixed_draws l) th v) =
  expected space (density th) n (fun l =>
    gradient (score_objective log_prob q_log_prob latent scale reg (fixed_draws l) th) th v).
Proof.
  intros V log_prob q_log_prob latent scale reg g tv pick fuel obs prior vals order e0 th v n Hn Nk Nq Sg Dp Dq Hf Po First Fm Fq Act One Diff Hr space density.
  destruct (rb_sets_facts latent g tv pick fuel obs v Nq Sg Dp Dq Hf) as (ds & VP & VQ & _ & E & Facts).
  unfold rb_gradient. rewrite E. eapply rb_as_score; eauto.
Qed.
