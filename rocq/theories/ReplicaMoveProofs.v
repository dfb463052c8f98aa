(** * Proofs for C28: the moves of the replicas, and the run. *)
From Coquelicot Require Import Coquelicot.
From Coq Require Import Reals List Arith Bool Lia Lra Permutation.
From Verif Require Import Ext Feed MonteCarlo MonteCarloSpec MonteCarloProofs MH MHSpec ExtProofs MHProofs ChainProofs
  Replica ReplicaSpec ReplicaProofs.
Import ListNotations.
Local Open Scope R_scope.

Lemma tempered_pos : forall p b, 0 < p -> 0 < tempered p b.
Proof. intros p b H. unfold tempered. destruct (Req_EM_T p 0); [lra|]. apply exp_pos. Qed.

Lemma tempered_nonneg : forall p b, 0 <= tempered p b.
Proof. intros p b. unfold tempered. destruct (Req_EM_T p 0); [lra|]. left. apply exp_pos. Qed.

Lemma tempered_zero : forall p b, tempered p b = 0 -> p = 0.
Proof. intros p b. unfold tempered. destruct (Req_EM_T p 0); auto. intros H. pose proof (exp_pos (b * ln p)). unfold Rpower in H. lra. Qed.

Lemma tempered_mult : forall p q b, 0 <= p -> 0 <= q -> tempered (p * q) b = tempered p b * tempered q b.
Proof.
  intros p q b Hp Hq. unfold tempered. destruct (Req_EM_T p 0) as [->|]; [rewrite Rmult_0_l; destruct (Req_EM_T 0 0); lra|].
  destruct (Req_EM_T q 0) as [->|]; [rewrite Rmult_0_r; destruct (Req_EM_T 0 0); lra|].
  destruct (Req_EM_T (p * q) 0) as [H|]; [apply Rmult_integral in H; tauto|].
  apply Rpower_mult_distr || symmetry; apply Rpower_mult_distr; lra.
Qed.

Lemma tempered_1 : forall p, 0 <= p -> tempered p 1 = p.
Proof. intros p H. unfold tempered. destruct (Req_EM_T p 0); [auto|]. apply Rpower_1. lra. Qed.

Lemma ratio_temper : forall P N s b, 0 < b -> ratio_of P N s -> ratio_of (tempered P b) (tempered N b) (emul s (Fin b)).
Proof.
  intros P N s b Hb (H1 & H2 & A & B & C & D). split; [apply tempered_nonneg|]. split; [apply tempered_nonneg|].
  assert (ZP : tempered P b = 0 <-> P = 0).
  { split; [apply tempered_zero|]. intros ->. apply tempered_0. }
  assert (ZN : tempered N b = 0 <-> N = 0).
  { split; [apply tempered_zero|]. intros ->. apply tempered_0. }
  assert (PP : 0 < tempered P b -> 0 < P). { intros H. destruct H1 as [H1|H1]; auto. rewrite <- H1, tempered_0 in H. lra. }
  assert (PN : 0 < tempered N b -> 0 < N). { intros H. destruct H2 as [H2|H2]; auto. rewrite <- H2, tempered_0 in H. lra. }
  repeat split.
  - intros X Y. destruct (A (PP X) (PN Y)) as (r & -> & E). exists (r * b). split; auto.
    rewrite E, tempered_mult, tempered_exp; auto. left. apply exp_pos.
  - intros X Y. rewrite B; [|apply ZP; auto|auto]. simpl. unfold inf_times. destruct (Rlt_dec 0 b); [auto|lra].
  - intros X Y. rewrite C; [|auto|apply ZN; auto]. simpl. unfold inf_times. destruct (Rlt_dec 0 b); [auto|lra].
  - intros X Y. rewrite D; [auto|apply ZP; auto|apply ZN; auto].
Qed.

Section Moves.
Context {V : Type} (veq : forall a b : V, {a = b} + {a <> b}).
Notation dict := (list (nat * V)).
Variable log_prob proposal_log_prob : nat -> dict -> V -> ext.
Variable latent proposals : list nat.
Variable data : dict.
Variable b : R.
Hypothesis Hb : 0 < b.
Hypothesis WF : well_posed latent proposals data.
Hypothesis LD : log_densities log_prob proposal_log_prob.
Notation joint := (joint log_prob latent data).
Notation g := (propose_density veq proposal_log_prob latent proposals data).
Notation reachable := (reachable latent proposals).
Notation prob := (tempered_probability log_prob proposal_log_prob latent proposals data b).
Notation steps := (tempered_steps_to log_prob proposal_log_prob latent proposals data b).
Notation ap z z' := (accept_prob (tempered (joint z' * g z' z) b) (tempered (joint z * g z z') b)).

Lemma tempered_steps : forall z z' u, length z = length latent -> reachable z z' -> 0 < u < 1 ->
  steps z z' u (if Rlt_dec u (ap z z') then z' else z).
Proof.
  intros z z' u Hz Hr Hu d Hd. destruct (mh_eval veq log_prob proposal_log_prob latent proposals data WF LD z z' u d Hz Hr Hd) as (s & E & R).
  assert (Hz' : length z' = length latent) by (destruct Hr; lia).
  rewrite (mh_sample_of_ratio log_prob proposal_log_prob latent proposals data WF (fun s => emul s (Fin b)) z z' s d Hz Hz' E).
  destruct Hd as (_ & Hu' & _). rewrite Hu'. pose proof (ratio_temper _ _ _ b Hb R) as R'.
  exists (eltb (elog (Fin u)) (emul s (Fin b))). do 2 f_equal. destruct (Rlt_dec u (ap z z')) as [H|H].
  - apply (accept_iff _ _ _ _ R' Hu) in H. rewrite H. auto.
  - destruct (eltb (elog (Fin u)) (emul s (Fin b))) eqn:Es; auto. exfalso. apply H. apply (accept_iff _ _ _ _ R' Hu). auto.
Qed.

Lemma ap_range' : forall z z', 0 <= ap z z' <= 1.
Proof. intros z z'. apply accept_prob_range; apply tempered_nonneg. Qed.

Lemma tempered_prob : forall z z', length z = length latent -> reachable z z' -> z <> z' -> prob z z' z' (ap z z').
Proof.
  intros z z' Hz Hr Hne. exists (fun u => if Rlt_dec u (ap z z') then 1 else 0). split; [apply indicator_RInt, ap_range'|].
  intros u Hu. pose proof (tempered_steps z z' u Hz Hr Hu) as H. destruct (Rlt_dec u (ap z z')).
  - left. auto. - right. split; auto. exists z. auto.
Qed.

(** Detailed balance for p^b, if b = 1 or proposals are symmetric. *)
Lemma tempered_balance : forall z z', length z = length latent -> reachable z z' -> z <> z' ->
  b = 1 \/ g z z' = g z' z ->
  exists a a', prob z z' z' a /\ prob z' z z a' /\
    tempered (joint z) b * g z z' * a = tempered (joint z') b * g z' z * a'.
Proof.
  intros z z' Hz Hr Hne Hs. exists (ap z z'), (ap z' z). assert (Hz' : length z' = length latent) by (destruct Hr; lia).
  split; [apply tempered_prob; auto|]. split.
  { apply tempered_prob; auto. exact (reachable_sym latent proposals z z' Hr). }
  assert (Jz : forall w, 0 <= joint w) by (intros; apply joint_nonneg).
  assert (Gz : forall w w', 0 <= g w w') by (intros; apply g_nonneg).
  destruct Hs as [->|Hg].
  - rewrite !tempered_1 by auto using Rmult_le_pos.
    apply (accept_balance (joint z' * g z' z) (joint z * g z z')); auto using Rmult_le_pos.
  - rewrite Hg. set (G := g z' z) in *. assert (HG : 0 <= G) by apply Gz. destruct HG as [HG|HG].
    2:{ rewrite <- HG. lra. }
    rewrite !tempered_mult by (auto; lra). pose proof (tempered_pos G b HG) as HT. set (T := tempered G b) in *.
    pose proof (accept_balance (tempered (joint z') b * T) (tempered (joint z) b * T)) as E.
    assert (HE := E ltac:(apply Rmult_le_pos; [apply tempered_nonneg|lra]) ltac:(apply Rmult_le_pos; [apply tempered_nonneg|lra])).
    set (a := accept_prob _ _) in *. set (a' := accept_prob (tempered (joint z) b * T) _) in *.
    assert (E2 : tempered (joint z) b * a = tempered (joint z') b * a').
    { apply (Rmult_eq_reg_r T); [|lra]. lra. }
    transitivity (G * (tempered (joint z) b * a)); [ring|]. rewrite E2. ring.
Qed.

(** What _replica_ratio computes. *)
Lemma replica_ratio_spec : forall z, length z = length latent ->
  exists l, replica_ratio log_prob latent data z = Some l /\ is_log_density l /\ density l = joint z.
Proof.
  intros z Hz. unfold replica_ratio. rewrite (env_update latent proposals data WF z Hz).
  set (e := env latent data z).
  assert (F1 : forall l s P, incl l (combine latent z) -> ratio_of P 1 s ->
    exists s', fold_left (fun acc k => match acc with None => None | Some s =>
      with_key e k (fun v => Some (eadd s (log_prob k e v))) end) (map fst l) (Some s) = Some s' /\
      ratio_of (P * product (map (fun kv => density (log_prob (fst kv) e (snd kv))) l)) 1 s').
  { induction l as [|[k v] l IH]; intros s P Hi Hr.
    - exists s. simpl. rewrite Rmult_1_r. auto.
    - cbn [map fold_left fst snd]. unfold with_key at 2.
      assert (Ev : dict_get e k = Some v) by (apply (env_get latent proposals data WF z k v Hz); apply Hi; simpl; auto).
      rewrite Ev.
      destruct (IH (eadd s (log_prob k e v)) (P * density (log_prob k e v))) as (s' & A & B).
      + intros x Hx. apply Hi. simpl; auto.
      + apply ratio_add; auto. apply LD.
      + exists s'. split; auto. cbn [product fold_right]. rewrite <- Rmult_assoc. auto. }
  destruct (F1 (combine latent z) (Fin 0) 1 (incl_refl _) ratio_of_0) as (s1 & E1 & R1).
  rewrite fst_combine in E1 by auto.
  match goal with |- context [fold_left ?f latent (Some (Fin 0))] =>
    replace (fold_left f latent (Some (Fin 0))) with (Some s1) by (symmetry; exact E1) end.
  eexists. split; [reflexivity|].
  assert (F2 : forall (l : dict) s P, ratio_of P 1 s ->
    ratio_of (P * product (map (fun kv => density (log_prob (fst kv) e (snd kv))) l)) 1
     (fold_left (fun s xv => eadd s (log_prob (fst xv) e (snd xv))) l s)).
  { induction l as [|[k v] l IH]; intros s P Hr.
    - simpl. rewrite Rmult_1_r. auto.
    - cbn [map fold_left fst snd product fold_right]. rewrite <- Rmult_assoc. apply IH. apply ratio_add; auto. apply LD. }
  pose proof (F2 data s1 _ R1) as R2. rewrite Rmult_1_l in R2.
  change (ratio_of (joint z) 1 (fold_left (fun s xv => eadd s (log_prob (fst xv) e (snd xv))) data s1)) in R2.
  set (s := fold_left _ data s1) in *. destruct R2 as (P0 & _ & P1 & P2 & _). destruct P0 as [P0|P0].
  - destruct (P1 P0 ltac:(lra)) as (r & -> & E). split; [right; eauto|]. simpl. lra.
  - rewrite P2 by (auto; lra). split; [left; auto|]. simpl. auto.
Qed.
End Moves.

(** ** The run *)
Local Open Scope nat_scope.
Section Run.
Context {V : Type}.
Notation dict := (list (nat * V)).
Variable log_prob proposal_log_prob : nat -> dict -> V -> ext.
Variable latent proposals : list nat.
Variable bs : list R.
Variable freq : R.
Variable us : nat -> replica_draws V * bool.
Hypothesis Hwp : forall i, well_posed latent proposals (r_data (fst (us i))).
Hypothesis Hdata : forall i j, d_data (r_moves (fst (us i)) j) = r_data (fst (us i)).
Hypothesis Hfirst : forall i, r_first (fst (us i)) <= length bs.

Notation kern := (replica_kernel log_prob proposal_log_prob latent proposals bs freq).
Notation width z := (length z = length latent).

Notation moved := (moved latent proposals us).
Notation replica_step := (replica_step log_prob latent proposals bs freq us).

Lemma moves_eval : forall t row (replicas : list (list (list V))) (bs' : list R) i zs,
  length bs' = length replicas -> Forall2 (fun tables z => row_is tables row z) replicas zs -> row = t - 1 ->
  Forall (fun z => width z) zs ->
  exists ms accs, replica_moves log_prob proposal_log_prob latent proposals t replicas bs' (r_moves (fst (us t))) i = Some (ms, accs) /\
    length ms = length zs /\ length accs = length zs /\
    Forall (fun z => width z) ms /\
    forall j z m a, nth_error zs j = Some z -> nth_error ms j = Some m -> nth_error accs j = Some a ->
      m = if a then proposal_state latent proposals (r_data (fst (us t))) z (r_moves (fst (us t)) (i + j)) else z.
Proof.
  intros t row replicas bs' i zs Hl H2 -> Hw. revert bs' i Hl. induction H2 as [|tables z replicas zs Hr H2 IH]; intros [|b bs'] i Hl; simpl in Hl; try lia.
  - exists [], []. simpl. repeat split; auto. intros [|j] z m a E; discriminate.
  - inversion Hw as [|? ? Hz Hw']; subst. destruct (IH Hw' bs' (S i)) as (ms & accs & E & L1 & L2 & W & C); [lia|].
    cbn [replica_moves]. unfold replica_move. rewrite (gather_row _ _ _ Hr).
    destruct (mh_move log_prob proposal_log_prob latent proposals (r_data (fst (us t))) (Hwp t) (fun r => emul r (Fin b)) z (r_moves (fst (us t)) i) Hz (Hdata t i)) as (a & Ea).
    rewrite Ea, E. eexists _, _. split; [reflexivity|]. split; [simpl; auto|]. split; [simpl; auto|]. split.
    + constructor; auto. destruct a; auto. unfold proposal_state. rewrite map_length, combine_length. lia.
    + intros [|j] z' m a' X Y Z; simpl in *.
      * inversion X; inversion Y; inversion Z; subst. rewrite Nat.add_0_r. auto.
      * replace (i + S j) with (S i + j) by lia. eapply C; eauto.
Qed.

Lemma scatter_replicas_some : forall t replicas (ms : list (list V)), length ms = length replicas ->
  Forall (fun z => width z) ms -> Forall (fun tables => length tables = length latent /\ forall rows, In rows tables -> t < length rows) replicas ->
  exists replicas', scatter_replicas t replicas ms = Some replicas' /\ Forall2 (fun tables z => row_is tables t z) replicas' ms /\
    Forall2 (fun tables tables' => length tables' = length tables /\ (forall a, length (nth a tables' []) = length (nth a tables [])) /\
       forall a j, j <> t -> nth_error (nth a tables' []) j = nth_error (nth a tables []) j) replicas replicas'.
Proof.
  intros t. induction replicas as [|tables rs IH]; intros [|m ms] Hl Hw Hr; simpl in Hl; try lia.
  - exists []. simpl. auto.
  - inversion Hw as [|? ? Wm Wms]; subst. inversion Hr as [|? ? [Tl Tr] Trs]; subst.
    destruct (IH ms) as (rs' & E & A & B); auto.
    destruct (scatter_all_some tables t m) as (tb & E2 & L2 & A2 & N2 & R2); [lia|auto|].
    exists (tb :: rs'). simpl. rewrite E2, E. split; auto. split; constructor; auto. split; [lia|]. auto.
Qed.

Lemma ratios_some : forall t (ms : list (list V)), Forall (fun z => width z) ms ->
  exists rs, replica_ratios log_prob latent (r_data (fst (us t))) ms = Some rs /\ length rs = length ms /\
    forall i m, nth_error ms i = Some m -> exists l, replica_ratio log_prob latent (r_data (fst (us t))) m = Some l /\ nth_error rs i = Some l.
Proof.
  intros t ms H. induction H as [|m ms Hm H (rs & E & L & C)].
  - exists []. simpl. repeat split; auto. intros [|i] m E; discriminate.
  - assert (X : exists l, replica_ratio log_prob latent (r_data (fst (us t))) m = Some l).
    { unfold replica_ratio. rewrite (env_update latent proposals (r_data (fst (us t))) (Hwp t) m Hm).
      set (e := env latent _ m).
      assert (F : forall ks s, incl ks latent -> exists s', fold_left (fun acc k => match acc with None => None | Some s =>
        with_key e k (fun v => Some (eadd s (log_prob k e v))) end) ks (Some s) = Some s').
      { induction ks as [|k ks IH]; intros s Hi; simpl; eauto. unfold with_key at 2.
        destruct (env_get_k latent proposals (r_data (fst (us t))) (Hwp t) m k Hm) as (v & _ & Ev); [apply Hi; simpl; auto|].
        fold e in Ev. rewrite Ev. apply IH. intros x Hx. apply Hi. simpl; auto. }
      destruct (F latent (Fin 0%R) (incl_refl _)) as (s' & Es).
      match goal with |- context [fold_left ?f latent (Some (Fin 0%R))] =>
        replace (fold_left f latent (Some (Fin 0%R))) with (Some s') by (symmetry; exact Es) end. eauto. }
    destruct X as (l & El). exists (l :: rs). simpl. rewrite El, E. split; auto. split; [simpl; lia|].
    intros [|i] m' X; simpl in *; [inversion X; subst; eauto|auto].
Qed.

Lemma row_preserved : forall replicas replicas' (zs : list (list V)) t i, i <> t ->
  Forall2 (fun tables tables' => length tables' = length tables /\ (forall a, length (nth a tables' []) = length (nth a tables [])) /\
       forall a j, j <> t -> nth_error (nth a tables' []) j = nth_error (nth a tables []) j) replicas replicas' ->
  Forall2 (fun tables z => row_is tables i z) replicas zs -> Forall2 (fun tables z => row_is tables i z) replicas' zs.
Proof.
  intros replicas replicas' zs t i Hi H. revert zs. induction H as [|tb tb' rs rs' (A & B & C) H IH]; intros zs H2; inversion H2; subst; constructor; auto.
  destruct H3 as [L N]. split; [lia|]. intros a v E. rewrite C by auto. auto.
Qed.

Lemma sizes_preserved : forall replicas replicas' t m,
  Forall2 (fun (tables tables' : list (list V)) => length tables' = length tables /\ (forall a, length (nth a tables' []) = length (nth a tables [])) /\
       forall a j, j <> t -> nth_error (nth a tables' []) j = nth_error (nth a tables []) j) replicas replicas' ->
  Forall (fun tables => length tables = length latent /\ forall rows, In rows tables -> m <= length rows) replicas ->
  Forall (fun tables => length tables = length latent /\ forall rows, In rows tables -> m <= length rows) replicas'.
Proof.
  intros replicas replicas' t m H. induction H as [|tb tb' rs rs' (A & B & C) H IH]; intros H2; inversion H2; subst; constructor; auto.
  destruct H3 as [L N]. split; [lia|]. intros rows Hin. destruct (In_nth _ _ [] Hin) as (a & Ha & E). rewrite <- E, B.
  apply N. apply nth_In. lia.
Qed.

Theorem replica_run : forall tables replicas z0s m, bs <> [] -> length tables = length latent -> length replicas = length bs ->
  (forall rows, In rows tables -> m <= length rows) ->
  Forall (fun tbs => length tbs = length latent /\ forall rows, In rows tbs -> m <= length rows) replicas ->
  (0 < m -> Forall2 (fun tbs z => row_is tbs 0 z) replicas z0s) ->
  exists s infos, updates kern (initial tables replicas) us 0 m = Some (s, infos) /\
    exists st accs, st 0 = z0s /\ (forall t, t < m -> replica_step t (st t) (st (S t)) (accs t)) /\
      (forall t, t < m -> exists z, nth_error (st (S t)) 0 = Some z /\ row_is (m_tables s) t z) /\
      (forall t, t < m -> Forall2 (fun tbs z => row_is tbs t z) (m_extra s) (st (S t))).
Proof.
  intros tables replicas z0s m Hbs Hl Hr Hm Hrm H0.
  assert (G : forall n, n <= m -> exists s infos, updates kern (initial tables replicas) us 0 n = Some (s, infos) /\ m_t s = n /\
    length (m_tables s) = length latent /\ (forall rows, In rows (m_tables s) -> m <= length rows) /\
    length (m_extra s) = length bs /\
    Forall (fun tbs => length tbs = length latent /\ forall rows, In rows tbs -> m <= length rows) (m_extra s) /\
    exists st accs, st 0 = z0s /\ (forall t, t < n -> replica_step t (st t) (st (S t)) (accs t)) /\
      (forall t, t < n -> exists z, nth_error (st (S t)) 0 = Some z /\ row_is (m_tables s) t z) /\
      (forall t, t < n -> Forall2 (fun tbs z => row_is tbs t z) (m_extra s) (st (S t))) /\
      (n < m -> Forall2 (fun tbs z => row_is tbs (n - 1) z) (m_extra s) (st n))).
  { induction n as [|n IH]; intros Hn.
    - exists (initial tables replicas), []. simpl. repeat (split; auto). exists (fun _ => z0s), (fun _ => []).
      split; auto. split; [intros; lia|]. split; [intros; lia|]. split; [intros; lia|]. intros H. simpl. auto.
    - destruct (IH ltac:(lia)) as (s & infos & E & Ht & TL & TR & XL & XR & st & accs & S0 & Ss & Sr & Sx & Sl).
      specialize (Sl ltac:(lia)). rewrite updates_snoc, E. unfold update, train.
      (* the rows of the latent variables are gathered, but not used *)
      assert (Hg : exists old, gather_all (m_tables s) (m_t s - 1) = Some old).
      { clear - TR Hn Ht. assert (Hlt : m_t s - 1 < m) by lia. revert TR. generalize (m_tables s). 
        induction l as [|rows ts IHl]; intros TR; simpl; eauto. unfold gather.
        destruct (nth_error rows (m_t s - 1)) eqn:En.
        - destruct IHl as (old & ->); [intros; apply TR; simpl; auto|]. eauto.
        - apply nth_error_None in En. specialize (TR rows (or_introl eq_refl)). lia. }
      destruct Hg as (old & ->). rewrite Ht. rewrite Nat.add_0_l.
      assert (Wst : Forall (fun z => width z) (st n)).
      { clear - Sl XR. induction Sl as [|tb z rs zs R Sl IHl]; constructor; inversion XR; subst.
        - destruct R as [R _]. destruct H1. lia. - auto. }
      assert (Hlen : length (st n) = length (m_extra s)). { clear - Sl. induction Sl; simpl; auto. }
      destruct (moves_eval n (n - 1) (m_extra s) bs 0 (st n) ltac:(lia) Sl eq_refl Wst) as (ms & acc & Em & L1 & L2 & W & C).
      destruct (ratios_some n ms W) as (rs & Er & Lr & Cr).
      destruct (new_order bs freq rs (fst (us n)) ms ltac:(lia) (Hfirst n)) as (D & ED & D1 & D2).
      set (new := exchanged (r_first (fst (us n))) D ms) in *.
      assert (Ln : length new = length ms) by apply exchanged_length.
      assert (Wn : Forall (fun z => width z) new).
      { apply Forall_forall. intros z Hz. rewrite Forall_forall in W. apply W. eapply Permutation_in; [apply exchanged_perm|exact Hz]. }
      destruct (scatter_replicas_some n (m_extra s) new) as (replicas' & Es & Es1 & Es2); [lia|auto| |].
      { apply Forall_forall. intros tb Htb. rewrite Forall_forall in XR. destruct (XR tb Htb) as [A B]. split; auto.
        intros rows Hin. specialize (B rows Hin). lia. }
      assert (Ek : exists z a, nth_error new 0 = Some z /\ kern n (m_extra s) old (fst (us n)) = Some (replicas', z, a)).
      { unfold replica_kernel. rewrite Em, Er, ED, Es. 
        assert (length bs <> 0) by (destruct bs; simpl; [congruence|lia]).
        destruct new as [|z new']; [simpl in Ln; lia|]. destruct acc as [|a acc']; [simpl in L2; lia|]. exists z, a. auto. }
      destruct Ek as (z & a & Ez & Ek). rewrite Ek.
      assert (Wz : width z). { rewrite Forall_forall in Wn. apply Wn. eapply nth_error_In; eauto. }
      destruct (scatter_all_some (m_tables s) n z) as (tb & Et & TL' & TA & TN & TO); [lia|intros rows Hin; specialize (TR rows Hin); lia|].
      rewrite Et. eexists _, _. split; [reflexivity|]. cbn [m_t m_tables m_extra].
      split; auto. split; [lia|]. split.
      { intros rows Hin. destruct (In_nth _ _ [] Hin) as (i & Hi & Ei). rewrite <- Ei, TA. apply TR. apply nth_In. lia. }
      split. { transitivity (length (m_extra s)); auto. clear - Es2. induction Es2; simpl; auto. }
      split; [eapply sizes_preserved; eauto|].
      exists (fun i => if Nat.eqb i (S n) then new else st i), (fun i => if Nat.eqb i n then acc else accs i).
      assert (Hst : forall i, i <= n -> (if Nat.eqb i (S n) then new else st i) = st i).
      { intros i Hi. destruct (Nat.eqb_spec i (S n)); [lia|auto]. }
      split; [simpl; auto|]. split; [|split; [|split]].
      + intros t Htn. rewrite (Hst t) by lia. destruct (Nat.eq_dec t n) as [->|Hne].
        * rewrite !Nat.eqb_refl. exists ms, rs, D. split; [|repeat (split; auto)].
          split; [auto|]. split; auto.
        * rewrite (Hst (S t)) by lia. destruct (Nat.eqb_spec t n); [lia|]. apply Ss. lia.
      + intros t Htn. destruct (Nat.eq_dec t n) as [->|Hne].
        * rewrite Nat.eqb_refl. exists z. split; auto. split; [lia|]. auto.
        * rewrite (Hst (S t)) by lia. destruct (Sr t ltac:(lia)) as (w & A & B). exists w. split; auto.
          destruct B as [B1 B2]. split; [lia|]. intros i v Ev. rewrite TO by lia. auto.
      + intros t Htn. destruct (Nat.eq_dec t n) as [->|Hne].
        * rewrite Nat.eqb_refl. auto.
        * rewrite (Hst (S t)) by lia. apply (row_preserved (m_extra s) replicas' (st (S t)) n t); auto. apply Sx. lia.
      + intros _. rewrite Nat.eqb_refl. replace (S n - 1) with n by lia. auto. }
  destruct (G m (le_n _)) as (s & infos & E & _ & _ & _ & _ & _ & st & accs & A & B & C & D & _).
  exists s, infos. split; auto. exists st, accs. auto.
Qed.
End Run.
