From Coquelicot Require Import Coquelicot.
From Coq Require Import Reals List Arith Bool Lia Lra.
From Verif Require Import Ext Feed MonteCarlo Transform MH MHSpec ExtProofs MHProofs HMC HMCSpec HMCProofs Replica ReplicaSpec ReplicaProofs ReplicaRunProofs VI VISpec VIIntegralSpec.
From Verif Require Import InvariantSpec.
Import ListNotations.
Local Open Scope R_scope.

Lemma mean_two : forall (f h : R -> R) a e x y, is_RInt f 0 1 a -> is_RInt h 0 1 e ->
  (forall u, 0 < u < 1 -> h u = f u * x + (1 - f u) * y) -> e = a * x + (1 - a) * y.
Proof.
  intros f h a e x y Hf Hh E.
  assert (H : is_RInt (V := R_NormedModule) (fun u => y + (x - y) * f u) 0 1 (y + (x - y) * a)).
  { pose proof (is_RInt_const (V := R_NormedModule) 0 1 y) as HC.
    pose proof (is_RInt_scal (V := R_NormedModule) _ 0 1 (x - y) _ Hf) as HS.
    pose proof (is_RInt_plus (V := R_NormedModule) _ _ 0 1 _ _ HC HS) as HP.
    match type of HP with @is_RInt _ _ _ _ ?v => replace v with (y + (x - y) * a) in HP; [exact HP|] end.
    unfold plus, scal; simpl; unfold mult; simpl; ring. }
  assert (e = y + (x - y) * a). { apply (RInt_01_unique h _ _ _ Hh H). intros u Hu. rewrite E by auto. ring. }
  lra.
Qed.

Section Anti.
Context {A : Type} (D : A -> Prop) (I : (A -> R) -> R -> Prop) (HI : integral D I).

Lemma twice_unique : forall F a b, twice D I F a -> twice D I F b -> a = b.
Proof.
  intros F a b (h & H1 & H2) (k & K1 & K2). eapply (int_unique D I HI); [exact H2|].
  eapply (int_ext D I HI); [|exact K2]. intros x Hx. eapply (int_unique D I HI); eauto.
Qed.
Lemma twice_ext : forall F G a, (forall x y, D x -> D y -> F x y = G x y) -> twice D I F a -> twice D I G a.
Proof.
  intros F G a E (h & H1 & H2). exists h. split; auto. intros x Hx. eapply (int_ext D I HI); [|apply H1; auto]. auto.
Qed.
Lemma twice_scal : forall c F a, twice D I F a -> twice D I (fun x y => c * F x y) (c * a).
Proof.
  intros c F a (h & H1 & H2). exists (fun x => c * h x). split; [|apply (int_scal D I HI); auto].
  intros x Hx. apply (int_scal D I HI); auto.
Qed.
Lemma antisymmetric_zero : forall F a, exchangeable D I F -> (forall x y, D x -> D y -> F y x = - F x y) -> twice D I F a -> a = 0.
Proof.
  intros F a HE HA H. pose proof (HE a H) as H1. pose proof (twice_scal (-1) F a H) as H2.
  assert (a = -1 * a); [|lra]. eapply twice_unique; [exact H1|]. eapply twice_ext; [|exact H2].
  intros x y Hx Hy. cbv beta. rewrite HA by auto. ring.
Qed.
End Anti.

Section Finite.
Context {A : Type}.
Lemma sumR_scal_in : forall (c : R) (f : A -> R) l, sumR (map (fun x => c * f x) l) = c * sumR (map f l).
Proof. intros c f l. induction l as [|x l IH]; simpl; [ring|]. rewrite IH. ring. Qed.
Lemma sumR_plus : forall (f h : A -> R) l, sumR (map (fun x => f x + h x) l) = sumR (map f l) + sumR (map h l).
Proof. intros f h l. induction l as [|x l IH]; simpl; [ring|]. rewrite IH. ring. Qed.
Lemma by_sum_integral : forall l : list A, integral (fun x => In x l) (by_sum l).
Proof.
  intros l. unfold by_sum. constructor.
  - congruence. - intros f h a E <-. f_equal. apply map_ext_in. intros; symmetry; auto.
  - intros f h a b <- <-. apply sumR_plus. - intros c f a <-. apply sumR_scal_in.
Qed.
Lemma sumR_zero : forall l : list A, sumR (map (fun _ => 0) l) = 0.
Proof. induction l as [|x l IH]; simpl; [auto|]. rewrite IH. ring. Qed.
Lemma sumR_swap : forall (F : A -> A -> R) l m,
  sumR (map (fun x => sumR (map (fun y => F x y) m)) l) = sumR (map (fun y => sumR (map (fun x => F x y) l)) m).
Proof.
  intros F l m. induction l as [|x l IH]; simpl; [rewrite sumR_zero; auto|]. rewrite IH, <- sumR_plus. auto.
Qed.
Lemma by_sum_exchangeable : forall (l : list A) F, exchangeable (fun x => In x l) (by_sum l) F.
Proof.
  intros l F a (h & H1 & H2). unfold by_sum in *. exists (fun y => sumR (map (fun x => F x y) l)). split; auto.
  rewrite <- H2. rewrite <- sumR_swap. f_equal. apply map_ext_in. intros x Hx. apply H1. auto.
Qed.
Lemma by_sum_invariant : forall (l : list A) T, (forall x, In x l -> T (T x) = x) -> NoDup l -> (forall x, In x l -> In (T x) l) ->
  invariant (by_sum l) T.
Proof.
  intros l T HT Hn Hin f a <-. unfold by_sum. rewrite <- (map_map T f).
  assert (HP : Permutation.Permutation (map T l) l).
  { apply Permutation.NoDup_Permutation_bis.
    - clear Hin. induction Hn as [|x l Hx Hn IH]; simpl; constructor.
      + intros H. apply in_map_iff in H. destruct H as (y & E & Hy). apply Hx.
        rewrite <- (HT x (or_introl eq_refl)), <- E, (HT y (or_intror Hy)). auto.
      + apply IH. intros y Hy. apply HT. simpl. auto.
    - rewrite map_length. auto.
    - intros y Hy. apply in_map_iff in Hy. destruct Hy as (x & <- & Hx). auto. }
  apply (Permutation.Permutation_map f) in HP. induction HP; simpl; lra.
Qed.
End Finite.

Section Walk.
Context {V : Type} (veq : forall a b : V, {a = b} + {a <> b}).
Notation dict := (list (nat * V)).
Variable log_prob proposal_log_prob : nat -> dict -> V -> ext.
Variable latent proposals : list nat.
Variable data : dict.
Hypothesis WF : well_posed latent proposals data.
Hypothesis LD : log_densities log_prob proposal_log_prob.
Hypothesis NE : latent <> [].
Variable D : list V -> Prop.
Variable I : (list V -> R) -> R -> Prop.
Hypothesis HI : integral D I.
Hypothesis HD : forall z, D z -> length z = length latent.
Notation p := (joint log_prob latent data).
Notation g := (propose_density veq proposal_log_prob latent proposals data).
Notation ap z z' := (accept_prob (p z' * g z' z) (p z * g z z')).
Hypothesis HG : forall z, D z -> I (g z) 1.

Lemma mean_step_eq : forall z z' phi e, D z -> D z' -> g z z' <> 0 ->
  mean_step log_prob proposal_log_prob latent proposals data z z' phi e -> e = ap z z' * phi z' + (1 - ap z z') * phi z.
Proof.
  intros z z' phi e Hz Hz' Hg (f & If & Hf).
  assert (Hr : reachable latent proposals z z') by (eapply g_reachable; eauto).
  eapply (mean_two (fun u => if Rlt_dec u (ap z z') then 1 else 0)); [apply indicator_RInt; apply ap_range|exact If|].
  intros u Hu. destruct (Hf u Hu) as (r & Hs & ->).
  pose proof (steps veq log_prob proposal_log_prob latent proposals data WF LD z z' u (HD z Hz) Hr Hu) as Hs'.
  destruct (proposing_exists latent proposals data WF z' u (HD z' Hz') NE) as (d & Hd).
  destruct (Hs d Hd) as (a1 & E1). destruct (Hs' d Hd) as (a2 & E2). rewrite E1 in E2. injection E2 as E2 _. rewrite E2.
  destruct (Rlt_dec u (ap z z')); ring.
Qed.

Lemma mean_step_exists : forall z z' phi, D z -> D z' -> g z z' <> 0 ->
  mean_step log_prob proposal_log_prob latent proposals data z z' phi (ap z z' * phi z' + (1 - ap z z') * phi z).
Proof.
  intros z z' phi Hz Hz' Hg. assert (Hr : reachable latent proposals z z') by (eapply g_reachable; eauto).
  exists (fun u => phi z + (phi z' - phi z) * (if Rlt_dec u (ap z z') then 1 else 0)). split.
  - pose proof (is_RInt_const (V := R_NormedModule) 0 1 (phi z)) as HC.
    pose proof (is_RInt_scal (V := R_NormedModule) _ 0 1 (phi z' - phi z) _ (indicator_RInt (ap z z') (ap_range veq log_prob proposal_log_prob latent proposals data z z'))) as HS.
    pose proof (is_RInt_plus (V := R_NormedModule) _ _ 0 1 _ _ HC HS) as HP.
    match type of HP with @is_RInt _ _ _ _ ?v => replace v with (ap z z' * phi z' + (1 - ap z z') * phi z) in HP; [exact HP|] end.
    unfold plus, scal; simpl; unfold mult; simpl; ring.
  - intros u Hu. exists (if Rlt_dec u (ap z z') then z' else z). split; [apply steps; auto|].
    destruct (Rlt_dec u (ap z z')); ring.
Qed.

Lemma one_step_mean : forall phi psi c b, one_step veq log_prob proposal_log_prob latent proposals data D I phi psi ->
  I (fun z => p z * phi z) c -> I (fun z => p z * psi z) b -> b = c.
Proof.
  intros phi psi c b (e & He & Hp & Hx) Hc Hb. cbv zeta in *.
  assert (HF : forall z z', D z -> D z' -> g z z' * (e z z' - phi z) = g z z' * ap z z' * (phi z' - phi z)).
  { intros z z' Hz Hz'. destruct (Req_dec (g z z') 0) as [->|Hg]; [ring|].
    rewrite (mean_step_eq z z' phi (e z z') Hz Hz' Hg (He z z' Hz Hz' Hg)). ring. }
  assert (b - c = 0); [|lra].
  apply (antisymmetric_zero D I HI _ _ Hx).
  - intros z z' Hz Hz'. rewrite !HF by auto.
    pose proof (balance veq log_prob proposal_log_prob latent proposals data z z') as B.
    replace (p z' * (g z' z * ap z' z * (phi z - phi z'))) with ((p z' * g z' z * ap z' z) * (phi z - phi z')) by ring.
    rewrite <- B. ring.
  - exists (fun z => p z * psi z + -1 * (p z * phi z)). split.
    + intros z Hz. pose proof (int_scal D I HI (- phi z) _ _ (HG z Hz)) as H1.
      pose proof (int_add D I HI _ _ _ _ (Hp z Hz) H1) as H2. pose proof (int_scal D I HI (p z) _ _ H2) as H3.
      replace (p z * psi z + -1 * (p z * phi z)) with (p z * (psi z + - phi z * 1)) by ring.
      eapply (int_ext D I HI); [|exact H3]. intros z' _. cbv beta. ring.
    + replace (b - c) with (b + -1 * c) by ring. apply (int_add D I HI); auto. apply (int_scal D I HI); auto.
Qed.

Lemma stationary_steps : forall n phi psi c, steps_mean veq log_prob proposal_log_prob latent proposals data D I n phi psi ->
  I (fun z => p z * phi z) c -> I (fun z => p z * psi z) c.
Proof.
  intros n phi psi c H. revert c. induction H as [phi|n phi psi chi b H IH H1 Hb]; intros c Hc; auto.
  pose proof (one_step_mean psi chi c b H1 (IH c Hc) Hb) as <-. auto.
Qed.
End Walk.

Lemma finite_steps : forall {V} (veq : forall a b : V, {a = b} + {a <> b}) log_prob proposal_log_prob latent proposals data space,
  well_posed latent proposals data -> log_densities log_prob proposal_log_prob -> (forall z, In z space -> length z = length latent) ->
  forall n phi, exists psi, steps_mean veq log_prob proposal_log_prob latent proposals data (fun z => In z space) (by_sum space) n phi psi.
Proof.
  intros V veq log_prob plp latent proposals data space WF LD HL n phi. induction n as [|n (psi & IH)]; [exists phi; constructor|].
  pose (g := propose_density veq plp latent proposals data).
  pose (ap := fun z z' => accept_prob (joint log_prob latent data z' * g z' z) (joint log_prob latent data z * g z z')).
  pose (e := fun z z' => ap z z' * psi z' + (1 - ap z z') * psi z).
  exists (fun z => sumR (map (fun z' => g z z' * e z z') space)).
  econstructor; [exact IH| |reflexivity]. exists e. split; [|split; [reflexivity|apply by_sum_exchangeable]].
  intros z z' Hz Hz' Hg. eapply mean_step_exists with (D := fun z => In z space); eauto.
Qed.

Section Phase.
Variable log_prob : nat -> list (nat * tensor) -> tensor -> ext.
Variable latent : list (nat * option bij).
Variable data : list (nat * tensor).
Hypothesis HP : hmc_posed log_prob latent data.
Variable grad : list (nat * tensor) -> list tensor -> list tensor.
Variable step_size : R.
Variable n : nat.
Variable s0 : list tensor.
Hypothesis Hs0 : length s0 = length latent.
Hypothesis Hgrad : forall z, same_shape s0 z -> same_shape s0 (grad data z).
Notation T := (trajectory data grad step_size n).
Notation pi u := (phase_density log_prob latent data (fst u) (snd u)).

Lemma trajectory_shape : forall u, phase_space s0 u -> phase_space s0 (T u).
Proof.
  intros [z r] [Hz Hr]. simpl in Hz, Hr. unfold trajectory, mirror_momenta. cbn [fst snd].
  destruct (leapfrog (grad data) step_size n z r) as [z' r'] eqn:E. cbn [fst snd].
  destruct (reversible (grad data) step_size s0 Hgrad n z r z' r' Hz Hr E) as (Hz' & Hr' & _).
  split; cbn [fst snd]; auto. eapply shape_trans; [apply Hr'|apply shape_flip].
Qed.
Lemma trajectory_back : forall u, phase_space s0 u -> T (T u) = u.
Proof.
  intros [z r] [Hz Hr]. simpl in Hz, Hr. unfold trajectory, mirror_momenta. cbn [fst snd].
  destruct (leapfrog (grad data) step_size n z r) as [z' r'] eqn:E. cbn [fst snd].
  destruct (reversible (grad data) step_size s0 Hgrad n z r z' r' Hz Hr E) as (_ & _ & E').
  rewrite E'. cbn [fst snd]. rewrite flip_flip. auto.
Qed.

Lemma update_mean : forall z r a phi e, move_probability log_prob latent data grad step_size n z r a ->
  mean_update log_prob latent data grad step_size n z r phi e ->
  e = a * phi (fst (T (z, r))) + (1 - a) * phi z.
Proof.
  intros z r a phi e (f & If & Hf) (h & Ih & Hh). eapply (mean_two f h); eauto. intros u Hu.
  unfold trajectory, mirror_momenta. cbn [fst snd].
  destruct (Hh u Hu) as (w & acc & E & ->). destruct (Hf u Hu) as [[-> E']|[-> E']]; rewrite E' in E; injection E as <- _; ring.
Qed.

Lemma hmc_stationary : forall I, integral (phase_space s0) I -> invariant I T ->
  forall phi e c b, (forall z r, same_shape s0 z -> same_shape s0 r -> mean_update log_prob latent data grad step_size n z r phi (e (z, r))) ->
  I (fun u => pi u * phi (fst u)) c -> I (fun u => pi u * e u) b -> b = c.
Proof.
  intros I HI HT phi e c b He Hc Hb. set (F := fun u => pi u * e u + -1 * (pi u * phi (fst u))).
  assert (HF : I F (b + -1 * c)). { apply (int_add _ I HI); auto. apply (int_scal _ I HI); auto. }
  assert (HA : forall u, phase_space s0 u -> F (T u) = -1 * F u).
  { intros [z r] Hu. pose proof (trajectory_shape _ Hu) as Hu'. pose proof (trajectory_back _ Hu) as Hb'.
    pose proof Hu as [Hz Hr]. simpl in Hz, Hr. destruct (leapfrog (grad data) step_size n z r) as [z' r'] eqn:E.
    destruct (hmc_balance log_prob latent data HP grad step_size n s0 Hs0 Hgrad z r z' r' Hz Hr E) as (a & a' & M & M' & E' & B).
    assert (ET : T (z, r) = (z', flip r')). { unfold trajectory, mirror_momenta. cbn [fst snd]. rewrite E. auto. }
    rewrite ET in *. destruct Hu' as [Hz' Hr']. simpl in Hz', Hr'. unfold F. cbn [fst snd].
    rewrite (update_mean z r a phi (e (z, r)) M (He z r Hz Hr)).
    rewrite (update_mean z' (flip r') a' phi (e (z', flip r')) M' (He _ _ Hz' Hr')). rewrite ET, Hb'. cbn [fst snd].
    replace (phase_density log_prob latent data z' (flip r') * (a' * phi z + (1 - a') * phi z') +
             -1 * (phase_density log_prob latent data z' (flip r') * phi z')) with
            ((phase_density log_prob latent data z' (flip r') * a') * (phi z - phi z')) by ring.
    rewrite <- B. ring. }
  assert (b + -1 * c = -1 * (b + -1 * c)); [|lra].
  eapply (int_unique _ I HI); [apply (HT F _ HF)|]. eapply (int_ext _ I HI); [|apply (int_scal _ I HI); exact HF].
  intros u Hu. cbv beta. symmetry. apply HA. auto.
Qed.

Lemma mean_update_exists : forall phi, exists e, forall z r, same_shape s0 z -> same_shape s0 r ->
  mean_update log_prob latent data grad step_size n z r phi (e (z, r)).
Proof.
  intros phi.
  assert (HM : exists a : list tensor * list tensor -> R, forall z r, same_shape s0 z -> same_shape s0 r ->
             move_probability log_prob latent data grad step_size n z r (a (z, r))).
  { exists (fun u => let l := leapfrog (grad data) step_size n (fst u) (snd u) in
             accept_prob (phase_density log_prob latent data (fst l) (snd l)) (phase_density log_prob latent data (fst u) (snd u))).
    intros z r Hz Hr. exact (hmc_move log_prob latent data HP grad step_size n s0 Hs0 Hgrad z r Hz Hr). }
  destruct HM as (a & Ha). exists (fun u => a u * phi (fst (T u)) + (1 - a u) * phi (fst u)). intros z r Hz Hr.
  destruct (Ha z r Hz Hr) as (f & If & Hf). exists (fun u => phi z + (phi (fst (T (z, r))) - phi z) * f u). split.
  - pose proof (is_RInt_const (V := R_NormedModule) 0 1 (phi z)) as HC.
    pose proof (is_RInt_scal (V := R_NormedModule) _ 0 1 (phi (fst (T (z, r))) - phi z) _ If) as HS.
    pose proof (is_RInt_plus (V := R_NormedModule) _ _ 0 1 _ _ HC HS) as HQ.
    match type of HQ with @is_RInt _ _ _ _ ?v => replace v with (a (z, r) * phi (fst (T (z, r))) + (1 - a (z, r)) * phi (fst (z, r))) in HQ; [exact HQ|] end.
    unfold plus, scal; simpl; unfold mult; simpl; ring.
  - intros u Hu. destruct (Hf u Hu) as [[-> E]|[-> E]]; cbv zeta in E; rewrite E; do 2 eexists; (split; [reflexivity|]).
    + change (fst (T (z, r))) with (fst (leapfrog (grad data) step_size n z r)). ring.
    + ring.
Qed.

Lemma two_points : forall u, phase_space s0 u -> integral (phase_space s0) (by_sum [u; T u]) /\ invariant (by_sum [u; T u]) T.
Proof.
  intros u Hu. pose proof (by_sum_integral [u; T u]) as H. split.
  - constructor; [apply (int_unique _ _ H)| |apply (int_add _ _ H)|apply (int_scal _ _ H)].
    intros f h a E. apply (int_ext _ _ H). intros x Hx. apply E. destruct Hx as [<-|[<-|[]]]; auto. apply trajectory_shape. auto.
  - intros f a <-. unfold by_sum. cbn [map]. rewrite trajectory_back by auto. simpl. ring.
Qed.

Lemma shear_shape : forall S, shear (same_shape s0) S -> forall u, phase_space s0 u -> phase_space s0 (S u).
Proof.
  assert (HT : forall a b, same_shape s0 a -> same_shape s0 b -> same_shape s0 (translate a b)).
  { clear. unfold same_shape, translate. induction s0 as [|v l IH]; intros a b Ha Hb; inversion Ha; inversion Hb; subst; [constructor|].
    simpl. constructor; [|apply IH; auto]. rewrite map_length, combine_length. lia. }
  intros S HS [z r] [Hz Hr]. simpl in Hz, Hr. destruct HS as [h Hh|h Hh]; split; cbn [fst snd]; auto.
Qed.

Lemma volume_invariant : forall I, integral (phase_space s0) I ->
  (forall S, shear (same_shape s0) S -> invariant I S) -> forall f, volume_preserving (same_shape s0) f -> invariant I f.
Proof.
  intros I HI HS f Hf. induction Hf as [f Hf|f k h Hk Hh IH Hf]; intros F a HF.
  - eapply (int_ext _ I HI); [|exact HF]. intros [z r] [Hz Hr]. cbv beta. rewrite Hf by auto. auto.
  - eapply (int_ext _ I HI); [|apply (HS _ Hk); apply IH; exact HF].
    intros [z r] [Hz Hr]. cbv beta. rewrite Hf by auto. auto.
Qed.

Lemma trajectory_invariant : forall I, integral (phase_space s0) I ->
  (forall S, shear (same_shape s0) S -> invariant I S) -> invariant I mirror_momenta -> invariant I T.
Proof.
  intros I HI HS HM F a HF. unfold trajectory.
  apply (volume_invariant I HI HS _ (volume (grad data) step_size s0 Hgrad n) (fun v => F (mirror_momenta v))).
  apply (HM F). exact HF.
Qed.
End Phase.

Section Ladder.
Context {V : Type}.
Variable log_prob plp : nat -> list (nat * V) -> V -> ext.
Variable latent proposals : list nat.
Variable data : list (nat * V).

Lemma exchange_unique : forall bs rs i p q, exchange_probability bs rs i p -> exchange_probability bs rs i q -> p = q.
Proof.
  intros bs rs i p q (f & If & Hf) (h & Ih & Hh). apply (RInt_01_unique f h); auto. intros u Hu. rewrite Hf, Hh by auto. auto.
Qed.

Lemma decision_cons : forall q d E, decision_probability q (d :: E) = (if d : bool then q 0%nat else 1 - q 0%nat) * decision_probability (fun j => q (S j)) E.
Proof.
  intros q d E. unfold decision_probability. cbn [length seq combine map product fold_right fst snd]. f_equal.
  rewrite <- seq_shift. generalize (seq 0 (length E)). intros l. revert E. induction l as [|x l IH]; intros [|y E]; cbn [map combine]; auto.
  cbn [map combine product fold_right fst snd]. f_equal. apply IH.
Qed.
Lemma decision_total : forall m q, sumR (map (decision_probability q) (decisions m)) = 1.
Proof.
  induction m as [|m IH]; intros q; [unfold decision_probability, product; simpl; lra|]. cbn [decisions]. rewrite map_app, !map_map.
  assert (HS : forall (c : R) (f h : list bool -> R) l, (forall x, f x = c * h x) -> sumR (map f l) = c * sumR (map h l)).
  { intros c f h l E. induction l as [|x l IHl]; simpl; [ring|]. rewrite IHl, E. ring. }
  assert (HA : forall a b, sumR (a ++ b) = sumR a + sumR b) by (induction a; intros; simpl; [ring|rewrite IHa; ring]).
  rewrite HA, (HS (q 0%nat) (fun x => decision_probability q (true :: x)) (decision_probability (fun j => q (S j)))), (HS (1 - q 0%nat) (fun x => decision_probability q (false :: x)) (decision_probability (fun j => q (S j)))).
  - rewrite IH. ring.
  - intros x. apply (decision_cons q false). - intros x. apply (decision_cons q true).
Qed.
Lemma decisions_length : forall m E, In E (decisions m) -> length E = m.
Proof.
  induction m as [|m IH]; intros E H; [destruct H as [<-|[]]; auto|]. cbn [decisions] in H. apply in_app_or in H.
  destruct H as [H|H]; apply in_map_iff in H; destruct H as (E' & <- & H); simpl; rewrite (IH E'); auto.
Qed.

Section Sum.
Context {A B : Type} (Dm : A -> Prop) (I : (A -> R) -> R -> Prop) (HI : integral Dm I).
Lemma int_sum : forall (l : list B) (f : B -> A -> R), (exists f0 a0, I f0 a0) -> (forall x, In x l -> exists b, I (f x) b) ->
  exists bs, Forall2 (fun x b => I (f x) b) l bs /\ I (fun z => sumR (map (fun x => f x z) l)) (sumR bs).
Proof.
  induction l as [|x l IH]; intros f H0 H.
  - exists []. split; [constructor|]. simpl. destruct H0 as (f0 & a0 & H0).
    pose proof (int_scal _ I HI 0 _ _ H0) as H1. replace 0 with (0 * a0) at 1 by ring.
    replace (0 * a0) with (0 * a0) in H1 by ring. eapply (int_ext _ I HI); [|exact H1]. intros; cbv beta; ring.
  - destruct (IH f H0) as (bs & Hbs & Hs); [intros; apply H; simpl; auto|]. destruct (H x (or_introl eq_refl)) as (b & Hb).
    exists (b :: bs). split; [constructor; auto|]. simpl. apply (int_add _ I HI); auto.
Qed.
End Sum.

Hypothesis WF : well_posed latent proposals data.
Hypothesis LD : log_densities log_prob plp.
Variable bs : list R.
Variable first m : nat.
Hypothesis Hfirst : (first <= 1)%nat.
Hypothesis Hm : (first + 2 * m <= length bs)%nat.
Notation ladder_states := (@ladder_states V latent bs).
Notation P := (ladder_density (joint log_prob latent data) bs).

Lemma exchange_stationary : forall I, integral ladder_states I -> (forall E, length E = m -> invariant I (exchanged first E)) ->
  forall q, (forall zs j, ladder_states zs -> exists rs, replica_ratios log_prob latent data zs = Some rs /\ exchange_probability bs rs (first + 2 * j) (q zs j)) ->
  forall phi c, (forall E, length E = m -> exists b, I (fun zs => P zs * decision_probability (q zs) E * phi zs) b) ->
  I (fun zs => P zs * phi zs) c -> I (fun zs => P zs * mean_exchange first m (q zs) phi zs) c.
Proof.
  intros I HI HT q Hq phi c Hb Hc.
  pose (f := fun E zs => P zs * decision_probability (q zs) E * phi zs).
  pose (f' := fun E zs => P zs * decision_probability (q zs) E * phi (exchanged first E zs)).
  assert (Hlad : forall zs E, ladder_states zs -> ladder_states (exchanged first E zs)).
  { intros zs E [H1 H2]. pose proof (exchanged_perm first E zs) as HP. split.
    - rewrite <- H1. apply Permutation.Permutation_length. auto.
    - rewrite Forall_forall in *. intros z Hz. apply H2. eapply Permutation.Permutation_in; eauto. }
  assert (Hff : forall E zs, length E = m -> ladder_states zs -> f E (exchanged first E zs) = f' E zs).
  { intros E zs HE Hz. unfold f, f'. pose proof Hz as [Hl Hall].
    destruct (exchange_detailed log_prob plp latent proposals data WF LD bs zs first E Hl Hall Hfirst) as (rs & rs' & q0 & q0' & E1 & E2 & Q1 & Q2 & B);
      [rewrite HE; auto|].
    assert (Eq : forall j, q zs j = q0 j).
    { intros j. destruct (Hq zs j Hz) as (rs1 & F1 & F2). rewrite E1 in F1. injection F1 as <-. eapply exchange_unique; eauto. }
    assert (Eq' : forall j, q (exchanged first E zs) j = q0' j).
    { intros j. destruct (Hq _ j (Hlad zs E Hz)) as (rs1 & F1 & F2). rewrite E2 in F1. injection F1 as <-. eapply exchange_unique; eauto. }
    rewrite (decision_ext (q zs) q0 E Eq), (decision_ext (q (exchanged first E zs)) q0' E Eq'). rewrite <- B. ring. }
  destruct (int_sum ladder_states I HI (decisions m) f) as (as_ & Has & Hsum); [eauto| |].
  { intros E HE. apply Hb. apply decisions_length. auto. }
  destruct (int_sum ladder_states I HI (decisions m) f') as (as' & Has' & Hsum'); [eauto| |].
  { intros E HE. apply decisions_length in HE. destruct (Hb E HE) as (b & Hb'). exists b.
    eapply (int_ext _ I HI); [|apply (HT E HE); exact Hb']. intros zs Hz. cbv beta. apply Hff; auto. }
  assert (as_ = as').
  { clear Hsum Hsum'. assert (HL : forall E, In E (decisions m) -> length E = m) by apply decisions_length.
    revert as_ as' Has Has' HL. generalize (decisions m). induction l as [|E l IH]; intros as_ as' H1 H2 HL; inversion H1; inversion H2; subst; auto.
    f_equal; [|apply IH; auto; intros; apply HL; simpl; auto].
    assert (HE : length E = m) by (apply HL; simpl; auto).
    eapply (int_unique _ I HI); [|eassumption]. eapply (int_ext _ I HI); [|apply (HT E HE); eassumption].
    intros zs Hz. cbv beta. apply Hff; auto. }
  subst as'.
  assert (Ec : c = sumR as_).
  { eapply (int_unique _ I HI); [exact Hc|]. eapply (int_ext _ I HI); [|exact Hsum]. intros zs Hz. cbv beta. unfold f.
    assert (HS : forall (k k' : R) l, sumR (map (fun E => k * decision_probability (q zs) E * k') l) = k * k' * sumR (map (decision_probability (q zs)) l)).
    { intros k k' l. induction l as [|x l IH]; simpl; [ring|]. rewrite IH. ring. }
    rewrite HS, decision_total. ring. }
  rewrite Ec. eapply (int_ext _ I HI); [|exact Hsum']. intros zs Hz. cbv beta. unfold f', mean_exchange.
  generalize (decisions m). induction l as [|x l IH]; simpl; [ring|]. rewrite IH. ring.
Qed.
End Ladder.
