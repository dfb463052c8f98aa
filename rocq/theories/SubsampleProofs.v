(** * Proofs for C83. *)
From Coquelicot Require Import Coquelicot.
From Coq Require Import Reals List Arith Bool Lra Lia Permutation.
From Verif Require Import Ext Feed Transform HMC SGLD SGLDSpec SamplerProofs VI VISpec VIProofs.
From Verif Require Import SubsampleSpec.
Import ListNotations.
Local Open Scope R_scope.
Set Bullet Behavior "Strict Subproofs".

Lemma mean_batch_ext : forall law f g, (forall w b, In (w, b) law -> f b = g b) -> mean_batch law f = mean_batch law g.
Proof. intros law f g H. apply sumR_map_ext. intros [w b] I. cbn [fst snd]. now rewrite (H w b I). Qed.

Lemma mean_batch_plus : forall law f g, mean_batch law (fun b => f b + g b) = mean_batch law f + mean_batch law g.
Proof.
  intros law f g. unfold mean_batch. rewrite <- sumR_map_add. apply sumR_map_ext. intros a _. ring.
Qed.

Lemma mean_batch_scal : forall law c f, mean_batch law (fun b => c * f b) = c * mean_batch law f.
Proof.
  intros law c f. unfold mean_batch. rewrite <- sumR_map_scal. apply sumR_map_ext. intros a _. ring.
Qed.

Lemma mean_batch_sum : forall {A} law (l : list A) (f : A -> list nat -> R),
  mean_batch law (fun b => sumR (map (fun a => f a b) l)) = sumR (map (fun a => mean_batch law (f a)) l).
Proof.
  intros A law l f. induction l as [|a l IH].
  - change (mean_batch law (fun _ => 0) = 0). rewrite (mean_batch_ext law (fun _ => 0) (fun _ => 0 * 0)) by (intros; ring).
    rewrite mean_batch_scal. ring.
  - change (mean_batch law (fun b => f a b + sumR (map (fun a => f a b) l)) = mean_batch law (f a) + sumR (map (fun a => mean_batch law (f a)) l)).
    rewrite mean_batch_plus. now rewrite IH.
Qed.

(** A sum over a batch counts every datum. *)
Lemma sum_counts : forall N (B : nat -> R) b, within N b ->
  sumR (map B b) = sumR (map (fun i => INR (count_occ Nat.eq_dec b i) * B i) (whole N)).
Proof.
  intros N B b. induction b as [|a b IH]; intros W.
  - cbn [map]. symmetry. rewrite (sumR_map_ext _ _ (fun _ => 0)) by (intros; cbn [count_occ INR]; ring).
    rewrite sumR_const. change (sumR []) with 0. ring.
  - change (B a + sumR (map B b) = sumR (map (fun i => INR (count_occ Nat.eq_dec (a :: b) i) * B i) (whole N))).
    rewrite IH by (intros i I; apply W; now right).
    assert (E : B a = sumR (map (fun i => if Nat.eq_dec a i then B i else 0) (whole N))).
    { assert (La : (a < N)%nat) by (apply W; now left). unfold whole.
      replace N with (a + S (N - S a))%nat by lia. rewrite seq_app. cbn [seq]. rewrite map_app.
      rewrite TransformProofs.sumR_app. cbn [map]. rewrite Nat.add_0_l.
      change (B a = sumR (map (fun i => if Nat.eq_dec a i then B i else 0) (seq 0 a)) +
        ((if Nat.eq_dec a a then B a else 0) + sumR (map (fun i => if Nat.eq_dec a i then B i else 0) (seq (S a) (N - S a))))).
      rewrite (sumR_map_ext (seq 0 a) _ (fun _ => 0)).
      2:{ intros i I. apply in_seq in I. destruct (Nat.eq_dec a i); [lia|reflexivity]. }
      rewrite (sumR_map_ext (seq (S a) _) _ (fun _ => 0)).
      2:{ intros i I. apply in_seq in I. destruct (Nat.eq_dec a i); [lia|reflexivity]. }
      rewrite !sumR_const. destruct (Nat.eq_dec a a); [ring|congruence]. }
    rewrite E. rewrite <- sumR_map_add. apply sumR_map_ext. intros i _. cbn [count_occ].
    destruct (Nat.eq_dec a i); [rewrite S_INR|]; ring.
Qed.

(** The expected sum over a fair batch. *)
Lemma fair_mean : forall N M law B, fair N M law -> (0 < N)%nat ->
  mean_batch law (fun b => sumR (map B b)) = INR M / INR N * sumR (map B (whole N)).
Proof.
  intros N M law B F HN. destruct F as [F1 Fs Fr Fe].
  assert (W : forall w b, In (w, b) law -> within N b) by (intros w b I i Ii; exact (Fr w b i I Ii)).
  set (c i := mean_batch law (fun b => INR (count_occ Nat.eq_dec b i))).
  change (forall i j, (i < N)%nat -> (j < N)%nat -> c i = c j) in Fe.
  assert (G : forall B, mean_batch law (fun b => sumR (map B b)) = c 0%nat * sumR (map B (whole N))).
  { intros B'. rewrite (mean_batch_ext law _ (fun b => sumR (map (fun i => INR (count_occ Nat.eq_dec b i) * B' i) (whole N)))).
    2:{ intros w b I. apply sum_counts. exact (W w b I). }
    rewrite (mean_batch_sum law (whole N) (fun i b => INR (count_occ Nat.eq_dec b i) * B' i)).
    rewrite <- sumR_map_scal. apply sumR_map_ext. intros i I.
    rewrite (mean_batch_ext law _ (fun b => B' i * INR (count_occ Nat.eq_dec b i))) by (intros; ring).
    rewrite mean_batch_scal. change (B' i * c i = c 0%nat * B' i). apply in_seq in I. rewrite (Fe i 0%nat) by lia. ring. }
  assert (Hc : c 0%nat = INR M / INR N).
  { pose proof (G (fun _ => 1)) as H. rewrite sumR_const in H. unfold whole in H. rewrite seq_length in H.
    rewrite (mean_batch_ext law _ (fun _ => INR M * 1)) in H.
    2:{ intros w b I. rewrite sumR_const. now rewrite (Fs w b I). }
    rewrite mean_batch_scal, F1 in H. pose proof (lt_0_INR N HN). apply (Rmult_eq_reg_r (INR N)); [|lra].
    field_simplify; lra. }
  rewrite G. now rewrite Hc.
Qed.

Lemma fair_affine : forall N M law A B, fair N M law -> (0 < N)%nat -> (0 < M)%nat ->
  mean_batch law (fun b => A + INR N / INR M * sumR (map B b)) = A + sumR (map B (whole N)).
Proof.
  intros N M law A B F HN HM. rewrite mean_batch_plus, mean_batch_scal, (fair_mean N M) by assumption.
  rewrite (mean_batch_ext law (fun _ => A) (fun _ => A * 1)) by (intros; ring). rewrite mean_batch_scal, (fair_one _ _ _ F).
  pose proof (lt_0_INR N HN). pose proof (lt_0_INR M HM). field. lra.
Qed.

Lemma fair_affine_unscaled : forall N M law A B, fair N M law -> (0 < N)%nat ->
  mean_batch law (fun b => A + sumR (map B b)) = A + INR M / INR N * sumR (map B (whole N)).
Proof.
  intros N M law A B F HN. rewrite mean_batch_plus, (fair_mean N M) by assumption.
  rewrite (mean_batch_ext law (fun _ => A) (fun _ => A * 1)) by (intros; ring). rewrite mean_batch_scal, (fair_one _ _ _ F). ring.
Qed.

Lemma sum_exchange : forall {A B} (l : list A) (m : list B) (f : A -> B -> R),
  sumR (map (fun a => sumR (map (f a) m)) l) = sumR (map (fun b => sumR (map (fun a => f a b) l)) m).
Proof.
  intros A B l m f. induction l as [|a l IH].
  - change (0 = sumR (map (fun _ : B => 0) m)). rewrite sumR_const. ring.
  - change (sumR (map (f a) m) + sumR (map (fun a => sumR (map (f a) m)) l) = sumR (map (fun b => f a b + sumR (map (fun a => f a b) l)) m)).
    rewrite sumR_map_add. f_equal. exact IH.
Qed.

(** Contributions by plate, summed over variables with coefficients, are affine in
    the batch. *)
Lemma plates_affine : forall (local : nat -> bool) each once (keys : list nat),
  exists (A : R) (B : nat -> R), forall c1 c b,
    sumR (map (fun k => (if local k then c else c1) * by_plate local each once k b) keys) = c1 * A + c * sumR (map B b).
Proof.
  intros local each once keys. induction keys as [|k keys (A & B & IH)].
  - exists 0, (fun _ => 0). intros c1 c b. cbn [map]. rewrite sumR_const. change (sumR []) with 0. ring.
  - destruct (local k) eqn:L.
    + exists A, (fun i => each k i + B i). intros c1 c b.
      change (sumR (map (fun k => (if local k then c else c1) * by_plate local each once k b) (k :: keys))) with
        ((if local k then c else c1) * by_plate local each once k b + sumR (map (fun k => (if local k then c else c1) * by_plate local each once k b) keys)).
      rewrite IH. unfold by_plate at 1. rewrite L. rewrite sumR_map_add. ring.
    + exists (once k + A), B. intros c1 c b.
      change (sumR (map (fun k => (if local k then c else c1) * by_plate local each once k b) (k :: keys))) with
        ((if local k then c else c1) * by_plate local each once k b + sumR (map (fun k => (if local k then c else c1) * by_plate local each once k b) keys)).
      rewrite IH. unfold by_plate at 1. rewrite L. ring.
Qed.

Lemma factor_nil : forall k, factor [] k = 1. Proof. reflexivity. Qed.

Section Model.
Context {V : Type}.
Variable log_prob : params -> nat -> list (nat * V) -> V -> list R.
Variable q_log_prob : params -> nat -> (nat -> V) -> V -> list R.
Variable latent : list (nat * nat).
Variable reg : params -> list R.
Variable local : nat -> bool.
Variables N M : nat.

(** What a scaled sum is on a batch. *)
Definition affine_on (c : R) (f g : list nat -> R) : Prop :=
  exists A B, forall b, within N b -> f b = A + c * sumR (map B b) /\ g b = A + sumR (map B b).

Lemma affine_minus : forall c f g f' g', affine_on c f g -> affine_on c f' g' ->
  affine_on c (fun b => f b - f' b) (fun b => g b - g' b).
Proof.
  intros c f g f' g' (A & B & H) (A' & B' & H'). exists (A - A'), (fun i => B i - B' i). intros b W.
  destruct (H b W) as [-> ->], (H' b W) as [-> ->]. rewrite sumR_map_sub. split; ring.
Qed.

Lemma affine_plus : forall c f g f' g', affine_on c f g -> affine_on c f' g' ->
  affine_on c (fun b => f b + f' b) (fun b => g b + g' b).
Proof.
  intros c f g f' g' (A & B & H) (A' & B' & H'). exists (A + A'), (fun i => B i + B' i). intros b W.
  destruct (H b W) as [-> ->], (H' b W) as [-> ->]. rewrite sumR_map_add. split; ring.
Qed.

Lemma affine_scal : forall c a f g, affine_on c f g -> affine_on c (fun b => a * f b) (fun b => a * g b).
Proof.
  intros c a f g (A & B & H). exists (a * A), (fun i => a * B i). intros b W.
  destruct (H b W) as [-> ->]. rewrite sumR_map_scal. split; ring.
Qed.

Lemma affine_const : forall c a, affine_on c (fun _ => a) (fun _ => a).
Proof. intros c a. exists a, (fun _ => 0). intros b _. rewrite sumR_const. split; ring. Qed.

Lemma affine_ext : forall c f g f' g', (forall b, within N b -> f b = f' b) -> (forall b, within N b -> g b = g' b) ->
  affine_on c f' g' -> affine_on c f g.
Proof.
  intros c f g f' g' E1 E2 (A & B & H). exists A, B. intros b W. rewrite (E1 b W), (E2 b W). exact (H b W).
Qed.

Lemma affine_list : forall {X} c (l : list X) (f g : X -> list nat -> R), (forall x, In x l -> affine_on c (f x) (g x)) ->
  affine_on c (fun b => sumR (map (fun x => f x b) l)) (fun b => sumR (map (fun x => g x b) l)).
Proof.
  intros X c l f g. induction l as [|x l IH]; intros H.
  - cbn [map]. apply affine_const.
  - cbn [map]. change (affine_on c (fun b => f x b + sumR (map (fun x => f x b) l)) (fun b => g x b + sumR (map (fun x => g x b) l))).
    apply affine_plus; [apply H; now left|apply IH; intros; apply H; now right].
Qed.

Lemma affine_unbiased : forall law f g, fair N M law -> (0 < N)%nat -> (0 < M)%nat ->
  affine_on (INR N / INR M) f g -> mean_batch law f = g (whole N).
Proof.
  intros law f g F HN HM (A & B & H).
  assert (W : within N (whole N)) by (intros i I; apply in_seq in I; lia).
  destruct (H _ W) as [_ ->]. rewrite <- (fair_affine N M law) by assumption.
  apply mean_batch_ext. intros w b I. apply H. intros i Ii. exact (fair_range _ _ _ F w b i I Ii).
Qed.

(** A scaled sum of log densities whose keys do not depend on the batch. *)
Lemma scaled_affine : forall scale th (d : list nat -> sample V) each once (part : sample V -> list (nat * V)) keys,
  plate_scale local N M scale -> subgraph log_prob latent local N th d each once ->
  (forall b, within N b -> map fst (part (d b)) = keys) ->
  (forall b kv, In kv (part (d b)) -> In kv (bindings latent (d b))) ->
  affine_on (INR N / INR M) (fun b => scaled_sum log_prob scale th (bindings latent (d b)) (part (d b)))
    (fun b => scaled_sum log_prob [] th (bindings latent (d b)) (part (d b))).
Proof.
  intros scale th d each once part keys S G K I.
  destruct (plates_affine local each once keys) as (A & B & H). exists A, B. intros b W. unfold scaled_sum. split.
  - rewrite <- (Rmult_1_l A), <- H. rewrite <- (K b W), map_map. apply sumR_map_ext. intros [k v] Ik. cbn [fst snd].
    rewrite (sub_terms _ _ _ _ _ _ _ _ G b k v W (I b _ Ik)), (S k). reflexivity.
  - rewrite <- (Rmult_1_l A), <- (Rmult_1_l (sumR (map B b))), <- H. rewrite <- (K b W), map_map. apply sumR_map_ext. intros [k v] Ik. cbn [fst snd].
    rewrite (sub_terms _ _ _ _ _ _ _ _ G b k v W (I b _ Ik)), factor_nil. destruct (local k); reflexivity.
Qed.

Lemma lik_affine : forall scale th d each once, plate_scale local N M scale -> subgraph log_prob latent local N th d each once ->
  affine_on (INR N / INR M) (fun b => log_lik log_prob latent scale th (d b)) (fun b => log_lik log_prob latent [] th (d b)).
Proof.
  intros scale th d each once S G. unfold log_lik.
  apply (scaled_affine scale th d each once (@s_data V) (map fst (s_data (d (whole N)))) S G).
  - intros b W. exact (sub_keys _ _ _ _ _ _ _ _ G b W).
  - intros b kv I. apply in_or_app. now left.
Qed.

Lemma joint_affine : forall scale th d each once, plate_scale local N M scale -> subgraph log_prob latent local N th d each once ->
  affine_on (INR N / INR M) (fun b => log_joint log_prob latent scale th (d b)) (fun b => log_joint log_prob latent [] th (d b)).
Proof.
  intros scale th d each once S G. unfold log_joint. apply affine_plus.
  - apply (scaled_affine scale th d each once (latent_values latent) (map fst latent) S G).
    + intros b W. unfold latent_values. rewrite map_map. reflexivity.
    + intros b kv I. apply in_or_app. now right.
  - exact (lik_affine scale th d each once S G).
Qed.

Lemma q_affine : forall scale th d each once, plate_scale local N M scale -> q_subgraph q_log_prob latent local N th d each once ->
  affine_on (INR N / INR M) (fun b => log_q q_log_prob latent scale th (d b)) (fun b => log_q q_log_prob latent [] th (d b)).
Proof.
  intros scale th d each once S G. destruct (plates_affine local each once (map fst latent)) as (A & B & H). exists A, B.
  intros b W. unfold log_q. split.
  - rewrite <- (Rmult_1_l A), <- H, map_map. apply sumR_map_ext. intros [z q] I. cbn [fst snd].
    rewrite (G b z q W I), (S z). reflexivity.
  - rewrite <- (Rmult_1_l A), <- (Rmult_1_l (sumR (map B b))), <- H, map_map. apply sumR_map_ext. intros [z q] I. cbn [fst snd].
    rewrite (G b z q W I), factor_nil. destruct (local z); reflexivity.
Qed.

Section Loss.
Variable scale : list (nat * R).
Hypothesis Hscale : plate_scale local N M scale.

Lemma average_affine : forall {X} c (l : list X) (f g : X -> list nat -> R), (forall x, In x l -> affine_on c (f x) (g x)) ->
  affine_on c (fun b => average (map (fun x => f x b) l)) (fun b => average (map (fun x => g x b) l)).
Proof.
  intros X c l f g H. unfold average.
  apply (affine_ext c _ _ (fun b => / INR (length l) * sumR (map (fun x => f x b) l)) (fun b => / INR (length l) * sumR (map (fun x => g x b) l))).
  - intros b _. rewrite map_length. unfold Rdiv. ring.
  - intros b _. rewrite map_length. unfold Rdiv. ring.
  - apply affine_scal. now apply affine_list.
Qed.

(** Draws: sample s of batch b. *)
Lemma reparam_affine : forall (ds : list (list nat -> params -> sample V)) th,
  (forall d, In d ds -> exists each once each' once',
     subgraph log_prob latent local N th (fun b => d b th) each once /\
     q_subgraph q_log_prob latent local N th (fun b => d b th) each' once') ->
  affine_on (INR N / INR M) (fun b => reparam_loss log_prob q_log_prob latent scale reg (map (fun d => d b) ds) th)
    (fun b => reparam_loss log_prob q_log_prob latent [] reg (map (fun d => d b) ds) th).
Proof.
  intros ds th H.
  assert (P : forall b, within N b -> forall d, In d (map (fun d => d b) ds) -> posed latent (d th)).
  { intros b W d I. apply in_map_iff in I. destruct I as (d' & <- & I). destruct (H d' I) as (e & o & e' & o' & G & _).
    exact (sub_posed _ _ _ _ _ _ _ _ G b W). }
  apply (affine_ext _ _ _
    (fun b => -1 * average (map (fun d => log_joint log_prob latent scale th (d b th) - log_q q_log_prob latent scale th (d b th)) ds) + penalty reg th)
    (fun b => -1 * average (map (fun d => log_joint log_prob latent [] th (d b th) - log_q q_log_prob latent [] th (d b th)) ds) + penalty reg th)).
  - intros b W. rewrite reparam_spec by exact (P b W). rewrite map_map. ring.
  - intros b W. rewrite reparam_spec by exact (P b W). rewrite map_map. ring.
  - apply affine_plus; [|apply affine_const]. apply affine_scal.
    apply (average_affine _ ds
      (fun d b => log_joint log_prob latent scale th (d b th) - log_q q_log_prob latent scale th (d b th))
      (fun d b => log_joint log_prob latent [] th (d b th) - log_q q_log_prob latent [] th (d b th))).
    intros d I. destruct (H d I) as (e & o & e' & o' & G & Q). apply affine_minus.
    + exact (joint_affine scale th (fun b => d b th) e o Hscale G).
    + exact (q_affine scale th (fun b => d b th) e' o' Hscale Q).
Qed.

Lemma reparam_unbiased : forall law (ds : list (list nat -> params -> sample V)) th,
  fair N M law -> (0 < N)%nat -> (0 < M)%nat ->
  (forall d, In d ds -> exists each once each' once',
     subgraph log_prob latent local N th (fun b => d b th) each once /\
     q_subgraph q_log_prob latent local N th (fun b => d b th) each' once') ->
  mean_batch law (fun b => reparam_loss log_prob q_log_prob latent scale reg (map (fun d => d b) ds) th) =
    reparam_loss log_prob q_log_prob latent [] reg (map (fun d => d (whole N)) ds) th.
Proof.
  intros law ds th F HN HM H.
  exact (affine_unbiased law _ (fun b => reparam_loss log_prob q_log_prob latent [] reg (map (fun d => d b) ds) th) F HN HM (reparam_affine ds th H)).
Qed.

Lemma map_unbiased : forall law (d : list nat -> params -> sample V) th each once,
  fair N M law -> (0 < N)%nat -> (0 < M)%nat -> by_lookup (log_prob th) ->
  subgraph log_prob latent local N th (fun b => d b th) each once ->
  mean_batch law (fun b => map_loss log_prob latent scale reg (d b) th) = map_loss log_prob latent [] reg (d (whole N)) th.
Proof.
  intros law d th each once F HN HM L G.
  apply (affine_unbiased law _ (fun b => map_loss log_prob latent [] reg (d b) th) F HN HM).
  apply (affine_ext _ _ _ (fun b => -1 * log_joint log_prob latent scale th (d b th) + penalty reg th)
    (fun b => -1 * log_joint log_prob latent [] th (d b th) + penalty reg th)).
  - intros b W. rewrite map_spec; [ring| |exact L]. exact (sub_posed _ _ _ _ _ _ _ _ G b W).
  - intros b W. rewrite map_spec; [ring| |exact L]. exact (sub_posed _ _ _ _ _ _ _ _ G b W).
  - apply affine_plus; [|apply affine_const]. apply affine_scal. exact (joint_affine scale th (fun b => d b th) each once Hscale G).
Qed.

(** Derivatives of expected values over batches. *)
Lemma mean_batch_gradient : forall (law : batches) (f : list nat -> params -> R) (g : params -> R) th v,
  (forall w b, In (w, b) law -> differentiable (f b) th v) ->
  nearby (fun th' => mean_batch law (fun b => f b th') = g th') th v ->
  mean_batch law (fun b => gradient (f b) th v) = gradient g th v.
Proof.
  intros law f g th v D E. unfold gradient.
  transitivity (Derive (fun x => mean_batch law (fun b => f b (set_param th v x))) (th v)).
  2:{ apply Derive_ext_loc. exact E. }
  clear E. symmetry. apply is_derive_unique. unfold mean_batch. induction law as [|[w b] law IH].
  - change (is_derive (fun _ : R => 0) (th v) 0). exact (is_derive_const (V := R_NormedModule) 0 (th v)).
  - change (is_derive (fun x => w * f b (set_param th v x) + sumR (map (fun wb => fst wb * f (snd wb) (set_param th v x)) law)) (th v)
      (w * Derive (fun x => f b (set_param th v x)) (th v) + sumR (map (fun wb => fst wb * Derive (fun x => f (snd wb) (set_param th v x)) (th v)) law))).
    apply (is_derive_plus (V := R_NormedModule)).
    + apply (is_derive_scal (fun x => f b (set_param th v x))). apply Derive_correct. apply (D w b). now left.
    + apply IH. intros w' b' I. apply (D w' b'). now right.
Qed.

Lemma reparam_gradient_unbiased : forall law (ds : list (list nat -> params -> sample V)) th v,
  fair N M law -> (0 < N)%nat -> (0 < M)%nat ->
  nearby (fun th' => forall d, In d ds -> exists each once each' once',
     subgraph log_prob latent local N th' (fun b => d b th') each once /\
     q_subgraph q_log_prob latent local N th' (fun b => d b th') each' once') th v ->
  (forall w b, In (w, b) law -> differentiable (reparam_loss log_prob q_log_prob latent scale reg (map (fun d => d b) ds)) th v) ->
  mean_batch law (fun b => gradient (reparam_loss log_prob q_log_prob latent scale reg (map (fun d => d b) ds)) th v) =
    gradient (reparam_loss log_prob q_log_prob latent [] reg (map (fun d => d (whole N)) ds)) th v.
Proof.
  intros law ds th v F HN HM H D.
  apply (mean_batch_gradient law (fun b => reparam_loss log_prob q_log_prob latent scale reg (map (fun d => d b) ds))); [exact D|].
  unfold nearby in *. revert H. apply filter_imp. intros x H. exact (reparam_unbiased law ds _ F HN HM H).
Qed.

Lemma map_gradient_unbiased : forall law (d : list nat -> params -> sample V) th v,
  fair N M law -> (0 < N)%nat -> (0 < M)%nat -> (forall th', by_lookup (log_prob th')) ->
  nearby (fun th' => exists each once, subgraph log_prob latent local N th' (fun b => d b th') each once) th v ->
  (forall w b, In (w, b) law -> differentiable (map_loss log_prob latent scale reg (d b)) th v) ->
  mean_batch law (fun b => gradient (map_loss log_prob latent scale reg (d b)) th v) =
    gradient (map_loss log_prob latent [] reg (d (whole N))) th v.
Proof.
  intros law d th v F HN HM L H D.
  apply (mean_batch_gradient law (fun b => map_loss log_prob latent scale reg (d b))); [exact D|].
  unfold nearby in *. revert H. apply filter_imp. intros x (e & o & H). exact (map_unbiased law d _ e o F HN HM (L _) H).
Qed.

(** The score function estimator, if no latent variable has a plate. *)
Lemma q_total_global : forall th th0 b (d : list nat -> params -> sample V), (forall zq, In zq latent -> local (fst zq) = false) ->
  (forall t, s_q (d b t) = s_q (d (whole N) t)) ->
  q_total q_log_prob latent scale th (d b th0) (d b th) = q_total q_log_prob latent [] th (d (whole N) th0) (d (whole N) th).
Proof.
  intros th th0 b d G E. unfold q_total. rewrite !fold_sum. f_equal. apply sumR_map_ext. intros zq I.
  rewrite !E, !get_or_1_factor, (Hscale (fst zq)), (G zq I), factor_nil. reflexivity.
Qed.

Lemma score_affine : forall (ds : list (list nat -> params -> sample V)) th0 th,
  (forall zq, In zq latent -> local (fst zq) = false) ->
  (forall d, In d ds -> forall b t, within N b -> s_q (d b t) = s_q (d (whole N) t)) ->
  (forall d, In d ds -> exists each once, subgraph log_prob latent local N th0 (fun b => d b th0) each once) ->
  affine_on (INR N / INR M) (fun b => score_objective log_prob q_log_prob latent scale reg (map (fun d => d b) ds) th0 th)
    (fun b => score_objective log_prob q_log_prob latent [] reg (map (fun d => d b) ds) th0 th).
Proof.
  intros ds th0 th G E H.
  assert (G0 : forall b sc, (sc = scale \/ sc = []) -> within N b -> forall d, In d ds -> forall t0 t,
    q_total q_log_prob latent sc t (d b t0) (d b t) = q_total q_log_prob latent [] t (d (whole N) t0) (d (whole N) t)).
  { intros b sc [-> | ->] W d I t0 t.
    - apply q_total_global; [exact G|]. intros u. exact (E d I b u W).
    - unfold q_total. now rewrite !(E d I b _ W). }
  assert (X : forall sc b, (sc = scale \/ sc = []) -> within N b ->
    score_objective log_prob q_log_prob latent sc reg (map (fun d => d b) ds) th0 th =
    -1 * average (map (fun d => q_total q_log_prob latent [] th (d (whole N) th0) (d (whole N) th) *
      (log_joint log_prob latent sc th0 (d b th0) - q_total q_log_prob latent [] th0 (d (whole N) th0) (d (whole N) th0))) ds) + penalty reg th).
  { intros sc b Hs W. unfold score_objective, reduce_mean, average, reg_penalty, penalty. rewrite !map_map, !map_length.
    rewrite (sumR_map_ext ds _ (fun d => q_total q_log_prob latent [] th (d (whole N) th0) (d (whole N) th) *
      (log_joint log_prob latent sc th0 (d b th0) - q_total q_log_prob latent [] th0 (d (whole N) th0) (d (whole N) th0)))).
    - ring.
    - intros d I. rewrite !(G0 b sc Hs W d I). rewrite p_total_spec; [reflexivity|]. destruct (H d I) as (e & o & S).
      exact (sub_posed _ _ _ _ _ _ _ _ S b W). }
  eapply affine_ext; [intros b W; exact (X scale b (or_introl eq_refl) W)|intros b W; exact (X [] b (or_intror eq_refl) W)|].
  apply affine_plus; [|apply affine_const]. apply affine_scal.
  apply (average_affine _ ds
    (fun d b => q_total q_log_prob latent [] th (d (whole N) th0) (d (whole N) th) *
      (log_joint log_prob latent scale th0 (d b th0) - q_total q_log_prob latent [] th0 (d (whole N) th0) (d (whole N) th0)))
    (fun d b => q_total q_log_prob latent [] th (d (whole N) th0) (d (whole N) th) *
      (log_joint log_prob latent [] th0 (d b th0) - q_total q_log_prob latent [] th0 (d (whole N) th0) (d (whole N) th0)))).
  intros d I. destruct (H d I) as (e & o & S). apply affine_scal. apply affine_minus; [|apply affine_const].
  exact (joint_affine scale th0 (fun b => d b th0) e o Hscale S).
Qed.

Lemma score_gradient_unbiased : forall law (ds : list (list nat -> params -> sample V)) th v,
  fair N M law -> (0 < N)%nat -> (0 < M)%nat ->
  (forall zq, In zq latent -> local (fst zq) = false) ->
  (forall d, In d ds -> forall b t, within N b -> s_q (d b t) = s_q (d (whole N) t)) ->
  (forall d, In d ds -> exists each once, subgraph log_prob latent local N th (fun b => d b th) each once) ->
  (forall w b, In (w, b) law -> differentiable (score_objective log_prob q_log_prob latent scale reg (map (fun d => d b) ds) th) th v) ->
  mean_batch law (fun b => gradient (score_objective log_prob q_log_prob latent scale reg (map (fun d => d b) ds) th) th v) =
    gradient (score_objective log_prob q_log_prob latent [] reg (map (fun d => d (whole N)) ds) th) th v.
Proof.
  intros law ds th v F HN HM G E H D.
  apply (mean_batch_gradient law (fun b => score_objective log_prob q_log_prob latent scale reg (map (fun d => d b) ds) th)); [exact D|].
  unfold nearby. apply filter_forall. intros x.
  exact (affine_unbiased law _ (fun b => score_objective log_prob q_log_prob latent [] reg (map (fun d => d b) ds) th _) F HN HM (score_affine ds th _ G E H)).
Qed.

(** Analytic KL divergences. *)
Variable kl : params -> nat -> nat -> (nat -> V) -> list R.

Lemma lik_part_affine : forall (ds : list (list nat -> params -> sample V)) th,
  (forall d, In d ds -> exists each once, subgraph log_prob latent local N th (fun b => d b th) each once) ->
  affine_on (INR N / INR M) (fun b => - average (map (fun d => log_lik log_prob latent scale th (d b th)) ds) + penalty reg th)
    (fun b => - average (map (fun d => log_lik log_prob latent [] th (d b th)) ds) + penalty reg th).
Proof.
  intros ds th H.
  apply (affine_ext _ _ _ (fun b => -1 * average (map (fun d => log_lik log_prob latent scale th (d b th)) ds) + penalty reg th)
    (fun b => -1 * average (map (fun d => log_lik log_prob latent [] th (d b th)) ds) + penalty reg th)); [intros; ring|intros; ring|].
  apply affine_plus; [|apply affine_const]. apply affine_scal.
  apply (average_affine _ ds (fun d b => log_lik log_prob latent scale th (d b th)) (fun d b => log_lik log_prob latent [] th (d b th))).
  intros d I. destruct (H d I) as (e & o & G). exact (lik_affine scale th (fun b => d b th) e o Hscale G).
Qed.

Lemma kl_loss_split : forall sc ks own (ds : list (list nat -> params -> sample V)) th b,
  (forall d, In d ds -> exists each once, subgraph log_prob latent local N th (fun b => d b th) each once) -> within N b ->
  reparam_kl_loss log_prob latent sc reg kl ks (own b) (map (fun d => d b) ds) th =
    (- average (map (fun d => log_lik log_prob latent sc th (d b th)) ds) + penalty reg th) +
    sumR (map (fun zq => factor ks (fst zq) * sumR (kl th (fst zq) (snd zq) (own b))) latent).
Proof.
  intros sc ks own ds th b H W. rewrite reparam_kl_spec.
  - rewrite map_map. ring.
  - intros d I. apply in_map_iff in I. destruct I as (d' & <- & I). destruct (H d' I) as (e & o & G).
    exact (sub_posed _ _ _ _ _ _ _ _ G b W).
Qed.

(** With kl_scaling on the plates. *)
Lemma kl_scaling_unbiased : forall law ks own (ds : list (list nat -> params -> sample V)) th each' once',
  fair N M law -> (0 < N)%nat -> (0 < M)%nat -> plate_scale local N M ks ->
  (forall d, In d ds -> exists each once, subgraph log_prob latent local N th (fun b => d b th) each once) ->
  kl_subgraph kl latent local N th own each' once' ->
  mean_batch law (fun b => reparam_kl_loss log_prob latent scale reg kl ks (own b) (map (fun d => d b) ds) th) =
    reparam_kl_loss log_prob latent [] reg kl [] (own (whole N)) (map (fun d => d (whole N)) ds) th.
Proof.
  intros law ks own ds th e o F HN HM K H Q.
  apply (affine_unbiased law _ (fun b => reparam_kl_loss log_prob latent [] reg kl [] (own b) (map (fun d => d b) ds) th) F HN HM).
  apply (affine_ext _ _ _
    (fun b => (- average (map (fun d => log_lik log_prob latent scale th (d b th)) ds) + penalty reg th) +
      sumR (map (fun zq => factor ks (fst zq) * sumR (kl th (fst zq) (snd zq) (own b))) latent))
    (fun b => (- average (map (fun d => log_lik log_prob latent [] th (d b th)) ds) + penalty reg th) +
      sumR (map (fun zq => factor [] (fst zq) * sumR (kl th (fst zq) (snd zq) (own b))) latent))).
  - intros b W. now apply kl_loss_split.
  - intros b W. now apply kl_loss_split.
  - apply affine_plus; [exact (lik_part_affine ds th H)|].
    destruct (plates_affine local e o (map fst latent)) as (A & B & HA). exists A, B. intros b W. split.
    + rewrite <- (Rmult_1_l A), <- HA, map_map. apply sumR_map_ext. intros [z q] I. cbn [fst snd].
      rewrite (Q b z q W I), (K z). reflexivity.
    + rewrite <- (Rmult_1_l A), <- (Rmult_1_l (sumR (map B b))), <- HA, map_map. apply sumR_map_ext. intros [z q] I. cbn [fst snd].
      rewrite (Q b z q W I), factor_nil. destruct (local z); reflexivity.
Qed.

Lemma plates_split : forall each once (keys : list nat) b,
  sumR (map (fun k => by_plate local each once k b) keys) =
  sumR (map once (filter (fun k => negb (local k)) keys)) + sumR (map (fun i => sumR (map (fun z => each z i) (filter local keys))) b).
Proof.
  intros each once keys b. rewrite <- (sum_exchange (filter local keys) b each). induction keys as [|k keys IH]; [cbn; ring|].
  change (by_plate local each once k b + sumR (map (fun k => by_plate local each once k b) keys) =
    sumR (map once (filter (fun k => negb (local k)) (k :: keys))) + sumR (map (fun z => sumR (map (each z) b)) (filter local (k :: keys)))).
  rewrite IH. cbn [filter]. unfold by_plate at 1. destruct (local k); cbn [negb map].
  - change (sumR (sumR (map (each k) b) :: map (fun z => sumR (map (each z) b)) (filter local keys))) with
      (sumR (map (each k) b) + sumR (map (fun z => sumR (map (each z) b)) (filter local keys))). ring.
  - change (sumR (once k :: map once (filter (fun k => negb (local k)) keys))) with
      (once k + sumR (map once (filter (fun k => negb (local k)) keys))). ring.
Qed.

(** Without. *)
Lemma kl_biased : forall law own (ds : list (list nat -> params -> sample V)) th each' once',
  fair N M law -> (0 < N)%nat -> (0 < M)%nat ->
  (forall d, In d ds -> exists each once, subgraph log_prob latent local N th (fun b => d b th) each once) ->
  kl_subgraph kl latent local N th own each' once' ->
  mean_batch law (fun b => reparam_kl_loss log_prob latent scale reg kl [] (own b) (map (fun d => d b) ds) th) =
    reparam_kl_loss log_prob latent [] reg kl [] (own (whole N)) (map (fun d => d (whole N)) ds) th
    - (1 - INR M / INR N) * local_kl latent local N each'.
Proof.
  intros law own ds th e o F HN HM H Q.
  assert (WF : forall w b, In (w, b) law -> within N b) by (intros w b I i Ii; exact (fair_range _ _ _ F w b i I Ii)).
  assert (W : within N (whole N)) by (intros i I; apply in_seq in I; lia).
  rewrite (mean_batch_ext law _ (fun b => (- average (map (fun d => log_lik log_prob latent scale th (d b th)) ds) + penalty reg th) +
      sumR (map (fun zq => factor [] (fst zq) * sumR (kl th (fst zq) (snd zq) (own b))) latent))).
  2:{ intros w b I. apply kl_loss_split; [exact H|exact (WF w b I)]. }
  rewrite kl_loss_split by assumption. rewrite mean_batch_plus.
  rewrite (affine_unbiased law _ _ F HN HM (lik_part_affine ds th H)).
  assert (KL : forall b, within N b -> sumR (map (fun zq => factor [] (fst zq) * sumR (kl th (fst zq) (snd zq) (own b))) latent) =
    sumR (map o (filter (fun k => negb (local k)) (map fst latent))) + sumR (map (fun i => sumR (map (fun z => e z i) (filter local (map fst latent)))) b)).
  { intros b Wb. rewrite <- plates_split, map_map. apply sumR_map_ext. intros [z q] I. cbn [fst snd].
    rewrite (Q b z q Wb I), factor_nil. ring. }
  rewrite (mean_batch_ext law _ (fun b => sumR (map o (filter (fun k => negb (local k)) (map fst latent))) + sumR (map (fun i => sumR (map (fun z => e z i) (filter local (map fst latent)))) b))).
  2:{ intros w b I. exact (KL b (WF w b I)). }
  rewrite (fair_affine_unscaled N M) by assumption. rewrite (KL _ W).
  unfold local_kl. rewrite (sum_exchange (filter local (map fst latent)) (whole N) e). ring.
Qed.

Lemma kl_too_small : forall law own (ds : list (list nat -> params -> sample V)) th each' once',
  fair N M law -> (0 < M)%nat -> (M < N)%nat ->
  (forall d, In d ds -> exists each once, subgraph log_prob latent local N th (fun b => d b th) each once) ->
  kl_subgraph kl latent local N th own each' once' -> 0 < local_kl latent local N each' ->
  mean_batch law (fun b => reparam_kl_loss log_prob latent scale reg kl [] (own b) (map (fun d => d b) ds) th) <
    reparam_kl_loss log_prob latent [] reg kl [] (own (whole N)) (map (fun d => d (whole N)) ds) th.
Proof.
  intros law own ds th e o F HM HN H Q P.
  rewrite (kl_biased law own ds th e o F ltac:(lia) HM H Q).
  apply lt_INR in HN. pose proof (lt_0_INR M HM).
  assert (0 < (1 - INR M / INR N) * local_kl latent local N e); [|lra].
  apply Rmult_lt_0_compat; [|exact P]. cut (INR M / INR N < 1); [lra|]. apply (Rmult_lt_reg_r (INR N)); [lra|]. field_simplify; lra.
Qed.
End Loss.
End Model.

(** ** SGLD and SGHMC *)
Lemma sgld_unbiased : forall (log_prob : nat -> list (nat * tensor) -> tensor -> R) local N M scale keys law
    (data : list nat -> list (nat * tensor)) (z : list nat -> list tensor) each once,
  fair N M law -> (0 < N)%nat -> (0 < M)%nat -> plate_scale local N M scale ->
  data_subgraph log_prob keys local N data z each once ->
  exists L,
    (forall w b, In (w, b) law -> scaled_log_joint (fun k d v => Fin (log_prob k d v)) (factor scale) (map (fun k => (k, None)) keys) (data b) (z b) = Some (Fin (L b))) /\
    scaled_log_joint (fun k d v => Fin (log_prob k d v)) (fun _ => 1) (map (fun k => (k, None)) keys) (data (whole N)) (z (whole N)) = Some (Fin (mean_batch law L)).
Proof.
  intros log_prob local N M scale keys law data z each once F HN HM S G.
  exists (fun b => scaled_log_density log_prob (factor scale) keys (data b) (z b)).
  assert (W : within N (whole N)) by (intros i I; apply in_seq in I; lia).
  assert (J : forall sc b, within N b ->
    scaled_log_joint (fun k d v => Fin (log_prob k d v)) sc (map (fun k => (k, None)) keys) (data b) (z b) =
    Some (Fin (scaled_log_density log_prob sc keys (data b) (z b)))).
  { intros sc b Wb. destruct (data_posed _ _ _ _ _ _ _ _ G b Wb) as (H1 & H2 & H3 & H4). now apply scaled_log_joint_spec. }
  split.
  { intros w b I. apply J. intros i Ii. exact (fair_range _ _ _ F w b i I Ii). }
  rewrite (J _ _ W). do 2 f_equal. symmetry.
  apply (affine_unbiased N M law _ (fun b => scaled_log_density log_prob (fun _ => 1) keys (data b) (z b)) F HN HM).
  unfold scaled_log_density. cbv zeta.
  assert (P : forall (part : list nat -> list (nat * tensor)) ks, (forall b, within N b -> map fst (part b) = ks) ->
    (forall b kv, In kv (part b) -> In kv (combine keys (z b) ++ data b)) ->
    affine_on N (INR N / INR M)
      (fun b => sumR (map (fun kv => factor scale (fst kv) * log_prob (fst kv) (combine keys (z b) ++ data b) (snd kv)) (part b)))
      (fun b => sumR (map (fun kv => 1 * log_prob (fst kv) (combine keys (z b) ++ data b) (snd kv)) (part b)))).
  { intros part ks K I. destruct (plates_affine local each once ks) as (A & B & H). exists A, B. intros b Wb. split.
    - rewrite <- (Rmult_1_l A), <- H. rewrite <- (K b Wb), map_map. apply sumR_map_ext. intros [k v] Ik. cbn [fst snd].
      rewrite (data_terms _ _ _ _ _ _ _ _ G b k v Wb (I b _ Ik)), (S k). reflexivity.
    - rewrite <- (Rmult_1_l A), <- (Rmult_1_l (sumR (map B b))), <- H. rewrite <- (K b Wb), map_map. apply sumR_map_ext. intros [k v] Ik. cbn [fst snd].
      rewrite (data_terms _ _ _ _ _ _ _ _ G b k v Wb (I b _ Ik)). destruct (local k); reflexivity. }
  apply affine_plus.
  - apply (P (fun b => combine keys (z b)) keys).
    + intros b Wb. destruct (data_posed _ _ _ _ _ _ _ _ G b Wb) as (_ & _ & _ & H4). now apply MHProofs.fst_combine.
    + intros b kv I. apply in_or_app. now left.
  - apply (P data (map fst (data (whole N)))).
    + intros b Wb. exact (data_keys _ _ _ _ _ _ _ _ G b Wb).
    + intros b kv I. apply in_or_app. now right.
Qed.

(** ** Fair batches *)
Lemma count_concat : forall bs i, INR (count_occ Nat.eq_dec (concat bs) i) = sumR (map (fun b => INR (count_occ Nat.eq_dec b i)) bs).
Proof.
  intros bs i. induction bs as [|b bs IH]; [reflexivity|]. cbn [concat]. rewrite count_occ_app, plus_INR, IH. reflexivity.
Qed.

Lemma epoch_mean : forall bs f, mean_batch (epoch bs) f = / INR (length bs) * sumR (map f bs).
Proof. intros bs f. unfold mean_batch, epoch. rewrite map_map. cbn [fst snd]. apply sumR_map_scal. Qed.

Lemma epoch_fair : forall N M bs, Permutation (concat bs) (whole N) -> (forall b, In b bs -> length b = M) -> bs <> [] -> fair N M (epoch bs).
Proof.
  intros N M bs P L Z.
  assert (K : 0 < INR (length bs)) by (apply lt_0_INR; destruct bs; [congruence|cbn; lia]).
  assert (I : forall w b, In (w, b) (epoch bs) -> In b bs).
  { intros w b H. unfold epoch in H. apply in_map_iff in H. destruct H as (b' & E & H). inversion E; subst. exact H. }
  split.
  - rewrite epoch_mean, sumR_const. field. lra.
  - intros w b H. exact (L b (I w b H)).
  - intros w b i H Hi. assert (X : In i (whole N)).
    { apply (Permutation_in i P). apply in_concat. exists b. split; [exact (I w b H)|exact Hi]. }
    apply in_seq in X. lia.
  - intros i j Hi Hj. rewrite !epoch_mean, <- !count_concat.
    assert (X : forall i, (i < N)%nat -> count_occ Nat.eq_dec (concat bs) i = 1%nat).
    { intros k Hk. rewrite (proj1 (Permutation_count_occ Nat.eq_dec _ _) P k).
      apply NoDup_count_occ'; [apply seq_NoDup|apply in_seq; lia]. }
    now rewrite !X.
Qed.

Lemma replacement_step : forall N M f, mean_batch (with_replacement N (S M)) f =
  / INR N * sumR (map (fun i => mean_batch (with_replacement N M) (fun b => f (i :: b))) (whole N)).
Proof.
  intros N M f. cbn [with_replacement]. unfold mean_batch at 1. rewrite <- sumR_map_scal.
  unfold whole. induction (seq 0 N) as [|i l IH]; [reflexivity|]. cbn [flat_map]. rewrite map_app, TransformProofs.sumR_app, IH.
  change (sumR (map (fun i => / INR N * mean_batch (with_replacement N M) (fun b => f (i :: b))) (i :: l))) with
    (/ INR N * mean_batch (with_replacement N M) (fun b => f (i :: b)) + sumR (map (fun i => / INR N * mean_batch (with_replacement N M) (fun b => f (i :: b))) l)).
  f_equal. rewrite map_map. cbn [fst snd]. unfold mean_batch. rewrite <- sumR_map_scal. apply sumR_map_ext. intros a _. unfold Rdiv. cbn [fst snd]. ring.
Qed.

Lemma replacement_fair : forall N M, (0 < N)%nat -> fair N M (with_replacement N M).
Proof.
  intros N M HN. pose proof (lt_0_INR N HN) as HR. induction M as [|M [F1 Fs Fr Fe]].
  - split.
    + unfold mean_batch. cbn. ring.
    + intros w b [E|[]]. inversion E; subst. reflexivity.
    + intros w b i [E|[]]. inversion E; subst. intros [].
    + intros i j _ _. reflexivity.
  - assert (I : forall w b, In (w, b) (with_replacement N (S M)) -> exists w' i b', b = i :: b' /\ (i < N)%nat /\ In (w', b') (with_replacement N M)).
    { intros w b H. cbn [with_replacement] in H. apply in_flat_map in H. destruct H as (i & Hi & H). apply in_map_iff in H.
      destruct H as ([w' b'] & E & H). inversion E; subst. apply in_seq in Hi. exists w', i, b'. repeat split; [lia|exact H]. }
    split.
    + rewrite replacement_step. rewrite (sumR_map_ext _ _ (fun _ => 1)) by (intros; exact F1). rewrite sumR_const. unfold whole. rewrite seq_length. field. lra.
    + intros w b H. destruct (I w b H) as (w' & i & b' & -> & _ & H'). cbn [length]. now rewrite (Fs w' b' H').
    + intros w b j H Hj. destruct (I w b H) as (w' & i & b' & -> & Hi & H'). destruct Hj as [<-|Hj]; [exact Hi|exact (Fr w' b' j H' Hj)].
    + assert (X : forall i, (i < N)%nat -> mean_batch (with_replacement N (S M)) (fun b => INR (count_occ Nat.eq_dec b i)) =
        mean_batch (with_replacement N M) (fun b => INR (count_occ Nat.eq_dec b i)) + / INR N).
      { intros i Hi. rewrite replacement_step.
        rewrite (sumR_map_ext _ _ (fun j => INR (count_occ Nat.eq_dec [j] i) * 1 + mean_batch (with_replacement N M) (fun b => INR (count_occ Nat.eq_dec b i)))).
        2:{ intros j _. rewrite <- F1, <- mean_batch_scal, <- mean_batch_plus. apply mean_batch_ext. intros w b _.
            change (j :: b) with ([j] ++ b). rewrite count_occ_app, plus_INR. ring. }
        rewrite sumR_map_add, sumR_const. unfold whole at 2. rewrite seq_length.
        rewrite (sumR_map_ext (whole N) (fun j => INR (count_occ Nat.eq_dec [j] i) * 1) (fun j => INR (count_occ Nat.eq_dec [i] j) * 1)).
        2:{ intros j _. cbn [count_occ]. destruct (Nat.eq_dec j i), (Nat.eq_dec i j); congruence. }
        rewrite <- (sum_counts N (fun _ => 1) [i]) by (intros k [<-|[]]; exact Hi). cbn. field. lra. }
      intros i j Hi Hj. rewrite !X by assumption. rewrite (Fe i j Hi Hj). reflexivity.
Qed.
