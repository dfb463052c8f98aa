(** * C53-C56, C61: evaluation metrics, evaluate, ppc, seeding and sessions. *)
From Coq Require Import Reals String List Arith ZArith Bool Lra Lia.
From Verif Require Import Ext Transform GAN Mode ModeProofs Checks Metrics MetricsSpec MetricsProofs Evaluate EvaluateSpec EvaluateProofs
  Predict PredictSpec PredictProofs Ppc PpcSpec PpcProofs Session SessionSpec SessionProofs.
Import ListNotations.
Local Open Scope R_scope.

(** ** C53: metrics *)

Theorem C53_accuracy : forall y_true y_pred, length y_true = length y_pred -> y_true <> [] ->
  0 <= accuracy y_true y_pred <= 1 /\ (accuracy y_true y_pred = 1 <-> y_true = y_pred).
Proof. exact accuracy_range. Qed.
Print Assumptions C53_accuracy.

Theorem C53_categorical_accuracy : forall (y_true : list (list R)) (y_pred : list nat), length y_true = length y_pred -> y_true <> [] ->
  0 <= categorical_accuracy y_true (map INR y_pred) <= 1 /\
  (categorical_accuracy y_true (map INR y_pred) = 1 <-> y_pred = map argmax y_true).
Proof. exact categorical_accuracy_range. Qed.
Print Assumptions C53_categorical_accuracy.

(** On one-hot rows the class compared is the hot one. *)
Theorem C53_one_hot : forall k K, (k < K)%nat -> argmax (one_hot k K) = k.
Proof. exact argmax_one_hot. Qed.
Print Assumptions C53_one_hot.

(** Macro and micro averages are both the mean over all entries, for every elementwise
    error and every tensor of rank one or more. *)
Theorem C53_averages : forall g y_true y_pred, same_shape y_true y_pred ->
  with_binary_averaging g Macro y_true y_pred = Scalar (overall_mean g (entries y_true) (entries y_pred)) /\
  with_binary_averaging g Micro y_true y_pred = Scalar (overall_mean g (entries y_true) (entries y_pred)).
Proof. exact MetricsProofs.averaging. Qed.
Print Assumptions C53_averages.

(** average=None: entry j of the result is the mean error of column j. *)
Theorem C53_class_wise : forall g b c n m k, (0 < m)%nat -> rectangular b n m k -> rectangular c n m k ->
  exists v, with_binary_averaging g AvgNone (Batches b) (Batches c) = ClassWise v /\ length v = n /\ forall i j, (i < n)%nat -> (j < k)%nat ->
    nth j (nth i v []) 0 = sumR (map (fun r => g (nth j (nth r (nth i b []) []) 0) (nth j (nth r (nth i c []) []) 0)) (seq 0 m)) / INR m.
Proof. exact class_wise. Qed.
Print Assumptions C53_class_wise.

Theorem C53_errors : forall t p,
  (0 <= squared_error t p /\ (squared_error t p = 0 <-> t = p)) /\ (0 <= absolute_error t p /\ (absolute_error t p = 0 <-> t = p)) /\
  (0 <= percentage_error t p /\ (percentage_error t p = 0 <-> t = p)) /\
  (0 <= logarithmic_error t p /\ (logarithmic_error t p = 0 <-> clip_below t = clip_below p)).
Proof. exact error_zero. Qed.
Print Assumptions C53_errors.

(** The averages of a non-negative error are non-negative, and zero iff it is zero everywhere. *)
Theorem C53_mean_errors : forall g y_true y_pred, (forall t p, 0 <= g t p) -> same_shape y_true y_pred ->
  exists r, with_binary_averaging g Macro y_true y_pred = Scalar r /\ 0 <= r /\
    (r = 0 <-> Forall (fun q => g (fst q) (snd q) = 0) (combine (entries y_true) (entries y_pred))).
Proof.
  exact (fun g a b G H => ex_intro _ _ (conj (proj1 (MetricsProofs.averaging g a b H)) (overall_nonneg g _ _ G (proj1 (shape_entries a b H)) (proj2 (shape_entries a b H))))).
Qed.
Print Assumptions C53_mean_errors.

(** Rows of probabilities: finite, non-negative, zero iff equal; +infinity exactly when
    a prediction excludes something that has mass. *)
Theorem C53_kl : forall y_true y_pred, Forall2 (fun p q => length p = length q) y_true y_pred -> Forall distribution y_true -> Forall distribution y_pred ->
  (kl_divergence (concat y_true) (concat y_pred) = PInf /\ exists t, In (t, 0) (combine (concat y_true) (concat y_pred)) /\ 0 < t) \/
  exists r, kl_divergence (concat y_true) (concat y_pred) = Fin r /\ 0 <= r /\ (r = 0 <-> y_true = y_pred).
Proof. exact kl_distributions. Qed.
Print Assumptions C53_kl.

Theorem C53_binary_crossentropy : forall y_true y_pred, length y_true = length y_pred -> y_true <> [] -> Forall (fun t => 0 <= t <= 1) y_true ->
  0 < binary_crossentropy y_true y_pred.
Proof. exact binary_crossentropy_pos. Qed.
Print Assumptions C53_binary_crossentropy.

(** The two representations of classes give the same cross-entropy. *)
Theorem C53_sparse_crossentropy : forall K (y_true : list nat) (y_pred : list (list R)), length y_true = length y_pred -> y_true <> [] ->
  (forall k, In k y_true -> (k < K)%nat) -> (forall r, In r y_pred -> length r = K) ->
  sparse_categorical_crossentropy y_true y_pred = categorical_crossentropy (map (fun k => one_hot k K) y_true) y_pred /\
  0 <= sparse_categorical_crossentropy y_true y_pred.
Proof. exact sparse_is_categorical. Qed.
Print Assumptions C53_sparse_crossentropy.

Theorem C53_hinge : forall y_true y_pred, length y_true = length y_pred -> y_true <> [] -> 0 <= hinge y_true y_pred /\ 0 <= squared_hinge y_true y_pred /\
  (hinge y_true y_pred = 0 <-> Forall (fun p => 1 <= fst p * snd p) (combine y_true y_pred)) /\
  (squared_hinge y_true y_pred = 0 <-> Forall (fun p => 1 <= fst p * snd p) (combine y_true y_pred)).
Proof. exact hinge_nonneg. Qed.
Print Assumptions C53_hinge.

(** With the documented labels 0 and 1, whatever is predicted for label 0 costs 1. *)
Theorem C53_hinge_labels_refuted : forall n y_pred, length y_pred = n -> y_pred <> [] -> hinge (repeat 0 n) y_pred = 1 /\ squared_hinge (repeat 0 n) y_pred = 1.
Proof. exact hinge_zero_label. Qed.
Print Assumptions C53_hinge_labels_refuted.

(** The cosine proximity is the sum, not the mean, over the rows. *)
Theorem C53_cosine : forall y_true y_pred, length y_true = length y_pred -> Forall (fun p => length (fst p) = length (snd p)) (combine y_true y_pred) ->
  - INR (length y_true) <= cosine_proximity y_true y_pred <= INR (length y_true).
Proof. exact cosine_bound. Qed.
Print Assumptions C53_cosine.

Theorem C53_cosine_self : forall y, Forall (fun v => / 1000000000000 <= sumR (map (fun x => x * x) v)) y -> cosine_proximity y y = INR (length y).
Proof. exact cosine_self. Qed.
Print Assumptions C53_cosine_self.

(** No non-negative prediction has a smaller Poisson loss than the targets (up to the
    constant the code adds inside the logarithm). *)
Theorem C53_poisson : forall y_true y_pred, length y_true = length y_pred -> Forall (fun t => / 100000000 <= t) y_true -> Forall (fun p => 0 <= p) y_pred ->
  poisson y_true (map (fun t => t - / 100000000) y_true) <= poisson y_true y_pred.
Proof. exact poisson_best. Qed.
Print Assumptions C53_poisson.

(** False of the code: an unknown average raises NameError, not ValueError. *)
Theorem C53_unknown_average_refuted : forall g y_true y_pred, with_binary_averaging g UnknownAverage y_true y_pred = MetricError Metrics.NameError.
Proof. exact (fun _ _ _ => eq_refl). Qed.
Print Assumptions C53_unknown_average_refuted.

Example C53_met : same_shape (Batches [[[1; 2; 3]; [4; 5; 6]]]) (Batches [[[1; 2; 2]; [4; 7; 6]]]) /\ same_shape (Rank1 [1; 2]) (Rank1 [0; 2]) /\
  distribution [1 / 3; 2 / 3] /\ distribution [1; 0] /\ (forall t p, 0 <= squared_error t p).
Proof.
  assert (X : forall a b c d e f : R, rectangular [[[a; b; c]; [d; e; f]]] 1 2 3).
  { intros. split; auto. intros m [<-|[]]. split; auto. intros r [<-|[<-|[]]]; auto. }
  split; [exists 1%nat, 2%nat, 3%nat; repeat (split; [lia|]); auto|]. split; [split; [reflexivity|discriminate]|].
  unfold distribution. repeat split; try (repeat constructor; lra); try (simpl; lra). intros; apply error_zero.
Qed.

(** ** C54: evaluate *)

(** A documented metric or list of metrics: exactly the documented evaluations, in
    order, one alone or as a list.  [V]: contents of Python values; [pl]: shapes of
    placeholders; [discrete]: which variables are of the discrete classes.
    Missing: the bare tuple, a tensor as output_key, realizations that are Python
    numbers or lists. *)
Theorem C54_documented_partial : forall {V : Type} pl discrete (small_support : obj V -> bool) metrics vs d n output_key k v,
  asks_all metrics vs -> (forall e, metrics <> MTuple e) ->
  check_data pl (ADict d) = Ret tt -> (1 <= n)%Z -> chosen d output_key k v -> is_rv k -> ~ is_python v ->
  evaluate pl discrete small_support metrics (ADict d) (Some n) output_key = packed vs.
Proof. exact @accepts. Qed.
Print Assumptions C54_documented_partial.

(** The log-likelihood alone takes every realization. *)
Theorem C54_log_lik : forall {V : Type} pl discrete (small_support : obj V -> bool) s d n output_key k v, In (s, MLogLik) documented ->
  check_data pl (ADict d) = Ret tt -> (1 <= n)%Z -> chosen d output_key k v -> is_rv k ->
  evaluate pl discrete small_support (MStr s) (ADict d) (Some n) output_key = Single EvLogLik.
Proof. exact @accepts_log_lik. Qed.
Print Assumptions C54_log_lik.

(** Whenever values are returned, the arguments were of the accepted kinds and there is
    one value per metric, each that of its own metric. *)
Theorem C54_rejects : forall {V : Type} pl discrete (small_support : obj V -> bool) metrics data n output_key vs,
  values_of (evaluate pl discrete small_support metrics data n output_key) = Some vs ->
  exists l d k v m, metrics_list metrics = Some l /\ data = ADict d /\ check_data pl data = Ret tt /\ n = Some m /\
    choose_output d output_key = inl k /\ data_get d k = Some v /\
    evaluate pl discrete small_support metrics data n output_key = packed vs /\ length vs = length l /\
    Forall recognised l /\ Forall2 (fun e x => evaluate_one (output_class discrete k) (small_support v) e = inl x) l vs.
Proof. exact @rejects. Qed.
Print Assumptions C54_rejects.

Theorem C54_unknown_metric : forall {V : Type} pl discrete (small_support : obj V -> bool) s before after b d n output_key k v,
  ~ In s (map fst documented) -> ~ In s undocumented ->
  evaluate_loop (output_class discrete k) (small_support v) before = inl b ->
  check_data pl (ADict d) = Ret tt -> (1 <= n)%Z -> chosen d output_key k v -> ~ is_python v ->
  evaluate pl discrete small_support (MList (before ++ EPlain (EStr s) :: after)) (ADict d) (Some n) output_key = Raise NotImplementedError.
Proof. exact @unknown_name. Qed.
Print Assumptions C54_unknown_metric.

(** Without output_key, no key or several keys that are not placeholders raise KeyError. *)
Theorem C54_no_output : forall {V : Type} pl discrete (small_support : obj V -> bool) metrics l d n, metrics_list metrics = Some l -> check_data pl (ADict d) = Ret tt ->
  (forall k v, ~ only_output d k v) -> evaluate pl discrete small_support metrics (ADict d) (Some n) None = Raise KeyError.
Proof. exact @no_output. Qed.
Print Assumptions C54_no_output.

(** False of the code: a (str, params) tuple, documented, raises TypeError. *)
Theorem C54_tuple_refuted : forall {V : Type} pl discrete (small_support : obj V -> bool) e data n output_key,
  evaluate pl discrete small_support (MTuple e) data n output_key = Raise TypeError.
Proof. exact @tuple_raises. Qed.
Print Assumptions C54_tuple_refuted.

(** False of the code: a tf.Tensor as output_key, documented, raises TypeError, ... *)
Theorem C54_tensor_output_refuted : forall {V : Type} pl discrete (small_support : obj V -> bool) metrics l d n i s t, metrics_list metrics = Some l -> check_data pl (ADict d) = Ret tt ->
  evaluate pl discrete small_support metrics (ADict d) (Some n) (Some (OTensor i s t)) = Raise TypeError.
Proof. exact @tensor_output_raises. Qed.
Print Assumptions C54_tensor_output_refuted.

(** ... though it is accepted when it is the default. *)
Theorem C54_default_tensor_output : forall {V : Type} pl discrete (small_support : obj V -> bool) l vs d n k v, Forall2 asks l vs -> ~ In EvLogLik vs -> check_data pl (ADict d) = Ret tt -> (1 <= n)%Z ->
  only_output d k v -> ~ is_rv k -> ~ is_python v -> evaluate pl discrete small_support (MList l) (ADict d) (Some n) None = packed vs.
Proof. exact @default_tensor_output. Qed.
Print Assumptions C54_default_tensor_output.

(** False of the code: realizations that check_data accepts, Python numbers and lists,
    raise AttributeError for every metric but the log-likelihood alone. *)
Theorem C54_python_value_refuted : forall {V : Type} pl discrete (small_support : obj V -> bool) metrics l d n output_key k v, metrics_list metrics = Some l -> supervised l = true ->
  check_data pl (ADict d) = Ret tt -> (1 <= n)%Z -> chosen d output_key k v ->
  is_python v -> evaluate pl discrete small_support metrics (ADict d) (Some n) output_key = Raise AttributeError.
Proof. exact @python_value. Qed.
Print Assumptions C54_python_value_refuted.

(** False of the code: a params key that is not 'average' is ignored instead of refused. *)
Theorem C54_stray_param_refuted : forall {V : Type} pl discrete (small_support : obj V -> bool) s f x val d n output_key k v, In (s, MAvg f) documented -> x <> "average"%string ->
  check_data pl (ADict d) = Ret tt -> (1 <= n)%Z -> chosen d output_key k v -> ~ is_python v ->
  evaluate pl discrete small_support (MList [ETuple (EStr s) (PDict [(x, val)])]) (ADict d) (Some n) output_key = Single (EvAveraged f AMacro).
Proof. exact @stray_param. Qed.
Print Assumptions C54_stray_param_refuted.

Theorem C54_bad_average : forall {V : Type} pl discrete (small_support : obj V -> bool) s f val d n output_key k v, In (s, MAvg f) documented ->
  val <> VNone -> val <> VStr "macro" -> val <> VStr "micro" ->
  check_data pl (ADict d) = Ret tt -> (1 <= n)%Z -> chosen d output_key k v -> ~ is_python v ->
  evaluate pl discrete small_support (MList [ETuple (EStr s) (PDict [("average"%string, val)])]) (ADict d) (Some n) output_key = Raise NameError.
Proof. exact @bad_average. Qed.
Print Assumptions C54_bad_average.

(** The names the documentation does not have.  The first two depend on whether the
    data exceed 1; the last needs an output of a discrete class. *)
Theorem C54_undocumented : forall {V : Type} pl discrete (small_support : obj V -> bool) s d n output_key k v, In s undocumented ->
  check_data pl (ADict d) = Ret tt -> (1 <= n)%Z -> chosen d output_key k v -> ~ is_python v ->
  evaluate pl discrete small_support (MStr s) (ADict d) (Some n) output_key =
  if String.eqb s "accuracy" then Single (EvMetric (if small_support v then FBinaryAccuracy else FSparseCategoricalAccuracy))
  else if String.eqb s "crossentropy" then Single (EvMetric (if small_support v then FBinaryCrossentropy else FSparseCategoricalCrossentropy))
  else if String.eqb s "multinomial_accuracy" then Single (EvMetric FMultinomialAccuracy)
  else match k with ORV i _ _ => if discrete i then Single (EvMetric FKlDivergence) else Raise UnboundLocalError | _ => Raise UnboundLocalError end.
Proof. exact @undocumented_names. Qed.
Print Assumptions C54_undocumented.

(** A Bernoulli output (0) and a placeholder (1): two metrics, then one. *)
Example C54_met :
  let pl := fun _ : nat => (@None (list (option nat)), 0%nat) in
  let y := ORV 0 (Some [Some 3%nat]) 1 in
  let d := [(OPlace 1, ONp [3%nat] NFloat tt); (y, ONp [3%nat] NInt tt)] in
  check_data pl (ADict d) = Ret tt /\ chosen d None y (ONp [3%nat] NInt tt) /\ chosen d (Some y) y (ONp [3%nat] NInt tt) /\
  evaluate pl (fun _ => true) (fun _ => true) (MList [EPlain (EStr "accuracy"); ETuple (EStr "mse") (PDict [("average"%string, VNone)])]) (ADict d) (Some 10%Z) None =
    Many [EvMetric FBinaryAccuracy; EvAveraged FMeanSquaredError ANone] /\
  evaluate pl (fun _ => true) (fun _ => true) (MStr "poisson") (ADict d) (Some 10%Z) (Some y) = Single (EvMetric FPoisson).
Proof.
  cbv zeta. split; [reflexivity|]. split.
  - exists [(OPlace 1, ONp [3%nat] NFloat tt)], []. split; [reflexivity|]. split; [reflexivity|]. intros kv [<-|[]]. reflexivity.
  - split; [split; [reflexivity|]; split; [unfold is_rv; eauto|reflexivity]|]. split; reflexivity.
Qed.

(** ** C55: ppc *)

(** Both arrays have n_samples entries; entry i of the reference distribution is the
    discrepancy of the data and latent variables of session run 2 i, entry i of the
    realized discrepancy that of the observed data and the latent variables of run
    2 i + 1.  Missing: that both are of one run. *)
Theorem C55_entries_partial : forall {V world : Type} pl (value : obj V -> world -> V) T d l n worlds,
  check_data pl (ADict d) = Ret tt -> check_latent_vars pl (ADict l) = Ret tt -> (1 <= n)%Z ->
  exists a b, ppc pl value (Some T) (ADict d) (Some (ADict l)) (Some n) worlds = Arrays a b /\
    length a = Z.to_nat n /\ length b = Z.to_nat n /\
    forall i, (i < Z.to_nat n)%nat -> exists xs zs ys zs',
      replication value d (worlds (2 * i)%nat) xs /\ bound_values value l (worlds (2 * i)%nat) zs /\ nth_error a i = Some (T xs zs (worlds (2 * i)%nat)) /\
      bound_values value d (worlds (S (2 * i))) ys /\ bound_values value l (worlds (S (2 * i))) zs' /\
      nth_error b i = Some (T ys zs' (worlds (S (2 * i)))).
Proof. exact @ppc_entries. Qed.
Print Assumptions C55_entries_partial.

Theorem C55_no_latent_vars : forall {V world : Type} pl (value : obj V -> world -> V) T d n worlds, ppc pl value T d None n worlds = ppc pl value T d (Some (ADict [])) n worlds.
Proof. exact @ppc_none. Qed.
Print Assumptions C55_no_latent_vars.

(** Exactly these calls raise. *)
Theorem C55_raises : forall {V world : Type} pl (value : obj V -> world -> V) T d l n worlds,
  (forall a b, ppc pl value T d l n worlds <> Arrays a b) <->
  T = None \/ (exists e, check_data pl d = Checks.Raise e) \/ (exists l', l = Some l' /\ exists e, check_latent_vars pl l' = Checks.Raise e) \/ n = None \/ exists m, n = Some m /\ (m < 1)%Z.
Proof. exact @ppc_raises. Qed.
Print Assumptions C55_raises.

(** The same draw, when the latent variables have one value in all runs.
    Missing: latent variables that are sampled. *)
Theorem C55_same_draw_partial : forall {V world : Type} pl (value : obj V -> world -> V) T d l n worlds i,
  check_data pl (ADict d) = Ret tt -> check_latent_vars pl (ADict l) = Ret tt -> (1 <= n)%Z -> (i < Z.to_nat n)%nat ->
  (forall kv w w', In kv l -> value (snd kv) w = value (snd kv) w') ->
  (forall xs zs w w', T xs zs w = T xs zs w') ->
  exists a b xs ys z, ppc pl value (Some T) (ADict d) (Some (ADict l)) (Some n) worlds = Arrays a b /\
    bound_values value l (worlds (2 * i)%nat) z /\ replication value d (worlds (2 * i)%nat) xs /\ bound_values value d (worlds (S (2 * i))) ys /\
    nth_error a i = Some (T xs z (worlds (2 * i)%nat)) /\ nth_error b i = Some (T ys z (worlds (2 * i)%nat)).
Proof. exact @ppc_constant. Qed.
Print Assumptions C55_same_draw_partial.

(** False of the code: the discrepancy T(x, z) = z, which does not look at the data, has
    different entries in the two arrays. *)
Theorem C55_same_draw_refuted : exists (pl : nat -> tshape * nat) (value : obj nat -> nat -> nat) T d l worlds a b,
  check_data pl (ADict d) = Ret tt /\ check_latent_vars pl (ADict l) = Ret tt /\
  (forall xs xs' zs w w', T xs zs w = T xs' zs w') /\
  ppc pl value (Some T) (ADict d) (Some (ADict l)) (Some 1%Z) worlds = Arrays a b /\ a <> b.
Proof.
  exact (ex_intro _ (fun _ => (None, 0%nat)) (ex_intro _ (fun o w => w) (ex_intro _ (fun _ zs _ => match zs with (_, z) :: _ => z | [] => 0%nat end)
    (ex_intro _ [(ORV 0 None 0, ONp [] NInt 0%nat)] (ex_intro _ [(ORV 1 None 0, ORV 2 None 0)] (ex_intro _ (fun k => k) (ex_intro _ [0%nat] (ex_intro _ [1%nat]
    (conj eq_refl (conj eq_refl (conj (fun _ _ _ _ _ => eq_refl) (conj eq_refl (fun E : [0%nat] = [1%nat] => ltac:(discriminate E)))))))))))))).
Qed.
Print Assumptions C55_same_draw_refuted.

(** Data replicated from run 0 with its own latent draw. *)
Example C55_met : ppc (world := nat) (fun _ => (None, 0%nat)) (fun o w => match o with ORV i _ _ => (10 * w + i)%nat | ONp _ _ v => v | _ => 0%nat end)
  (Some (fun xs zs _ => match xs, zs with (_, x) :: _, (_, z) :: _ => (1000 * x + z)%nat | _, _ => 0%nat end))
  (ADict [(ORV 0 None 0, ONp [] NInt 7%nat)]) (Some (ADict [(ORV 1 None 0, ORV 2 None 0)])) (Some 2%Z) (fun k => k) =
  Arrays [2; 20022]%nat [7012; 7032]%nat.
Proof. reflexivity. Qed.

(** ** C56: seeding and sessions *)

(** set_seed raises RuntimeError exactly when the graph is not empty; nothing is changed
    unless it succeeds. *)
Theorem C56_set_seed : forall x p,
  (fst (set_seed x p) = SRuntimeError <-> ~ seedable (p_nodes p)) /\
  (seedable (p_nodes p) -> set_seed x p = match x with
    | SFloat _ => (STypeError, p)
    | SInt z => if Z.leb 0 z && Z.ltb z 4294967296 then (SOk, mkprocess (p_nodes p) (Some z) (Some z) (p_default p) (p_created p) (p_ed p) (p_keras p)) else (SValueError, p)
    end) /\
  (fst (set_seed x p) <> SOk -> snd (set_seed x p) = p).
Proof. exact set_seed_spec. Qed.
Print Assumptions C56_set_seed.

(** False of the code: a float, a documented seed, is refused on an empty graph. *)
Theorem C56_float_seed_refuted : forall z p, seedable (p_nodes p) -> set_seed (SFloat z) p = (STypeError, p).
Proof. exact (fun z p => proj1 (proj2 (set_seed_spec (SFloat z) p))). Qed.
Print Assumptions C56_float_seed_refuted.

(** After the first operation no history changes the seeds. *)
Theorem C56_seeds_fixed : forall h p, ~ seedable (p_nodes p) -> p_np_seed (run_steps h p) = p_np_seed p /\ p_tf_seed (run_steps h p) = p_tf_seed p.
Proof. exact seeds_fixed. Qed.
Print Assumptions C56_seeds_fixed.

(** Along every history the two seeds agree. *)
Theorem C56_seeds_agree : forall h p, p_np_seed p = p_tf_seed p -> p_np_seed (run_steps h p) = p_tf_seed (run_steps h p).
Proof. exact seeds_agree. Qed.
Print Assumptions C56_seeds_agree.

(** get_session returns the innermost default session; without one it creates one
    session, which becomes the default. *)
Theorem C56_get_session : forall keras p,
  (forall s r, p_default p = s :: r -> fst (get_session keras p) = s /\ p_created (snd (get_session keras p)) = p_created p /\ p_ed (snd (get_session keras p)) = Some s) /\
  (p_default p = [] -> fst (get_session keras p) = p_created p /\ p_default (snd (get_session keras p)) = [p_created p] /\
    p_created (snd (get_session keras p)) = S (p_created p) /\ p_ed (snd (get_session keras p)) = Some (p_created p)).
Proof. exact (fun k p => conj (get_innermost k p) (get_fresh k p)). Qed.
Print Assumptions C56_get_session.

(** The same session again after every history that has left the sessions it entered. *)
Theorem C56_same_session : forall keras keras' h p, balanced h ->
  fst (get_session keras' (run_steps h (snd (get_session keras p)))) = fst (get_session keras p).
Proof. exact get_stable. Qed.
Print Assumptions C56_same_session.

(** Keras, if there, gets that session. *)
Theorem C56_keras : forall p, p_keras (snd (get_session true p)) = Some (fst (get_session true p)).
Proof. exact keras_same. Qed.
Print Assumptions C56_keras.

Example C56_met : let p := mkprocess [] None None [] 0 None None in
  seedable (p_nodes p) /\ fst (set_seed (SInt 42) p) = SOk /\
  balanced [AddNode "Normal"; Enter 7; GetSession true; Leave; GetSession false] /\
  ~ seedable (p_nodes (run_steps [SetSeed (SInt 42); AddNode "Normal"] p)) /\
  p_np_seed (run_steps [SetSeed (SInt 42); AddNode "Normal"; SetSeed (SInt 43)] p) = Some 42%Z.
Proof.
  cbv zeta. split; [now left|]. split; [reflexivity|]. split.
  - constructor. apply (bal_enter 7 [GetSession true] [GetSession false]); repeat constructor.
  - split; [|reflexivity]. intros [E|E]; discriminate E.
Qed.

(** ** C61: predictions *)

(** The averages over n_samples runs. *)
Theorem C61_average : forall w runs, length (mean_of_runs w runs) = w /\
  (forall j, (j < w)%nat -> nth j (mean_of_runs w runs) 0 = sumR (map (fun r => nth j r 0) runs) / INR (length runs)) /\
  (runs <> [] -> (forall r, In r runs -> length r = w /\ distribution r) -> distribution (mean_of_runs w runs)) /\
  (runs <> [] -> (forall r, In r runs -> length r = w /\ Forall (fun p => 0 <= p <= 1) r) -> Forall (fun p => 0 <= p <= 1) (mean_of_runs w runs)).
Proof. exact (fun w runs => conj (mean_runs_length w runs) (conj (mean_runs_nth w runs) (conj (mean_runs_distribution w runs) (mean_runs_unit w runs)))). Qed.
Print Assumptions C61_average.

(** Bernoulli outputs: the more probable label; at a tie, the label the uniform draw says. *)
Theorem C61_bernoulli : forall u probs i, length u = length probs -> (i < length probs)%nat ->
  let p := nth i probs 0 in let c := nth i (predict_binary u probs) 0 in
  (c = 0 \/ c = 1) /\ (p < 1 / 2 -> c = 0) /\ (1 / 2 < p -> c = 1) /\ (p = 1 / 2 -> (c = 1 <-> 1 / 2 < nth i u 0)).
Proof. exact binary_prediction. Qed.
Print Assumptions C61_bernoulli.

(** No prediction has a higher expected accuracy. *)
Theorem C61_bernoulli_best : forall u probs other, length u = length probs -> length other = length probs -> probs <> [] ->
  Forall (fun p => 0 <= p <= 1) probs -> expected_accuracy probs other <= expected_accuracy probs (predict_binary u probs).
Proof. exact binary_best. Qed.
Print Assumptions C61_bernoulli_best.

(** Categorical outputs: a most probable class. *)
Theorem C61_categorical : forall rows i, (i < length rows)%nat -> nth i rows [] <> [] ->
  exists k, nth i (predict_categorical rows) 0 = INR k /\ (k < length (nth i rows []))%nat /\
    forall j, (j < length (nth i rows []))%nat -> nth j (nth i rows []) 0 <= nth k (nth i rows []) 0.
Proof. exact categorical_prediction. Qed.
Print Assumptions C61_categorical.

(** False of the code: the prediction for a Binomial output is 0 or 1 whatever the number
    of trials, ... *)
Theorem C61_binomial_refuted : exists n p u k, (1 < n)%nat /\ 0 <= p <= 1 /\ nth 0 (predict_binary [u] [p]) 0 = INR k /\
  exists better, binomial n p k < binomial n p better.
Proof. exact binomial_prediction. Qed.
Print Assumptions C61_binomial_refuted.

(** ... the log loss scores the predicted label as if it were a logit: it is the same for
    every probability above one half, ... *)
Theorem C61_log_loss_refuted : forall u u' p p', 1 / 2 < p < 1 -> 1 / 2 < p' < 1 -> p <> p' ->
  score FBinaryCrossentropy Macro [1] (predict_binary [u] [p]) = score FBinaryCrossentropy Macro [1] (predict_binary [u'] [p']) /\
  log_loss [1] [p] <> log_loss [1] [p'].
Proof. exact log_loss_blind. Qed.
Print Assumptions C61_log_loss_refuted.

Theorem C61_log_loss_value_refuted : exists u p y, 0 < p < 1 /\ score FBinaryCrossentropy Macro [y] (predict_binary [u] [p]) <> Some (Scalar (log_loss [y] [p])).
Proof. exact log_loss_wrong. Qed.
Print Assumptions C61_log_loss_value_refuted.

(** ... the divergence of a Binomial output can be negative, ... *)
Theorem C61_kl_negative_refuted : exists n y p r, (1 < n)%nat /\ 0 <= y <= INR n /\ 0 < p < 1 /\ score_kl n [y] [p] = Fin r /\ r < 0.
Proof. exact kl_negative. Qed.
Print Assumptions C61_kl_negative_refuted.

(** ... and that of a Multinomial output is taken against an array that computing the
    prediction has overwritten: +infinity where it should be 0. *)
Theorem C61_kl_overwritten_refuted : forall choice fuel, (2 <= fuel)%nat -> exists probs n y mode after,
  predict_multinomial choice fuel probs n = Returned mode after /\ map (fun c => c / INR n) y = probs /\
  score_kl n y probs = Fin 0 /\ score_kl n y after = PInf.
Proof. exact kl_corrupted. Qed.
Print Assumptions C61_kl_overwritten_refuted.

Example C61_met : distribution [1 / 4; 3 / 4] /\ [1 / 3; 1 / 2] <> [] /\ Forall (fun p => 0 <= p <= 1) [1 / 3; 1 / 2] /\ nth 0 [[1 / 4; 3 / 4]] [] <> [].
Proof. unfold distribution. repeat split; try (repeat constructor; lra); try (simpl; lra); discriminate. Qed.
