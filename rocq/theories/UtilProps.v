(** * C49-C52 and C60: numerical utilities. *)
From Coq Require Import Reals List Arith Bool Lia Lra.
From Verif Require Import Ext Transform GAN Util UtilSpec UtilProofs KernelProofs Mode ModeSpec ModeProofs.
Import ListNotations.

(** ** C49: to_simplex *)

(** Finite input is accepted, anything else raises. *)
Theorem C49_accepts : forall x,
  (forall v, x = map Fin v -> to_simplex x = Some (to_simplex_row v)) /\ ((forall v, x <> map Fin v) -> to_simplex x = None).
Proof. exact to_simplex_spec. Qed.
Print Assumptions C49_accepts.

(** Each row of a matrix is mapped like a vector. *)
Theorem C49_rows : forall m, to_simplex_rows (map (map Fin) m) = Some (map to_simplex_row m).
Proof. exact to_simplex_rows_spec. Qed.
Print Assumptions C49_rows.

(** K - 1 reals give K positive numbers that sum to one. *)
Theorem C49_simplex : forall x, on_simplex (S (length x)) (to_simplex_row x).
Proof. exact simplex_range. Qed.
Print Assumptions C49_simplex.

Theorem C49_uniform : forall K, to_simplex_row (repeat 0%R K) = repeat (/ INR (S K))%R (S K).
Proof. exact simplex_zero. Qed.
Print Assumptions C49_uniform.

Theorem C49_injective : forall x y, length x = length y -> to_simplex_row x = to_simplex_row y -> x = y.
Proof. exact simplex_inj. Qed.
Print Assumptions C49_injective.

(** Every point of the open simplex is reached. *)
Theorem C49_onto : forall K p, on_simplex (S K) p -> exists x, length x = K /\ to_simplex_row x = p.
Proof. exact simplex_onto. Qed.
Print Assumptions C49_onto.

Example C49_met : to_simplex_row [0; 0]%R = [/ 3; / 3; / 3]%R /\ on_simplex 3 [/ 2; / 4; / 4]%R.
Proof.
  split; [pose proof (C49_uniform 2) as E; simpl in E; replace (1 + 1 + 1)%R with 3%R in E by lra; exact E|].
  split; [reflexivity|]. split; [repeat constructor; lra|simpl; lra].
Qed.

(** ** C50: rbf *)

Theorem C50_entries : forall D X X2 l variance, (forall x, In x X -> length x = D) ->
  let Y := match X2 with None => X | Some Y => Y end in
  (forall y, In y Y -> length y = D) -> fits l D -> lengthscale_positive l = true -> (0 < variance)%R ->
  exists K, rbf X X2 l variance = Some K /\ length K = length X /\ (forall r, In r K -> length r = length Y) /\
  forall i j, i < length X -> j < length Y -> entry K i j = kernel l variance (nth i X []) (nth j Y []).
Proof. exact rbf_entries. Qed.
Print Assumptions C50_entries.

Theorem C50_raises : forall X X2 l variance, lengthscale_positive l = false \/ (variance <= 0)%R -> rbf X X2 l variance = None.
Proof. exact rbf_raises. Qed.
Print Assumptions C50_raises.

(** Symmetry, the diagonal, the range. *)
Theorem C50_kernel : forall l variance x y, (0 < variance)%R -> lengthscale_positive l = true -> length x = length y -> fits l (length x) ->
  kernel l variance x y = kernel l variance y x /\ kernel l variance x x = variance /\ (0 < kernel l variance x y <= variance)%R /\
  (kernel l variance x y = variance <-> x = y).
Proof. exact kernel_facts. Qed.
Print Assumptions C50_kernel.

(** The kernel matrix of any points is positive semidefinite. *)
Theorem C50_semidefinite : forall D X l variance K c, (forall x, In x X -> length x = D) -> fits l D -> (0 < variance)%R -> lengthscale_positive l = true ->
  rbf X None l variance = Some K -> (0 <= quadratic K c (length X))%R.
Proof. exact rbf_psd. Qed.
Print Assumptions C50_semidefinite.

Example C50_met : lengthscale_positive (PerFeature [1; 2]%R) = true /\ fits (PerFeature [1; 2]%R) 2 /\
  (forall x, In x [[0; 1]; [2; 3]; [2; 3]]%R -> length x = 2).
Proof.
  split; [cbn; unfold positive; destruct (Rlt_dec 0 1); [|lra]; destruct (Rlt_dec 0 2); [reflexivity|lra]|]. split; [reflexivity|].
  intros x [<-|[<-|[<-|[]]]]; reflexivity.
Qed.

(** ** C51: control variates *)

(** False of the code: with the documented estimator m + c (t - tau), the returned c
    gives a larger variance than using no control variate at all. *)
Theorem C51_documented_refuted : forall f h, length f = length h -> (exists a b, In a h /\ In b h /\ a <> b) -> control_variate_coef f h <> 0%R -> forall tau,
  (sample_variance (map fst (combine f h)) < sample_variance (map (fun p => fst p + control_variate_coef f h * (snd p - tau)) (combine f h)))%R.
Proof. exact coef_documented. Qed.
Print Assumptions C51_documented_refuted.

(** It is the only optimal coefficient of m - c (t - tau).  Missing: the sign. *)
Theorem C51_optimal_partial : forall f h, length f = length h -> (exists a b, In a h /\ In b h /\ a <> b) -> forall tau c,
  (sample_variance (map (fun p => fst p - control_variate_coef f h * (snd p - tau)) (combine f h)) <=
   sample_variance (map (fun p => fst p - c * (snd p - tau)) (combine f h)))%R /\
  (sample_variance (map (fun p => fst p - c * (snd p - tau))%R (combine f h)) =
   sample_variance (map (fun p => fst p - control_variate_coef f h * (snd p - tau))%R (combine f h)) -> c = control_variate_coef f h).
Proof. exact coef_optimal. Qed.
Print Assumptions C51_optimal_partial.

Example C51_met : (control_variate_coef [1; 3] [0; 1] = 2)%R.
Proof. unfold control_variate_coef, reduce_mean. simpl. field. Qed.

(** ** C52: compute_multinomial_mode *)

(** False of the code: not a mode. *)
Theorem C52_mode_refuted : forall choice fuel, 2 <= fuel -> exists mode caller,
  multinomial_mode choice fuel [7 / 10; 3 / 10]%R 2 = Returned mode caller /\ ~ is_mode 2 [7 / 10; 3 / 10]%R mode.
Proof. exact wrong_mode. Qed.
Print Assumptions C52_mode_refuted.

(** False of the code: it never ends for equal probabilities of more classes than trials. *)
Theorem C52_terminates_refuted : forall choice n K fuel, 1 < n < K -> multinomial_mode choice fuel (repeat (1 / INR K)%R K) n = OutOfFuel.
Proof. exact mode_diverges. Qed.
Print Assumptions C52_terminates_refuted.

(** False of the code: the caller's probabilities are overwritten. *)
Theorem C52_unchanged_refuted : forall choice fuel, 2 <= fuel -> multinomial_mode choice fuel [1 / 2; 1 / 2]%R 2 = Returned [1; 1] [0; 0]%R.
Proof. exact mode_corrupts. Qed.
Print Assumptions C52_unchanged_refuted.

(** Whatever is returned sums to the number of trials. *)
Theorem C52_total_partial : forall choice, valid_choice choice -> forall fuel probs n mode caller, probs <> [] ->
  multinomial_mode choice fuel probs n = Returned mode caller -> length mode = length probs /\ total mode = n.
Proof. exact mode_total. Qed.
Print Assumptions C52_total_partial.

(** One trial: a mode, and the probabilities stay. *)
Theorem C52_one_partial : forall choice fuel probs, probs <> [] ->
  exists mode, multinomial_mode choice fuel probs 1 = Returned mode probs /\ is_mode 1 probs mode.
Proof. exact mode_one. Qed.
Print Assumptions C52_one_partial.

(** Expected counts that are whole numbers: they are returned and are a mode.
    Missing: every other probability vector. *)
Theorem C52_whole_partial : forall choice fuel counts n, 1 < n <= fuel -> total counts = n ->
  multinomial_mode choice fuel (map (fun c => INR c / INR n)%R counts) n = Returned counts (repeat 0%R (length counts)) /\
  is_mode n (map (fun c => INR c / INR n)%R counts) counts.
Proof. exact mode_exact. Qed.
Print Assumptions C52_whole_partial.

Example C52_met : valid_choice (fun _ hot k => firstn k hot) /\ 1 < 5 <= 9 /\ total [2; 0; 3] = 5.
Proof.
  split; [|split; [lia|reflexivity]]. intros round hot k Hk ND. split; [apply firstn_length_le; auto|]. split.
  - rewrite <- (firstn_skipn k hot) in ND. clear - ND. induction (firstn k hot) as [|a l IH]; [constructor|]. cbn [app] in ND. inversion ND as [|? ? Na ND']; subst. constructor; auto.
    intros H. apply Na, in_or_app. auto.
  - intros x Hx. rewrite <- (firstn_skipn k hot). apply in_or_app. auto.
Qed.

(** ** C60: dot *)

Theorem C60_vector_matrix : forall vec mat width, length vec = length mat ->
  exists out, dot_vec_mat vec mat width = Some out /\ length out = width /\
  forall j, j < width -> nth j out 0%R = sumR (map (fun i => (nth i vec 0 * entry mat i j)%R) (seq 0 (length mat))).
Proof. exact dot_vec. Qed.
Print Assumptions C60_vector_matrix.

(** False of the code: a matrix with M rows and a vector of M entries, the documented
    arguments, raise unless the matrix is square. *)
Theorem C60_documented_refuted : exists mat width vec, (forall r, In r mat -> length r = width) /\ length vec = length mat /\ dot_mat_vec mat width vec = None.
Proof. exact dot_documented. Qed.
Print Assumptions C60_documented_refuted.

(** A matrix times a vector with an entry for each column.  Missing: the documented shapes. *)
Theorem C60_matrix_vector_partial : forall mat width vec, (forall r, In r mat -> length r = width) ->
  (length vec = width -> exists out, dot_mat_vec mat width vec = Some out /\ length out = length mat /\
    forall i, i < length mat -> nth i out 0%R = sumR (map (fun j => (entry mat i j * nth j vec 0)%R) (seq 0 width))) /\
  (length vec <> width -> dot_mat_vec mat width vec = None).
Proof. exact dot_mat. Qed.
Print Assumptions C60_matrix_vector_partial.

Example C60_met : dot_vec_mat [1; 2]%R [[1; 0; 3]; [0; 1; 5]]%R 3 = Some [1 * 1 + (2 * 0 + 0); 1 * 0 + (2 * 1 + 0); 1 * 3 + (2 * 5 + 0)]%R.
Proof. reflexivity. Qed.
