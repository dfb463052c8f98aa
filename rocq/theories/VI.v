(** * Variational inference: losses and gradients.

    Models edward/inferences/klqp.py:86-164 and 642-1152, klpq.py:85-184,
    wake_sleep.py:61-155 and map.py:115-153.

    Trainable variables are scalars identified by numbers and [params] gives their
    values.  Random variables are numbers.  Arithmetic is on real numbers; the
    summaries written when logging are left out. *)
From Coquelicot Require Import Coquelicot.
From Coq Require Import Reals List Arith Bool.
From Verif Require Import Graph Feed Transform.
Import ListNotations.
Local Open Scope R_scope.

(** Values of the trainable variables (klqp.py:702). *)
Definition params : Type := nat -> R.

(** [v] set to [x]; used to state what tf.gradients differentiates (klqp.py:702). *)
Definition set_param (th : params) (v : nat) (x : R) : params := fun w => if Nat.eqb w v then x else th w.

(** tf.gradients(f, v) at [th] (for instance klqp.py:702). *)
Definition gradient (f : params -> R) (th : params) (v : nat) : R := Derive (fun x => f (set_param th v x)) (th v).

(** tf.reduce_mean of a stack (klqp.py:688). *)
Definition reduce_mean (l : list R) : R := sumR l / INR (length l).

(** tf.reduce_sum(c * l) (klqp.py:674-675). *)
Definition weighted (c : R) (l : list R) : R := sumR (map (Rmult c) l).

(** d.get(k, 1.0) (klqp.py:675 for scale, 752 for kl_scaling); scalars only. *)
Definition get_or_1 (d : list (nat * R)) (k : nat) : R := match Feed.dict_get d k with Some c => c | None => 1 end.

Section VI.
Context {V : Type}.
Notation dict := (list (nat * V)).

(** What one value of the index s stands for: the values of the copies of the
    approximations in the scope, those of observed random variables (copies of qx
    or what they are bound to), and those of the copies of the latent variables
    in the scope p_sample (wake_sleep.py:121-126). *)
Record sample : Type := mksample { s_q : nat -> V; s_data : dict; s_prior : nat -> V }.

(** The entries of copy(z, d).log_prob(v). *)
Variable log_prob : params -> nat -> dict -> V -> list R.
(** The entries of copy(qz).log_prob(v), by the values of the random variables
    that qz depends on. *)
Variable q_log_prob : params -> nat -> (nat -> V) -> V -> list R.
(** latent_vars: pairs (z, qz), in the dictionary's order. *)
Variable latent : list (nat * nat).
(** The argument scale (inference.py:215-220). *)
Variable scale : list (nat * R).
(** tf.losses.get_regularization_losses(). *)
Variable reg : params -> list R.

(** A draw as a function of the variables: it depends on them where the
    approximation is reparameterizable. *)
Notation draws := (list (params -> sample)).

(** dict_swap after the loops over data and latent_vars (klqp.py:661-673). *)
Definition dict_swap (d : sample) : dict :=
  fold_left (fun acc zq => dict_set acc (fst zq) (s_q d (snd zq))) latent (s_data d).

(** q_log_prob[s] (klqp.py:670-675; 863-869 with the value at [stopped]). *)
Definition q_total (th : params) (stopped d : sample) : R :=
  fold_left (fun acc zq => acc + weighted (get_or_1 scale (fst zq))
    (q_log_prob th (snd zq) (s_q d) (s_q stopped (snd zq)))) latent 0.

(** The term of [k] in p_log_prob[s] (klqp.py:678-680 and 684-686); [k] is always
    a key. *)
Definition p_term (th : params) (d : dict) (k : nat) : R :=
  match Feed.dict_get d k with Some v => weighted (get_or_1 scale k) (log_prob th k d v) | None => 0 end.

(** The loops over latent_vars (klqp.py:677-680) and data (682-686). *)
Definition p_latents (th : params) (d : dict) (acc : R) : R :=
  fold_left (fun acc zq => acc + p_term th d (fst zq)) latent acc.
(** klqp.py:682-686. *)
Definition p_data (th : params) (d : dict) (data : dict) (acc : R) : R :=
  fold_left (fun acc xv => acc + p_term th d (fst xv)) data acc.

(** p_log_prob[s] (klqp.py:677-686). *)
Definition p_total (th : params) (d : sample) : R := p_data th (dict_swap d) (s_data d) (p_latents th (dict_swap d) 0).

(** p_log_lik[s] (klqp.py:743-747). *)
Definition p_lik (th : params) (d : sample) : R := p_data th (dict_swap d) (s_data d) 0.

(** reg_penalty (klqp.py:690). *)
Definition reg_penalty (th : params) : R := sumR (reg th).

(** The loss of build_reparam_loss_and_gradients (klqp.py:688-700). *)
Definition reparam_loss (ds : draws) (th : params) : R :=
  - (reduce_mean (map (fun d => p_total th (d th)) ds) -
     reduce_mean (map (fun d => q_total th (d th) (d th)) ds) - reg_penalty th).

(** kl_divergence(qz, z), by the values of the random variables themselves (not
    of copies) in the session run; and the argument kl_scaling. *)
Variable kl : params -> nat -> nat -> (nat -> V) -> list R.
Variable kl_scaling : list (nat * R).

(** kl_penalty (klqp.py:751-753). *)
Definition kl_penalty (own : nat -> V) (th : params) : R :=
  sumR (map (fun zq => weighted (get_or_1 kl_scaling (fst zq)) (kl th (fst zq) (snd zq) own)) latent).

(** The loss of build_reparam_kl_loss_and_gradients (klqp.py:749-765). *)
Definition reparam_kl_loss (own : nat -> V) (ds : draws) (th : params) : R :=
  - (reduce_mean (map (fun d => p_lik th (d th)) ds) - kl_penalty own th - reg_penalty th).

(** qz.entropy(), likewise. *)
Variable entropy : params -> nat -> (nat -> V) -> list R.

(** q_entropy (klqp.py:819-821). *)
Definition q_entropy (own : nat -> V) (th : params) : R := sumR (map (fun zq => sumR (entropy th (snd zq) own)) latent).

(** The loss of build_reparam_entropy_loss_and_gradients (klqp.py:817-833). *)
Definition reparam_entropy_loss (own : nat -> V) (ds : draws) (th : params) : R :=
  - (reduce_mean (map (fun d => p_total th (d th)) ds) + q_entropy own th - reg_penalty th).

(** Score function estimators.  The function given to tf.gradients takes the
    values at which stop_gradient freezes what is below it ([th0]) and those that
    are differentiated ([th]). *)

(** build_score_loss_and_gradients (klqp.py:882-902). *)
Definition score_loss (ds : draws) (th : params) : R :=
  - (reduce_mean (map (fun d => p_total th (d th) - q_total th (d th) (d th)) ds) - reg_penalty th).
(** What is differentiated for q_vars (klqp.py:888-902). *)
Definition score_objective (ds : draws) (th0 th : params) : R :=
  - (reduce_mean (map (fun d => q_total th (d th0) (d th) *
       (p_total th0 (d th0) - q_total th0 (d th0) (d th0))) ds) - reg_penalty th).

(** build_score_kl_loss_and_gradients (klqp.py:948-973). *)
Definition score_kl_loss (own : nat -> V) (ds : draws) (th : params) : R :=
  - (reduce_mean (map (fun d => p_lik th (d th)) ds) - kl_penalty own th - reg_penalty th).
(** klqp.py:957-973. *)
Definition score_kl_objective (own : nat -> V) (ds : draws) (th0 th : params) : R :=
  - (reduce_mean (map (fun d => q_total th (d th0) (d th) * p_lik th0 (d th0)) ds) -
     kl_penalty own th - reg_penalty th).

(** build_score_entropy_loss_and_gradients (klqp.py:1024-1051). *)
Definition score_entropy_loss (own : nat -> V) (ds : draws) (th : params) : R :=
  - (reduce_mean (map (fun d => p_total th (d th)) ds) + q_entropy own th - reg_penalty th).
(** klqp.py:1034-1051. *)
Definition score_entropy_objective (own : nat -> V) (ds : draws) (th0 th : params) : R :=
  - (reduce_mean (map (fun d => q_total th (d th0) (d th) * p_total th0 (d th0)) ds) +
     q_entropy own th - reg_penalty th).

(** q_vars, p_vars and the pairs (klqp.py:897-905; the same at 967-976, 1045-1054,
    klpq.py:175-183 and wake_sleep.py:148-154); [is_q v] is
    len(get_descendants(v, q_rvs)) != 0. *)
Definition split_pairs (is_q : nat -> bool) (q_grad p_grad : nat -> R) (var_list : list nat) : list (R * nat) :=
  let q_vars := filter is_q var_list in
  let p_vars := filter (fun v => negb (memb v q_vars)) var_list in
  combine (map q_grad q_vars) q_vars ++ combine (map p_grad p_vars) p_vars.

(** The pairs of the other builders (klqp.py:702-703). *)
Definition plain_pairs (grad : nat -> R) (var_list : list nat) : list (R * nat) := combine (map grad var_list) var_list.

(** *** build_score_rb_loss_and_gradients (klqp.py:1058-1152) *)

(** A tensor by the values at which stop_gradient freezes and those that are
    differentiated; and the memory that holds dictionaries of tensors (klqp.py:1068-1101). *)
Definition cell : Type := list (nat * (params -> params -> R)).
(** klqp.py:1068-1069. *)
Definition memory : Type := list cell.

(** [{}] * n: one dictionary, n references to it (klqp.py:1068-1069). *)
Definition alloc (n : nat) : memory * list nat := ([[]], repeat 0%nat n).

(** memory[r][k] = x (klqp.py:1088 and 1094). *)
Fixpoint store (m : memory) (r : nat) (k : nat) (x : params -> params -> R) : memory :=
  match m, r with
  | [], _ => []
  | c :: m', O => dict_set c k x :: m'
  | c :: m', S r' => c :: store m' r' k x
  end.

(** q_log_probs[s][qz] for all qz (klqp.py:1084-1090). *)
Definition rb_q (d : params -> sample) (r : nat) (m : memory) : memory :=
  fold_left (fun m zq => store m r (snd zq) (fun th0 th =>
    weighted (get_or_1 scale (fst zq)) (q_log_prob th (snd zq) (s_q (d th)) (s_q (d th0) (snd zq))))) latent m.

(** p_log_probs[s][z] for all z and x (klqp.py:1092-1101). *)
Definition rb_p (data : list nat) (d : params -> sample) (r : nat) (m : memory) : memory :=
  fold_left (fun m k => store m r k (fun th0 th => p_term th (dict_swap (d th)) k)) (map fst latent ++ data) m.

(** The loop of lines 1071-1101 for one of the two lists. *)
Definition rb_fill (f : (params -> sample) -> nat -> memory -> memory) (ds : draws) : memory * list nat :=
  let '(m, refs) := alloc (length ds) in
  (fold_left (fun m rd => f (snd rd) (fst rd) m) (combine refs ds) m, refs).

(** tf.reduce_sum(list(six.itervalues(p_log_probs[s]))) (klqp.py:1142). *)
Definition rb_sum (c : cell) (th0 th : params) : R := sumR (map (fun kx => snd kx th0 th) c).

(** Lines 1142-1146; [data] are the observed random variables. *)
Definition rb_loss (data : list nat) (ds : draws) (th : params) : R :=
  let '(mp, rp) := rb_fill (rb_p data) ds in
  let '(mq, rq) := rb_fill rb_q ds in
  - (reduce_mean (map (fun r => rb_sum (nth r mp []) th th) rp) -
     reduce_mean (map (fun r => rb_sum (nth r mq []) th th) rq) - reg_penalty th).

(** tf.reduce_sum([log_probs[s][rv] for rv in rvs]) (klqp.py:1128-1129). *)
Definition rb_part (c : cell) (rvs : list nat) (th0 th : params) : R :=
  sumR (map (fun rv => match Feed.dict_get c rv with Some x => x th0 th | None => 0 end) rvs).

(** What is differentiated for one variable (klqp.py:1125-1137), given var_p_rvs
    and var_q_rvs. *)
Definition rb_objective (data : list nat) (ds : draws) (var_p_rvs var_q_rvs : list nat) (th0 th : params) : R :=
  let '(mp, rp) := rb_fill (rb_p data) ds in
  let '(mq, rq) := rb_fill rb_q ds in
  - reduce_mean (map (fun rr => rb_part (nth (snd rr) mq []) var_q_rvs th0 th *
      (rb_part (nth (fst rr) mp []) var_p_rvs th0 th0 - rb_part (nth (snd rr) mq []) var_q_rvs th0 th0)) (combine rp rq)) +
  reg_penalty th.

(** reverse_latent_vars (klqp.py:1107). *)
Definition reverse_latent_vars : list (nat * nat) := fold_left (fun acc zq => dict_set acc (snd zq) (fst zq)) latent [].

(** A union of f(d) + [d] over the descendants (klqp.py:1116-1123); [None]: fuel
    ran out or KeyError. *)
Fixpoint blankets (f : nat -> option (list nat)) (ds : list nat) (acc : list nat) : option (list nat) :=
  match ds with
  | [] => Some acc
  | d :: ds' => match f d with Some l => blankets f ds' (add_nats acc l) | None => None end
  end.

(** The loop over var_list (klqp.py:1110-1139) with the graph [g]; [tensor_of_var]
    is tf.convert_to_tensor of a variable. *)
Variable g : graph.
Variable tensor_of_var : nat -> nat.
Variable pick : nat -> nat.
Variable fuel : nat.

(** get_descendants(tf.convert_to_tensor(v), q_rvs) (klqp.py:1112). *)
Definition q_descendants (v : nat) : option (list nat) := get_descendants g (map snd latent) pick fuel (NT (tensor_of_var v)).

(** len(get_descendants(v, q_rvs)) != 0 (klqp.py:899). *)
Definition is_q_var (v : nat) : bool := match q_descendants v with Some (_ :: _) => true | _ => false end.

(** var_p_rvs and var_q_rvs (klqp.py:1111-1123). *)
Definition rb_sets (data : list nat) (v : nat) : option (list nat * list nat) :=
  match q_descendants v with
  | None => None
  | Some ds =>
      let p_rvs := map fst latent ++ data in
      match blankets (fun qz => match Feed.dict_get reverse_latent_vars qz with
              | None => None
              | Some z => match get_blanket g p_rvs pick fuel (NRV z) with Some l => Some (l ++ [z]) | None => None end end) ds [],
            blankets (fun qz => match get_blanket g (map snd latent) pick fuel (NRV qz) with
              | Some l => Some (l ++ [qz]) | None => None end) ds [] with
      | Some var_p_rvs, Some var_q_rvs => Some (var_p_rvs, var_q_rvs)
      | _, _ => None
      end
  end.

(** klqp.py:1125-1137. *)
Definition rb_gradient (data : list nat) (ds : draws) (th : params) (v : nat) : R :=
  match rb_sets data v with
  | Some (var_p_rvs, var_q_rvs) => gradient (rb_objective data ds var_p_rvs var_q_rvs th) th v
  | None => 0
  end.

(** The pairs (klqp.py:1108-1151). *)
Definition rb_pairs (data : list nat) (ds : draws) (th : params) (var_list : list nat) : list (R * nat) :=
  let grads_vars := filter is_q_var var_list in
  let model_vars := filter (fun v => negb (memb v grads_vars)) var_list in
  combine (map (rb_gradient data ds th) grads_vars ++ map (gradient (rb_loss data ds) th) model_vars)
    (grads_vars ++ model_vars).

(** *** KLqp.build_loss_and_gradients (klqp.py:139-164) *)
Inductive klqp_choice : Type := ReparamKL | Reparam | ScoreRB.

(** [None] is TypeError (klqp.py:139-164). *)
Definition klqp_build (is_normal fully_reparameterized : nat -> bool) : option klqp_choice :=
  let is_reparameterizable := forallb (fun zq => fully_reparameterized (snd zq)) latent in
  let is_analytic_kl := forallb (fun zq => is_normal (fst zq) && is_normal (snd zq)) latent in
  if negb is_analytic_kl && match kl_scaling with [] => false | _ => true end then None
  else if is_reparameterizable then (if is_analytic_kl then Some ReparamKL else Some Reparam)
  else Some ScoreRB.

(** n_samples of the KLqp classes and KLpq (klqp.py:107-109, klpq.py:96-98): [None]
    is ValueError. *)
Definition check_n_samples (n : Z) : option nat := if (n <=? 0)%Z then None else Some (Z.to_nat n).

(** *** KLpq (klpq.py:126-184) *)

(** q_log_prob[s] and p_log_prob[s] (klpq.py:142-156): without scale. *)
Definition pq_q (th : params) (stopped d : sample) : R :=
  fold_left (fun acc zq => acc + sumR (q_log_prob th (snd zq) (s_q d) (s_q stopped (snd zq)))) latent 0.
(** klpq.py:150, 155. *)
Definition pq_term (th : params) (d : dict) (k : nat) : R :=
  match Feed.dict_get d k with Some v => sumR (log_prob th k d v) | None => 0 end.
(** klpq.py:148-156. *)
Definition pq_p (th : params) (d : sample) : R :=
  fold_left (fun acc xv => acc + pq_term th (dict_swap d) (fst xv)) (s_data d)
    (fold_left (fun acc zq => acc + pq_term th (dict_swap d) (fst zq)) latent 0).

(** tf.reduce_logsumexp (klpq.py:171). *)
Definition logsumexp (l : list R) : R := ln (sumR (map exp l)).

(** w_norm (klpq.py:171-172). *)
Definition w_norm (log_w : list R) : list R := map (fun w => exp (w - logsumexp log_w)) log_w.

(** tf.reduce_sum(a * b) (klpq.py:173). *)
Definition dot (a b : list R) : R := sumR (map (fun ab => fst ab * snd ab) (combine a b)).

(** log_w (klpq.py:170). *)
Definition pq_log_w (ds : draws) (th : params) : list R := map (fun d => pq_p th (d th) - pq_q th (d th) (d th)) ds.

(** klpq.py:173. *)
Definition pq_loss (ds : draws) (th : params) : R := dot (w_norm (pq_log_w ds th)) (pq_log_w ds th) - reg_penalty th.

(** What is differentiated for q_vars (klpq.py:178-180) and p_vars (182). *)
Definition pq_objective (ds : draws) (th0 th : params) : R :=
  - (dot (map (fun d => pq_q th (d th0) (d th)) ds) (w_norm (pq_log_w ds th0)) - reg_penalty th).
(** klpq.py:182. *)
Definition pq_model_objective (ds : draws) (th : params) : R := - pq_loss ds th.

(** *** WakeSleep (wake_sleep.py:80-155) *)

(** p_dict_swap (lines 122-126). *)
Definition p_dict_swap (d : sample) : dict :=
  fold_left (fun acc zq => dict_set acc (snd zq) (s_prior d (fst zq))) latent (s_data d).

(** The variable z when the loop of lines 123-126 has ended. *)
Definition last_latent : nat := fst (last latent (0%nat, 0%nat)).

(** q_log_prob[s] in the sleep phase (lines 127-131). *)
Definition sleep_q (th : params) (stopped d : sample) : R :=
  fold_left (fun acc zq => acc +
    match Feed.dict_get (p_dict_swap d) (snd zq), Feed.dict_get (p_dict_swap stopped) (snd zq) with
    | Some _, Some v => weighted (get_or_1 scale last_latent) (q_log_prob th (snd zq)
        (fun k => match Feed.dict_get (p_dict_swap d) k with Some u => u | None => s_q d k end) v)
    | _, _ => 0
    end) latent 0.

(** loss_p and loss_q (lines 133-146); [sleep] is phase_q == 'sleep'. *)
Definition wake_loss_p (ds : draws) (th : params) : R := - reduce_mean (map (fun d => p_total th (d th)) ds) + reg_penalty th.
(** wake_sleep.py:139-146. *)
Definition wake_loss_q (sleep : bool) (ds : draws) (th0 th : params) : R :=
  - reduce_mean (map (fun d => if sleep then sleep_q th (d th0) (d th) else q_total th (d th0) (d th)) ds) + reg_penalty th.

(** *** MAP (map.py:121-149): [d] holds the values of the point masses. *)
Definition map_loss (d : params -> sample) (th : params) : R :=
  let swap := dict_update (map (fun zq => (fst zq, s_q (d th) (snd zq))) latent) (s_data (d th)) in
  - p_data th swap (s_data (d th)) (p_latents th swap 0) + reg_penalty th.

(** *** The default var_list (variational_inference.py:53-66): [data] tells for each
    key whether it is a random variable and whether its value is one. *)
Definition default_var_list (trainables : list nat) (data : list (nat * (bool * bool))) : option (list nat) :=
  let variables := fun x => get_variables g trainables pick fuel (NRV x) in
  match blankets variables (flat_map (fun zq => [fst zq; snd zq]) latent) [] with
  | None => None
  | Some acc => blankets variables (map fst (filter (fun xk => fst (snd xk) && negb (snd (snd xk))) data)) acc
  end.
End VI.
Arguments sample : clear implicits.
