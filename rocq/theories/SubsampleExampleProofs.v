(** * The examples of C83. *)
From Coquelicot Require Import Coquelicot.
From Coq Require Import Reals List Arith Bool Lra Lia Permutation.
From Verif Require Import Ext Feed Transform HMC SGLD VI VISpec VIProofs.
From Verif Require Import SubsampleSpec SubsampleProofs.
Import ListNotations.
Local Open Scope R_scope.
Set Bullet Behavior "Strict Subproofs".

(** ** A hierarchical model: variable 0 is shared, 1 has a value for each datum,
    2 is observed.  An example for C83 (docs inference-data-subsampling.tex); it
    models no further code than klqp.py:642-700. *)

(** The value of variable [k]; no code, see klqp.py:642-700. *)
Definition h_get (e : list (nat * list R)) (k : nat) : list R := match Feed.dict_get e k with Some v => v | None => [] end.
(** Normal log densities up to constants; no code, see klqp.py:642-700. *)
Definition h_log_prob (th : params) (k : nat) (e : list (nat * list R)) (v : list R) : list R :=
  match k with
  | 0%nat => map (fun u => - (u * u) / 2) v
  | 1%nat => map (fun u => - ((u - nth 0 (h_get e 0) 0) * (u - nth 0 (h_get e 0) 0)) / 2) v
  | _ => map (fun p => - ((fst p - snd p) * (fst p - snd p)) / 2) (combine v (h_get e 1))
  end.
(** No code, see klqp.py:642-700. *)
Definition h_q_log_prob (th : params) (q : nat) (e : nat -> list R) (v : list R) : list R :=
  map (fun u => - ((u - th q) * (u - th q)) / 2) v.
(** No code, see klqp.py:642-700. *)
Definition h_latent : list (nat * nat) := [(0%nat, 0%nat); (1%nat, 1%nat)].
(** No code, see klqp.py:642-700. *)
Definition h_local (k : nat) : bool := match k with 0%nat => false | 1%nat | 2%nat => true | _ => false end.
(** Noise; no code, see klqp.py:642-700. *)
Definition h_noise (i : nat) : R := INR i / 2 - 1.
(** Data; no code, see klqp.py:642-700. *)
Definition h_data (i : nat) : R := 3 - INR i.
(** A reparameterized draw; no code, see klqp.py:661-673. *)
Definition h_draw (b : list nat) (th : params) : sample (list R) :=
  mksample (fun q => match q with 0%nat => [th 0%nat + 1] | _ => map (fun i => th 1%nat + h_noise i) b end) [(2%nat, map h_data b)] (fun _ => []).
(** No code, see inference.py:215-220. *)
Definition h_scale : list (nat * R) := [(1%nat, 2); (2%nat, 2)].
(** Batches of 2 of 4 data; no code, see docs/tex/api/inference-data-subsampling.tex. *)
Definition h_batches : list (list nat) := [[0%nat; 3%nat]; [1%nat; 2%nat]].
(** KL divergences of normals with unit variance; no code, see klqp.py:751-753. *)
Definition h_kl (th : params) (z q : nat) (own : nat -> list R) : list R := map (fun _ => th q * th q / 2 + 1) (own q).
(** No code, see klqp.py:702. *)
Definition h_zero : params := fun _ => 0.

(** The term of one datum; no code, see klqp.py:677-686. *)
Definition h_each (th : params) (k i : nat) : R :=
  match k with
  | 1%nat => - ((th 1%nat + h_noise i - (th 0%nat + 1)) * (th 1%nat + h_noise i - (th 0%nat + 1))) / 2
  | _ => - ((h_data i - (th 1%nat + h_noise i)) * (h_data i - (th 1%nat + h_noise i))) / 2
  end.

Lemma h_scaled : plate_scale h_local 4 2 h_scale.
Proof. intros [|[|[|k]]]; unfold factor, h_scale, h_local; cbn -[INR]; try reflexivity; cbn; lra. Qed.

Lemma h_fair : fair 4 2 (epoch h_batches).
Proof.
  apply epoch_fair.
  - unfold h_batches, whole. cbn. apply perm_skip. apply (Permutation_cons_append [1%nat; 2%nat] 3%nat).
  - intros b [<-|[<-|[]]]; reflexivity.
  - discriminate.
Qed.

Lemma h_posed : forall b th, posed h_latent (h_draw b th).
Proof.
  intros b th. split; [|split].
  - repeat constructor; cbn; intuition discriminate.
  - repeat constructor; cbn; intuition discriminate.
  - cbn. intros k H H'. intuition (subst; discriminate).
Qed.

Lemma h_subgraph : forall th, subgraph h_log_prob h_latent h_local 4 th (fun b => h_draw b th) (h_each th) (fun _ => - ((th 0%nat + 1) * (th 0%nat + 1)) / 2).
Proof.
  intros th. split.
  - intros b _. apply h_posed.
  - reflexivity.
  - intros b k v _ [E|[E|[E|[]]]]; inversion E; subst; clear E; unfold by_plate; cbn [h_local].
    + cbn [h_log_prob]. unfold h_get. cbn [bindings h_draw s_data s_q latent_values h_latent map fst snd app Feed.dict_get Nat.eqb].
      induction b as [|i b IH]; [reflexivity|]. cbn [map combine].
      change (sumR (?x :: ?l)) with (x + sumR l). f_equal. exact IH.
    + cbn. lra.
    + cbn [h_log_prob]. rewrite !map_map. reflexivity.
Qed.

Lemma h_q_subgraph : forall th, q_subgraph h_q_log_prob h_latent h_local 4 th (fun b => h_draw b th)
  (fun _ i => - ((th 1%nat + h_noise i - th 1%nat) * (th 1%nat + h_noise i - th 1%nat)) / 2) (fun _ => - (1 * 1) / 2).
Proof.
  intros th b z q _ [E|[E|[]]]; inversion E; subst; unfold by_plate; cbn [h_local].
  - cbn. lra.
  - unfold h_q_log_prob. cbn [h_draw s_q]. rewrite !map_map. reflexivity.
Qed.

Lemma h_loss : forall i j th, reparam_loss h_log_prob h_q_log_prob h_latent h_scale (fun _ => []) [h_draw [i; j]] th =
  - ((- ((th 0%nat + 1) * (th 0%nat + 1)) / 2 + 2 * (h_each th 1 i + h_each th 1 j) + 2 * (h_each th 2 i + h_each th 2 j)) -
     (- (1 * 1) / 2 + 2 * (- (h_noise i * h_noise i) / 2 - h_noise j * h_noise j / 2))).
Proof.
  intros i j th. rewrite reparam_spec.
  - unfold average, log_joint, log_q, scaled_sum. cbn -[h_noise h_data h_each]. unfold h_get. cbn -[h_noise h_data]. field.
  - intros d [<-|[]]. apply h_posed.
Qed.

Lemma h_smooth : forall w b, In (w, b) (epoch h_batches) ->
  differentiable (reparam_loss h_log_prob h_q_log_prob h_latent h_scale (fun _ => []) (map (fun d => d b) [h_draw])) h_zero 0.
Proof.
  assert (H : forall i j, differentiable (reparam_loss h_log_prob h_q_log_prob h_latent h_scale (fun _ => []) [h_draw [i; j]]) h_zero 0).
  { intros i j. unfold differentiable.
    eapply ex_derive_ext; [intros x; symmetry; apply h_loss|]. unfold h_each, set_param. cbn [Nat.eqb]. auto_derive. auto. }
  intros w b I. apply in_map_iff in I. destruct I as (b' & E & I). inversion E; subst. destruct I as [<-|[<-|[]]]; apply H.
Qed.

Lemma h_kl_subgraph : forall th, kl_subgraph h_kl h_latent h_local 4 th (fun b => s_q (h_draw b th))
  (fun _ _ => th 1%nat * th 1%nat / 2 + 1) (fun _ => th 0%nat * th 0%nat / 2 + 1).
Proof.
  intros th b z q _ [E|[E|[]]]; inversion E; subst; unfold by_plate; cbn [h_local].
  - cbn. lra.
  - unfold h_kl. cbn [h_draw s_q]. rewrite !map_map. reflexivity.
Qed.

(** ** The score function estimator with a latent variable for each datum. *)

(** The probability of a coin; no code, see klqp.py:870-902. *)
Definition p_coin (x : R) (u : bool) : R := if u then x else 1 - x.
(** Log densities of the plate 0 and the observed plate 2; no code, see klqp.py:870-902. *)
Definition s_log_prob (th : params) (k : nat) (e : list (nat * list bool)) (v : list bool) : list R :=
  match k with
  | 0%nat => map (fun _ => 0) v
  | _ => map (fun u : bool => if u then 1 else 0) (match Feed.dict_get e 0 with Some z => z | None => [] end)
  end.
(** No code, see klqp.py:870-902. *)
Definition s_q_log_prob (th : params) (q : nat) (e : nat -> list bool) (v : list bool) : list R := map (fun u => ln (p_coin (th 0%nat) u)) v.
(** The draw that gives datum [i] the value nth [i]; no code, see klqp.py:870-902. *)
Definition s_draw (u : list bool) (b : list nat) : sample (list bool) :=
  mksample (fun _ => map (fun i => nth i u false) b) [(2%nat, map (fun _ => true) b)] (fun _ => []).
(** All draws for two data; no code, see klqp.py:870-902. *)
Definition s_space : list (list bool) := [[true; true]; [true; false]; [false; true]; [false; false]].
(** No code, see klqp.py:702. *)
Definition s_half : params := fun _ => / 2.

Lemma s_subgraph : forall th u, subgraph s_log_prob [(0%nat, 1%nat)] (fun k => Nat.eqb k 0 || Nat.eqb k 2) 2 th (s_draw u)
  (fun k i => if Nat.eqb k 0 then 0 else if nth i u false then 1 else 0) (fun _ => 0).
Proof.
  intros th u. split.
  - intros b _. split; [|split].
    + repeat constructor; cbn; intuition discriminate.
    + repeat constructor; cbn; intuition discriminate.
    + cbn. intros k H H'. intuition (subst; discriminate).
  - reflexivity.
  - intros b k v _ [E|[E|[]]]; inversion E; subst; clear E; unfold by_plate; cbn [Nat.eqb orb].
    + cbn [s_log_prob]. cbn [bindings s_draw s_data s_q latent_values map fst snd app Feed.dict_get Nat.eqb]. rewrite map_map. reflexivity.
    + cbn [s_log_prob]. rewrite map_map. reflexivity.
Qed.

Lemma s_q_subgraph : forall th u, q_subgraph s_q_log_prob [(0%nat, 1%nat)] (fun k => Nat.eqb k 0 || Nat.eqb k 2) 2 th (s_draw u)
  (fun _ i => ln (p_coin (th 0%nat) (nth i u false))) (fun _ => 0).
Proof.
  intros th u b z q _ [E|[]]; inversion E; subst; unfold by_plate; cbn [Nat.eqb orb].
  unfold s_q_log_prob. cbn [s_draw s_q]. rewrite map_map. reflexivity.
Qed.

Lemma s_fair : fair 2 1 (epoch [[0%nat]; [1%nat]]).
Proof.
  apply epoch_fair; [reflexivity| |discriminate]. intros b [<-|[<-|[]]]; reflexivity.
Qed.

Lemma s_scaled : plate_scale (fun k => Nat.eqb k 0 || Nat.eqb k 2) 2 1 [(0%nat, 2); (2%nat, 2)].
Proof. intros [|[|[|k]]]; unfold factor; cbn; lra. Qed.

Lemma s_density : forall x a b, 0 < x < 1 ->
  draw_density s_q_log_prob [(0%nat, 1%nat)] (fun _ => 1) (set_param s_half 0 x) (s_draw [a; b] (whole 2)) = p_coin x a * p_coin x b.
Proof.
  intros x a b H. unfold draw_density, log_q. cbn. unfold set_param. cbn.
  assert (P : forall u, 0 < p_coin x u) by (intros []; cbn; lra).
  replace (1 * (ln (p_coin x a) + (ln (p_coin x b) + 0)) + 0) with (ln (p_coin x a) + ln (p_coin x b)) by ring.
  rewrite exp_plus, !exp_ln by apply P. ring.
Qed.

Lemma s_normal : nearby (fun t => sumR (map (fun u => draw_density s_q_log_prob [(0%nat, 1%nat)] (fun _ => 1) t (s_draw u (whole 2))) s_space) = 1) s_half 0.
Proof.
  unfold nearby. assert (D : 0 < / 4) by lra. exists (mkposreal _ D). intros x Hx.
  assert (B : 0 < x < 1).
  { unfold ball in Hx. cbn in Hx. unfold AbsRing_ball, abs, minus, plus, opp, s_half in Hx. cbn in Hx. apply Rabs_def2 in Hx. lra. }
  cbn [s_space map]. rewrite !s_density by exact B. cbn. ring.
Qed.

Lemma s_at_half : forall a b, draw_density s_q_log_prob [(0%nat, 1%nat)] (fun _ => 1) s_half (s_draw [a; b] (whole 2)) = / 4.
Proof.
  intros a b. change s_half with (fun _ : nat => / 2). pose proof (s_density (/ 2) a b ltac:(lra)) as H.
  transitivity (p_coin (/ 2) a * p_coin (/ 2) b); [|destruct a, b; cbn; lra].
  rewrite <- H. unfold draw_density, log_q. cbn. reflexivity.
Qed.

Lemma s_gradient : forall u i, nth i u false = true \/ nth i u false = false ->
  gradient (score_objective s_log_prob s_q_log_prob [(0%nat, 1%nat)] [(0%nat, 2); (2%nat, 2)] (fun _ => []) (fixed_draws [s_draw u [i]]) s_half) s_half 0 =
  - (2 * (if nth i u false then 2 else -2) * (2 * (if nth i u false then 1 else 0) - 2 * ln (/ 2))).
Proof.
  intros u i _. unfold gradient. apply is_derive_unique.
  apply (is_derive_ext (fun x => - (2 * ln (p_coin x (nth i u false)) * (2 * (if nth i u false then 1 else 0) - 2 * ln (p_coin (/ 2) (nth i u false)))))).
  { intros x. unfold score_objective, reduce_mean, p_total, q_total, p_data, p_latents, p_term, weighted, reg_penalty. cbn.
    unfold set_param, s_half. cbn. destruct (nth i u false); field. }
  destruct (nth i u false); cbn [p_coin]; unfold s_half.
  - auto_derive; [lra|]. field.
  - replace (1 - / 2) with (/ 2) by lra. auto_derive; [lra|]. field.
Qed.

Lemma score_biased : exists (log_prob : params -> nat -> list (nat * list bool) -> list bool -> list R) q_log_prob latent local N M law scale th v
    (space : list (list bool)) (d : list bool -> list nat -> sample (list bool)) each once each' once',
  fair N M law /\ (0 < M < N)%nat /\ plate_scale local N M scale /\
  (forall u t, subgraph log_prob latent local N t (d u) (each u t) (once u t) /\ q_subgraph q_log_prob latent local N t (d u) (each' u t) (once' u t)) /\
  nearby (fun t => sumR (map (fun u => draw_density q_log_prob latent (fun _ => 1) t (d u (whole N))) space) = 1) th v /\
  mean_batch law (fun b => mean_of space (fun u => draw_density q_log_prob latent (fun _ => 1) th (d u (whole N)))
    (fun u => gradient (score_objective log_prob q_log_prob latent scale (fun _ => []) (fixed_draws [d u b]) th) th v)) =
  INR N / INR M * partial (fun t => mean_of space (fun u => draw_density q_log_prob latent (fun _ => 1) t (d u (whole N)))
    (fun u => score_loss log_prob q_log_prob latent [] (fun _ => []) (fixed_draws [d u (whole N)]) t)) th v /\
  partial (fun t => mean_of space (fun u => draw_density q_log_prob latent (fun _ => 1) t (d u (whole N)))
    (fun u => score_loss log_prob q_log_prob latent [] (fun _ => []) (fixed_draws [d u (whole N)]) t)) th v <> 0.
Proof.
  exists s_log_prob, s_q_log_prob, [(0%nat, 1%nat)], (fun k => Nat.eqb k 0 || Nat.eqb k 2), 2%nat, 1%nat,
    (epoch [[0%nat]; [1%nat]]), [(0%nat, 2); (2%nat, 2)], s_half, 0%nat, s_space, s_draw,
    (fun u _ k i => if Nat.eqb k 0 then 0 else if nth i u false then 1 else 0), (fun _ _ _ => 0),
    (fun u th _ i => ln (p_coin (th 0%nat) (nth i u false))), (fun _ _ _ => 0).
  split; [exact s_fair|]. split; [lia|]. split; [exact s_scaled|].
  split; [intros u t; split; [apply s_subgraph|apply s_q_subgraph]|]. split; [exact s_normal|].
  set (rhs := partial _ _ _).
  assert (ER : rhs = -2).
  { unfold rhs, partial. apply is_derive_unique.
    apply (is_derive_ext_loc (fun x => - (2 * x) + 2 * (x * ln x + (1 - x) * ln (1 - x)))).
    - assert (D : 0 < / 4) by lra. exists (mkposreal _ D). intros x Hx.
      assert (B : 0 < x < 1).
      { unfold ball in Hx. cbn in Hx. unfold AbsRing_ball, abs, minus, plus, opp, s_half in Hx. cbn in Hx. apply Rabs_def2 in Hx. lra. }
      unfold mean_of. cbn [s_space map]. rewrite !s_density by exact B.
      unfold score_loss, reduce_mean, p_total, q_total, p_data, p_latents, p_term, weighted, reg_penalty. cbn. unfold set_param. cbn. field.
    - unfold s_half. auto_derive; [lra|]. replace (1 + - / 2) with (/ 2) by lra. field. }
  rewrite ER. split; [|lra]. unfold mean_batch, mean_of, epoch. cbn [map fst snd length s_space].
  rewrite !s_at_half, !s_gradient by (destruct (nth _ _ _); auto). cbn [nth]. cbn. field.
Qed.

(** ** Further examples *)
Lemma h_map_smooth : forall w b, In (w, b) (epoch h_batches) -> differentiable (map_loss h_log_prob h_latent h_scale (fun _ => []) (h_draw b)) h_zero 0.
Proof.
  assert (H : forall i j, differentiable (map_loss h_log_prob h_latent h_scale (fun _ => []) (h_draw [i; j])) h_zero 0).
  { intros i j. unfold differentiable.
    apply (ex_derive_ext (fun x => - (- ((set_param h_zero 0 x 0%nat + 1) * (set_param h_zero 0 x 0%nat + 1)) / 2 +
      2 * (h_each (set_param h_zero 0 x) 1 i + h_each (set_param h_zero 0 x) 1 j) + 2 * (h_each (set_param h_zero 0 x) 2 i + h_each (set_param h_zero 0 x) 2 j)))).
    - intros x. rewrite map_spec; [|apply h_posed|].
      + unfold log_joint, scaled_sum, penalty. cbn -[h_noise h_data h_each set_param h_zero]. unfold h_get. cbn -[h_noise h_data set_param h_zero]. field.
      + intros k a b v E. unfold h_log_prob, h_get. now rewrite !E.
    - unfold h_each, set_param. cbn [Nat.eqb]. auto_derive. auto. }
  intros w b I. apply in_map_iff in I. destruct I as (b' & E & I). inversion E; subst. destruct I as [<-|[<-|[]]]; apply H.
Qed.

Lemma h_local_kl : 0 < local_kl h_latent h_local 4 (fun _ _ => 0 * 0 / 2 + 1).
Proof. unfold local_kl. cbn. lra. Qed.

(** A normal with a shared mean; no code, see sgld.py:89-121. *)
Definition n_log_prob (k : nat) (e : list (nat * tensor)) (v : tensor) : R :=
  match k with
  | 0%nat => sumR (map (fun u => - (u * u) / 2) v)
  | _ => sumR (map (fun u => - ((u - nth 0 (h_get e 0) 0) * (u - nth 0 (h_get e 0) 0)) / 2) v)
  end.

Lemma n_subgraph : data_subgraph n_log_prob [0%nat] (fun k => Nat.eqb k 2) 4 (fun b => [(2%nat, map h_data b)]) (fun _ => [[1]])
  (fun _ i => - ((h_data i - 1) * (h_data i - 1)) / 2) (fun _ => - (1 * 1) / 2).
Proof.
  split.
  - intros b _. repeat split.
    + repeat constructor; cbn; intuition discriminate.
    + repeat constructor; cbn; intuition discriminate.
    + cbn. intros k H H'. intuition (subst; discriminate).
  - reflexivity.
  - intros b k v _ [E|[E|[]]]; inversion E; subst; clear E; unfold by_plate; cbn [Nat.eqb].
    + cbn. lra.
    + cbn [n_log_prob]. rewrite map_map. reflexivity.
Qed.

(** The same for KLqp; no code, see klqp.py:870-902. *)
Definition g_log_prob (th : params) (k : nat) (e : list (nat * list R)) (v : list R) : list R :=
  match k with
  | 0%nat => map (fun u => - (u * u) / 2) v
  | _ => map (fun u => - ((u - nth 0 (h_get e 0) 0) * (u - nth 0 (h_get e 0) 0)) / 2) v
  end.
(** A draw that the variables do not move; no code, see klqp.py:870-902. *)
Definition g_draw (b : list nat) (th : params) : sample (list R) := mksample (fun _ => [1]) [(2%nat, map h_data b)] (fun _ => []).

Lemma g_global : forall zq, In zq [(0%nat, 1%nat)] -> Nat.eqb (fst zq) 2 = false.
Proof. intros zq [<-|[]]. reflexivity. Qed.
Lemma g_same : forall b t, s_q (g_draw b t) = s_q (g_draw (whole 4) t).
Proof. reflexivity. Qed.
Lemma g_subgraph : subgraph g_log_prob [(0%nat, 1%nat)] (fun k => Nat.eqb k 2) 4 h_zero (fun b => g_draw b h_zero)
    (fun _ i => - ((h_data i - 1) * (h_data i - 1)) / 2) (fun _ => - (1 * 1) / 2).
Proof.
  split.
  - intros b _. split; [|split].
    + repeat constructor; cbn; intuition discriminate.
    + repeat constructor; cbn; intuition discriminate.
    + cbn. intros k H H'. intuition (subst; discriminate).
  - reflexivity.
  - intros b k v _ [E|[E|[]]]; inversion E; subst; clear E; unfold by_plate; cbn [Nat.eqb].
    + cbn [g_log_prob]. rewrite map_map. reflexivity.
    + cbn. lra.
Qed.
Lemma g_smooth : forall w b, In (w, b) (epoch h_batches) ->
    differentiable (score_objective g_log_prob h_q_log_prob [(0%nat, 1%nat)] [(2%nat, 2)] (fun _ => []) [g_draw b] h_zero) h_zero 1.
Proof.
  intros w b _. unfold differentiable.
  apply (ex_derive_ext (fun x => - ((- ((1 - x) * (1 - x)) / 2) *
    (p_total g_log_prob [(0%nat, 1%nat)] [(2%nat, 2)] h_zero (g_draw b h_zero) - q_total h_q_log_prob [(0%nat, 1%nat)] [(2%nat, 2)] h_zero (g_draw b h_zero) (g_draw b h_zero))))).
  - intros x. unfold score_objective, reduce_mean, reg_penalty. cbn [map length].
    set (P := p_total _ _ _ _ _). set (Q := q_total _ _ _ h_zero _ _).
    unfold q_total, weighted. cbn. unfold set_param. cbn. field.
  - auto_derive. auto.
Qed.

Lemma kl_refuted : exists (log_prob : params -> nat -> list (nat * list R) -> list R -> list R) latent local N M scale kl law own
    (d : list nat -> params -> sample (list R)) th each once each' once',
  plate_scale local N M scale /\ fair N M law /\ (0 < M < N)%nat /\
  subgraph log_prob latent local N th (fun b => d b th) each once /\ kl_subgraph kl latent local N th own each' once' /\
  mean_batch law (fun b => reparam_kl_loss log_prob latent scale (fun _ => []) kl [] (own b) [d b] th) <>
    reparam_kl_loss log_prob latent [] (fun _ => []) kl [] (own (whole N)) [d (whole N)] th.
Proof.
  exists h_log_prob, h_latent, h_local, 4%nat, 2%nat, h_scale, h_kl, (epoch h_batches), (fun b => s_q (h_draw b h_zero)), h_draw, h_zero,
    (h_each h_zero), (fun _ => - ((h_zero 0%nat + 1) * (h_zero 0%nat + 1)) / 2), (fun _ _ => 0 * 0 / 2 + 1), (fun _ => 0 * 0 / 2 + 1).
  split; [exact h_scaled|]. split; [exact h_fair|]. split; [lia|]. split; [exact (h_subgraph h_zero)|]. split; [exact (h_kl_subgraph h_zero)|].
  apply Rlt_not_eq.
  refine (kl_too_small h_log_prob h_latent (fun _ => []) h_local 4 2 h_scale h_scaled h_kl (epoch h_batches) (fun b => s_q (h_draw b h_zero)) [h_draw] h_zero _ _
    h_fair ltac:(lia) ltac:(lia) _ (h_kl_subgraph h_zero) h_local_kl).
  intros d [<-|[]]. do 2 eexists. exact (h_subgraph h_zero).
Qed.
