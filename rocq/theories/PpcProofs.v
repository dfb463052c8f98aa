From Coq Require Import List Arith ZArith Bool Lia.
From Verif Require Import Checks EvaluateSpec Ppc PpcSpec.
Import ListNotations.

Section Proofs.
Context {V world : Type}.
Variable pl : nat -> tshape * nat.
Variable value : obj V -> world -> V.

Lemma loop_spec : forall (T : discrepancy) (data latent : list (obj V * obj V)) (worlds : nat -> world) n k,
  ppc_loop value T data latent worlds k n =
  (map (fun i => T (xrep value data (worlds (k + 2 * i))) (zrep value latent (worlds (k + 2 * i))) (worlds (k + 2 * i))) (seq 0 n),
   map (fun i => T (xobs value data (worlds (S (k + 2 * i)))) (zrep value latent (worlds (S (k + 2 * i)))) (worlds (S (k + 2 * i)))) (seq 0 n)).
Proof.
  intros T data latent worlds. induction n as [|n IH]; intro k; [reflexivity|].
  cbn [ppc_loop]. rewrite IH. cbn [seq map]. replace (k + 2 * 0) with k by lia. rewrite <- seq_shift, !map_map.
  f_equal; f_equal; apply map_ext; intro i; replace (S (S k) + 2 * i) with (k + 2 * S i) by lia; reflexivity.
Qed.

Theorem ppc_spec : forall T d l n worlds, check_data pl (ADict d) = Ret tt -> check_latent_vars pl (ADict l) = Ret tt -> (1 <= n)%Z ->
  ppc pl value (Some T) (ADict d) (Some (ADict l)) (Some n) worlds =
  Arrays (map (fun i => T (xrep value d (worlds (2 * i))) (zrep value l (worlds (2 * i))) (worlds (2 * i))) (seq 0 (Z.to_nat n)))
         (map (fun i => T (xobs value d (worlds (S (2 * i)))) (zrep value l (worlds (S (2 * i)))) (worlds (S (2 * i)))) (seq 0 (Z.to_nat n))).
Proof.
  intros T d l n worlds C L Hn. unfold ppc. rewrite C, L, loop_spec. cbn [plus].
  destruct (Z.to_nat n) eqn:E; [lia|]. reflexivity.
Qed.

Theorem ppc_none : forall T d n worlds, ppc pl value T d None n worlds = ppc pl value T d (Some (ADict [])) n worlds.
Proof. reflexivity. Qed.

Theorem ppc_raises : forall T d l n worlds,
  (forall a b, ppc pl value T d l n worlds <> Arrays a b) <->
  T = None \/ (exists e, check_data pl d = Checks.Raise e) \/ (exists l', l = Some l' /\ exists e, check_latent_vars pl l' = Checks.Raise e) \/ n = None \/ exists m, n = Some m /\ (m < 1)%Z.
Proof.
  intros T d l n worlds. split.
  - intro H. unfold ppc in H. destruct T as [T|]; [|auto]. right.
    destruct (check_data pl d) as [[]|e] eqn:C; [|left; eauto]. right. destruct d as [d|]; [|discriminate C].
    destruct l as [l|].
    + destruct (check_latent_vars pl l) as [[]|e] eqn:L; [|left; eauto]. right. destruct l as [l|]; [|discriminate L].
      destruct n as [n|]; [|auto]. right. exists n. split; auto. destruct (Z_lt_le_dec n 1); auto. exfalso.
      rewrite loop_spec in H. destruct (Z.to_nat n) eqn:E; [lia|]. cbn in H. eapply H. reflexivity.
    + right. cbn in H. destruct n as [n|]; [|auto]. right. exists n. split; auto. destruct (Z_lt_le_dec n 1); auto. exfalso.
      rewrite loop_spec in H. destruct (Z.to_nat n) eqn:E; [lia|]. cbn in H. eapply H. reflexivity.
  - intros H a b E. unfold ppc in E. destruct T as [T|]; [|discriminate]. destruct H as [H|H]; [discriminate|].
    destruct (check_data pl d) as [[]|e] eqn:C; [|discriminate]. destruct H as [[e H]|H]; [discriminate|]. destruct d as [d|]; [|discriminate].
    destruct l as [l|].
    + destruct (check_latent_vars pl l) as [[]|e] eqn:L; [|discriminate]. destruct H as [(l' & Q & e & H)|H]; [injection Q as <-; congruence|].
      destruct l as [l|]; [|discriminate]. destruct n as [n|]; [|discriminate]. destruct H as [H|(m & Q & H)]; [discriminate|]. injection Q as <-.
      replace (Z.to_nat n) with 0 in E by lia. discriminate.
    + destruct H as [(l' & Q & _)|H]; [discriminate|]. cbn in E. destruct n as [n|]; [|discriminate]. destruct H as [H|(m & Q & H)]; [discriminate|]. injection Q as <-.
      replace (Z.to_nat n) with 0 in E by lia. discriminate.
Qed.

Lemma xrep_spec : forall d w, replication value d w (xrep value d w).
Proof.
  intros d w. unfold replication, xrep. induction d as [|[k v] d IH]; cbn; constructor; auto. cbn. split; auto.
  unfold replicated, is_rv. cbn. destruct k; (split; [intros (? & ? & ? & E); try discriminate E|intros N]; auto). exfalso. eauto.
Qed.
Lemma xobs_spec : forall d w, bound_values value d w (xobs value d w).
Proof. intros d w. unfold bound_values, xobs. induction d as [|kv d IH]; cbn; constructor; auto. Qed.
Lemma zrep_spec : forall d w, bound_values value d w (zrep value d w).
Proof. exact xobs_spec. Qed.

Lemma nth_seq : forall (f : nat -> V) n i, i < n -> nth_error (map f (seq 0 n)) i = Some (f i).
Proof. intros f n i Hi. rewrite nth_error_map, (nth_error_nth' _ 0) by (now rewrite seq_length). cbn. now rewrite seq_nth. Qed.

Theorem ppc_entries : forall T d l n worlds, check_data pl (ADict d) = Ret tt -> check_latent_vars pl (ADict l) = Ret tt -> (1 <= n)%Z ->
  exists a b, ppc pl value (Some T) (ADict d) (Some (ADict l)) (Some n) worlds = Arrays a b /\
    length a = Z.to_nat n /\ length b = Z.to_nat n /\
    forall i, i < Z.to_nat n -> exists xs zs ys zs',
      replication value d (worlds (2 * i)) xs /\ bound_values value l (worlds (2 * i)) zs /\ nth_error a i = Some (T xs zs (worlds (2 * i))) /\
      bound_values value d (worlds (S (2 * i))) ys /\ bound_values value l (worlds (S (2 * i))) zs' /\
      nth_error b i = Some (T ys zs' (worlds (S (2 * i)))).
Proof.
  intros T d l n worlds C L Hn. eexists _, _. split; [apply ppc_spec; auto|]. rewrite !map_length, !seq_length. split; auto. split; auto.
  intros i Hi. exists (xrep value d (worlds (2 * i))), (zrep value l (worlds (2 * i))), (xobs value d (worlds (S (2 * i)))), (zrep value l (worlds (S (2 * i)))).
  rewrite !nth_seq by auto. auto 10 using xrep_spec, xobs_spec, zrep_spec.
Qed.

(** If the latent variables and observations have one value in all runs, both entries are at the same draw. *)
Theorem ppc_constant : forall T d l n worlds i, check_data pl (ADict d) = Ret tt -> check_latent_vars pl (ADict l) = Ret tt -> (1 <= n)%Z -> i < Z.to_nat n ->
  (forall kv w w', In kv l -> value (snd kv) w = value (snd kv) w') ->
  (forall xs zs w w', T xs zs w = T xs zs w') ->
  exists a b xs ys z, ppc pl value (Some T) (ADict d) (Some (ADict l)) (Some n) worlds = Arrays a b /\
    bound_values value l (worlds (2 * i)) z /\ replication value d (worlds (2 * i)) xs /\ bound_values value d (worlds (S (2 * i))) ys /\
    nth_error a i = Some (T xs z (worlds (2 * i))) /\ nth_error b i = Some (T ys z (worlds (2 * i))).
Proof.
  intros T d l n worlds i C L Hn Hi Hl HT.
  eexists _, _, (xrep value d (worlds (2 * i))), (xobs value d (worlds (S (2 * i)))), (zrep value l (worlds (2 * i))). split; [apply ppc_spec; auto|].
  rewrite !nth_seq by auto. split; [apply zrep_spec|]. split; [apply xrep_spec|]. split; [apply xobs_spec|].
  split; auto. f_equal. rewrite (HT _ _ (worlds (S (2 * i))) (worlds (2 * i))). f_equal.
  unfold zrep. apply map_ext_in. intros kv I. f_equal. now apply Hl.
Qed.
End Proofs.
