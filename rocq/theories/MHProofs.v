From Coquelicot Require Import Coquelicot.
From Coq Require Import Reals List Arith Bool Permutation Lia Lra.
From Verif Require Import Ext Feed FeedProofs MonteCarlo MonteCarloSpec MH MHSpec ExtProofs.
Import ListNotations.
Local Open Scope R_scope.

Section Dict.
Context {V : Type}.
Notation dict := (list (nat * V)).

Lemma get_in : forall (d : dict) k v, NoDup (map fst d) -> In (k, v) d -> dict_get d k = Some v.
Proof.
  induction d as [|[a b] d IH]; intros k v Hn Hin; simpl in *; [tauto|]. inversion Hn; subst.
  destruct Hin as [E|Hin].
  - inversion E; subst. rewrite Nat.eqb_refl. auto.
  - destruct (Nat.eqb_spec a k) as [->|]; auto. exfalso. apply H1. change k with (fst (k, v)). apply in_map; auto.
Qed.

Lemma get_some_in : forall (d : dict) k v, dict_get d k = Some v -> In (k, v) d.
Proof.
  induction d as [|[a b] d IH]; intros k v E; simpl in *; [discriminate|].
  destruct (Nat.eqb_spec a k); [inversion E; subst; auto|auto].
Qed.

Lemma get_key : forall (d : dict) k, In k (map fst d) -> exists v, dict_get d k = Some v.
Proof.
  induction d as [|[a b] d IH]; intros k H; simpl in *; [tauto|]. destruct (Nat.eqb_spec a k); [eauto|].
  apply IH. destruct H; [congruence|auto].
Qed.

Lemma get_none : forall (d : dict) k, ~ In k (map fst d) -> dict_get d k = None.
Proof.
  induction d as [|[a b] d IH]; intros k H; simpl in *; auto. destruct (Nat.eqb_spec a k); [tauto|]. apply IH. tauto.
Qed.

Lemma get_app : forall (a b : dict) k, dict_get (a ++ b) k = match dict_get a k with Some v => Some v | None => dict_get b k end.
Proof. induction a as [|[x y] a IH]; intros b k; simpl; auto. destruct (Nat.eqb x k); auto. Qed.

Lemma set_new : forall (d : dict) k v, ~ In k (map fst d) -> dict_set d k v = d ++ [(k, v)].
Proof.
  induction d as [|[a b] d IH]; intros k v H; simpl in *; auto. destruct (Nat.eqb_spec a k); [tauto|].
  rewrite IH; tauto.
Qed.

Lemma update_app : forall (d2 d1 : dict), NoDup (map fst d2) -> (forall k, In k (map fst d2) -> ~ In k (map fst d1)) ->
  dict_update d1 d2 = d1 ++ d2.
Proof.
  unfold dict_update. induction d2 as [|[k v] d2 IH]; intros d1 Hn Hd; simpl.
  - rewrite app_nil_r. auto.
  - inversion Hn; subst. rewrite set_new by (apply Hd; simpl; auto). rewrite IH; auto.
    + rewrite <- app_assoc. auto.
    + intros k' Hk'. rewrite map_app, in_app_iff. simpl. intros [H|[<-|[]]]; [|tauto].
      apply (Hd k'); simpl; auto.
Qed.

Lemma set_keys : forall (d : dict) k v, In k (map fst d) -> map fst (dict_set d k v) = map fst d.
Proof.
  induction d as [|[a b] d IH]; intros k v H; simpl in *; [tauto|].
  destruct (Nat.eqb_spec a k) as [->|]; simpl; auto. rewrite IH; auto. destruct H; [congruence|auto].
Qed.

Lemma dict_ext : forall d d' : dict, NoDup (map fst d) -> map fst d = map fst d' ->
  (forall k, dict_get d k = dict_get d' k) -> d = d'.
Proof.
  induction d as [|[k v] d IH]; intros [|[k' v'] d'] Hn Hk Hg; simpl in *; try discriminate; auto.
  inversion Hk; subst k'. inversion Hn; subst. f_equal.
  - specialize (Hg k). rewrite Nat.eqb_refl in Hg. congruence.
  - apply IH; auto. intros a. specialize (Hg a). destruct (Nat.eqb_spec k a) as [->|]; auto.
    rewrite !get_none; auto. congruence.
Qed.

Lemma fst_combine : forall (l : list nat) (z : list V), length z = length l -> map fst (combine l z) = l.
Proof. induction l as [|k l IH]; intros [|v z] H; simpl in *; try lia; auto. rewrite IH; auto. Qed.

Lemma snd_combine : forall (l : list nat) (z : list V), length z = length l -> map snd (combine l z) = z.
Proof. induction l as [|k l IH]; intros [|v z] H; simpl in *; try lia; auto. rewrite IH; auto. Qed.

Lemma nth_combine : forall (l : list nat) (z : list V) i k v, nth_error l i = Some k -> nth_error z i = Some v ->
  nth_error (combine l z) i = Some (k, v).
Proof.
  induction l as [|a l IH]; intros [|b z] [|i] k v H1 H2; simpl in *; try discriminate; auto.
  inversion H1; inversion H2; auto.
Qed.

Lemma in_combine_nth : forall (l : list nat) (z : list V) k v, In (k, v) (combine l z) ->
  exists i, nth_error l i = Some k /\ nth_error z i = Some v.
Proof.
  induction l as [|a l IH]; intros [|b z] k v H; simpl in *; try tauto. destruct H as [E|H].
  - inversion E; subst. exists 0%nat. auto.
  - destruct (IH z k v H) as (i & A & B). exists (S i). auto.
Qed.

Lemma values_of_all : forall (l : list nat) (z : list V) (d : dict), length z = length l ->
  (forall k v, In (k, v) (combine l z) -> dict_get d k = Some v) -> values_of d l = Some z.
Proof.
  induction l as [|k l IH]; intros [|v z] d Hl H; simpl in *; try lia; auto.
  rewrite (H k v) by auto. rewrite (IH z d); auto.
Qed.
End Dict.

Section P.
Context {V : Type} (veq : forall a b : V, {a = b} + {a <> b}).
Notation dict := (list (nat * V)).
Variable log_prob proposal_log_prob : nat -> dict -> V -> ext.
Variable latent proposals : list nat.
Variable data : dict.

Hypothesis WF : well_posed latent proposals data.

Notation env := (env latent data).
Notation joint := (joint log_prob latent data).
Notation g := (propose_density veq proposal_log_prob latent proposals data).
Notation reachable := (reachable latent proposals).
Notation proposing := (proposing latent proposals data).

Lemma env_update : forall z, length z = length latent -> dict_update data (combine latent z) = env z.
Proof.
  intros z Hz. destruct WF as (H1 & H2 & H3 & H4 & H5). apply update_app; rewrite fst_combine; auto.
Qed.

Lemma env_get : forall z k v, length z = length latent -> In (k, v) (combine latent z) -> dict_get (env z) k = Some v.
Proof.
  intros z k v Hz Hin. destruct WF as (H1 & H2 & H3 & H4 & H5). unfold MHSpec.env. rewrite get_app.
  rewrite get_none. - apply get_in; auto. rewrite fst_combine; auto.
  - apply H5. apply in_combine_l in Hin. auto.
Qed.

Lemma env_get_k : forall z k, length z = length latent -> In k latent ->
  exists v, In (k, v) (combine latent z) /\ dict_get (env z) k = Some v.
Proof.
  intros z k Hz Hk. destruct (get_key (combine latent z) k) as (v & E); [rewrite fst_combine; auto|].
  exists v. apply get_some_in in E. split; auto. apply env_get; auto.
Qed.

Definition over (F : nat -> V -> R) (z : list V) (k : nat) : R :=
  match dict_get (combine latent z) k with Some v => F k v | None => 1 end.

Lemma over_latent : forall F z, length z = length latent ->
  product (map (over F z) latent) = product (map (fun kv => F (fst kv) (snd kv)) (combine latent z)).
Proof.
  intros F z Hz. destruct WF as (H1 & _). rewrite <- (fst_combine latent z Hz) at 1. rewrite map_map. f_equal.
  apply map_ext_in. intros [k v] Hin. unfold over. simpl. rewrite (get_in _ k v); auto. rewrite fst_combine; auto.
Qed.

Lemma over_in : forall F z k v, length z = length latent -> In (k, v) (combine latent z) -> over F z k = F k v.
Proof.
  intros F z k v Hz Hin. destruct WF as (H1 & _). unfold over. rewrite (get_in _ k v); auto. rewrite fst_combine; auto.
Qed.

Lemma filter_perm : Permutation (filter (fun k => if in_dec Nat.eq_dec k proposals then true else false) latent) proposals.
Proof.
  destruct WF as (H1 & H2 & H3 & _). apply NoDup_Permutation; auto.
  - apply NoDup_filter; auto.
  - intros k. rewrite filter_In. destruct (in_dec Nat.eq_dec k proposals); split; intros H; try tauto.
    + auto. + destruct H; discriminate.
Qed.

Lemma product_filter : forall (F : nat -> R) l (f : nat -> bool),
  product (map (fun k => if f k then F k else 1) l) = product (map F (filter f l)).
Proof. induction l as [|k l IH]; intros f; simpl; auto. destruct (f k); simpl; rewrite IH; lra. Qed.

Lemma combine3_in : forall (l : list nat) (z z' : list V) k v v', In (k, (v, v')) (combine l (combine z z')) ->
  exists i, nth_error l i = Some k /\ nth_error z i = Some v /\ nth_error z' i = Some v'.
Proof.
  induction l as [|a l IH]; intros [|b z] [|c z'] k v v' H; simpl in *; try tauto. destruct H as [E|H].
  - inversion E; subst. exists 0%nat. auto.
  - destruct (IH z z' k v v' H) as (i & A). exists (S i). auto.
Qed.

Lemma g_over : forall z z', length z = length latent -> length z' = length latent -> reachable z z' ->
  g z z' = product (map (over (fun k v => density (proposal_log_prob k (env z) v)) z') proposals).
Proof.
  intros z z' Hz Hz' [_ Hr]. rewrite <- (product_perm _ _ (Permutation_map _ filter_perm)).
  rewrite <- product_filter. unfold propose_density.
  assert (E : latent = map fst (combine latent (combine z z'))).
  { clear Hr. revert z z' Hz Hz'. clear. induction latent as [|a l IH]; intros [|b z] [|c z'] H1 H2; simpl in *; try lia; auto.
    rewrite <- IH; auto. }
  rewrite E at 2. rewrite map_map. f_equal. apply map_ext_in. intros [k [v v']] Hin. simpl.
  destruct (combine3_in _ _ _ _ _ _ Hin) as (i & A & B & C).
  destruct (in_dec Nat.eq_dec k proposals) as [Hk|Hk].
  - rewrite (over_in _ z' k v'); auto. eapply nth_error_In. apply nth_combine; eauto.
  - specialize (Hr i k v A B Hk). rewrite C in Hr. inversion Hr; subst. destruct (veq v v); [auto|congruence].
Qed.

(** ** The proposed state, whatever the densities *)
Lemma propose_shape : forall z z' u d, length z = length latent -> length z' = length latent -> proposing z' u d ->
  forall ps nd s, incl ps proposals -> map fst nd = latent ->
  exists nd' s', fold_left (fun (acc : dict * ext) k => match acc with (new_sample, ratio) =>
      let v := d_propose d k (env z) in
      (dict_set new_sample k v, esub ratio (proposal_log_prob k (env z) v)) end) ps (nd, s) = (nd', s') /\
    map fst nd' = latent /\
    (forall k, dict_get nd' k = if in_dec Nat.eq_dec k ps then dict_get (combine latent z') k else dict_get nd k).
Proof.
  intros z z' u d Hz Hz' (Hd1 & Hd2 & Hd3). pose proof WF as (H1 & H2 & H3 & H4 & H5).
  induction ps as [|k ps IH]; intros nd s Hi Hk.
  - exists nd, s. simpl. auto.
  - cbn [fold_left].
    assert (Hkl : In k latent) by (apply H3, Hi; simpl; auto).
    destruct (env_get_k z' k Hz' Hkl) as (v & Hin & _).
    assert (Ev : d_propose d k (env z) = v). { apply Hd3; auto. apply Hi. simpl; auto. }
    destruct (IH (dict_set nd k (d_propose d k (env z))) (esub s (proposal_log_prob k (env z) (d_propose d k (env z)))))
      as (nd' & s' & A & B & C).
    + intros a Ha. apply Hi. simpl; auto.
    + rewrite set_keys; auto. rewrite Hk; auto.
    + exists nd', s'. split; [exact A|]. split; auto.
      intros k'. rewrite C. destruct (in_dec Nat.eq_dec k' ps) as [Hp|Hp]; destruct (in_dec Nat.eq_dec k' (k :: ps)) as [Hq|Hq];
          simpl in Hq; auto; try tauto.
      * rewrite get_set, Ev. destruct Hq as [<-|]; [|tauto]. rewrite Nat.eqb_refl. symmetry. apply get_in; auto.
        rewrite fst_combine; auto.
      * rewrite get_set. destruct (Nat.eqb_spec k k'); [tauto|auto].
Qed.

Lemma reverse_shape : forall z z', length z = length latent -> length z' = length latent ->
  forall ps s, incl ps latent ->
  exists s', fold_left (fun acc k => match acc with None => None | Some r =>
      with_key (env z) k (fun v => Some (eadd r (proposal_log_prob k (env z') v))) end) ps (Some s) = Some s'.
Proof.
  intros z z' Hz Hz'. induction ps as [|k ps IH]; intros s Hi; [exists s; auto|].
  cbn [fold_left]. destruct (env_get_k z k Hz) as (v & Hin & Eg); [apply Hi; simpl; auto|].
  unfold with_key at 2. rewrite Eg. apply IH. intros a Ha. apply Hi. simpl; auto.
Qed.

Lemma priors_shape : forall z z', length z = length latent -> length z' = length latent ->
  forall ps s, incl ps latent ->
  exists s', fold_left (fun acc k => match acc with None => None | Some r =>
      with_key (env z') k (fun vn => with_key (env z) k (fun vo =>
        Some (esub (eadd r (log_prob k (env z') vn)) (log_prob k (env z) vo)))) end) ps (Some s) = Some s'.
Proof.
  intros z z' Hz Hz'. induction ps as [|k ps IH]; intros s Hi; [exists s; auto|].
  cbn [fold_left]. destruct (env_get_k z k Hz) as (v & Hin & Eg); [apply Hi; simpl; auto|].
  destruct (env_get_k z' k Hz') as (v' & Hin' & Eg'); [apply Hi; simpl; auto|].
  unfold with_key at 3. rewrite Eg'. unfold with_key at 3. rewrite Eg. apply IH. intros a Ha. apply Hi. simpl; auto.
Qed.

Lemma new_sample_eq : forall (z z' : list V) nd, length z = length latent -> length z' = length latent -> reachable z z' ->
  map fst nd = latent ->
  (forall k, dict_get nd k = if in_dec Nat.eq_dec k proposals then dict_get (combine latent z') k else dict_get (combine latent z) k) ->
  nd = combine latent z'.
Proof.
  intros z z' nd Hz Hz' Hreach K L. pose proof WF as (H1 & H2 & H3 & H4 & H5).
  apply dict_ext; [rewrite K; auto|rewrite K, fst_combine; auto|]. intros k. rewrite L.
  destruct (in_dec Nat.eq_dec k proposals) as [|Hn]; auto. destruct (in_dec Nat.eq_dec k latent) as [Hk|Hk].
  - destruct (env_get_k z k Hz Hk) as (v & Hin & _). rewrite (get_in _ k v); [|rewrite fst_combine; auto|auto].
    symmetry. apply get_in; [rewrite fst_combine; auto|]. destruct (in_combine_nth _ _ _ _ Hin) as (i & A & B).
    eapply nth_error_In. apply nth_combine; eauto. destruct Hreach as [_ Hr]. eapply Hr; eauto.
  - rewrite !get_none; auto; rewrite fst_combine; auto.
Qed.

Lemma mh_select_eval : forall (z z' : list V) s u, length z = length latent -> length z' = length latent ->
  mh_select (combine latent z) (combine latent z') s u =
  Some (combine latent (if eltb (elog (Fin u)) s then z' else z), eltb (elog (Fin u)) s).
Proof.
  intros z z' s u Hz Hz'. unfold mh_select. rewrite !combine_length, Hz, Hz', Nat.eqb_refl, fst_combine by auto.
  destruct (eltb _ s); rewrite snd_combine; auto.
Qed.

Lemma mh_sample_of_ratio : forall temper (z z' : list V) s d, length z = length latent -> length z' = length latent ->
  mh_ratio log_prob proposal_log_prob latent proposals (combine latent z) d = Some (combine latent z', s) ->
  mh_sample log_prob proposal_log_prob latent proposals temper z d =
    Some (if eltb (elog (Fin (d_u d))) (temper s) then z' else z, eltb (elog (Fin (d_u d))) (temper s)).
Proof.
  intros temper z z' s d Hz Hz' E. pose proof WF as (H1 & H2 & H3 & H4 & H5).
  unfold mh_sample. rewrite E. rewrite mh_select_eval by auto.
  rewrite (values_of_all _ (if eltb (elog (Fin (d_u d))) (temper s) then z' else z)); auto.
  - destruct (eltb (elog (Fin (d_u d))) (temper s)); auto.
  - intros k v Hin. apply get_in; auto. rewrite fst_combine; auto. destruct (eltb (elog (Fin (d_u d))) (temper s)); auto.
Qed.

(** The state proposed from [z] with the draws [d]. *)
Notation proposal_state := (proposal_state latent proposals data).

Lemma proposal_state_spec : forall (z : list V) d, length z = length latent ->
  reachable z (proposal_state z d) /\
  forall k v, In (k, v) (combine latent (proposal_state z d)) -> In k proposals -> v = d_propose d k (env z).
Proof.
  intros z d Hz. unfold proposal_state. set (z' := map _ _).
  assert (Hz' : length z' = length latent). { unfold z'. rewrite map_length, combine_length. lia. }
  split.
  - split; [lia|]. intros i k v A B C. unfold z'.
    rewrite (map_nth_error _ i (combine latent z) (d := (k, v))) by (apply nth_combine; auto).
    simpl. destruct (in_dec Nat.eq_dec k proposals); tauto.
  - intros k v Hin Hk. destruct (in_combine_nth _ _ _ _ Hin) as (i & A & B). unfold z' in B.
    destruct (nth_error z i) as [w|] eqn:Ew.
    + rewrite (map_nth_error _ i (combine latent z) (d := (k, w))) in B by (apply nth_combine; auto).
      inversion B. simpl. destruct (in_dec Nat.eq_dec k proposals); tauto.
    + apply nth_error_None in Ew. assert (nth_error latent i <> None) as Hn by congruence. apply nth_error_Some in Hn. lia.
Qed.

Lemma mh_move : forall temper (z : list V) d, length z = length latent -> d_data d = data ->
  exists a : bool, mh_sample log_prob proposal_log_prob latent proposals temper z d = Some (if a then proposal_state z d else z, a).
Proof.
  intros temper z d Hz Hd. pose proof WF as (H1 & H2 & H3 & H4 & H5).
  destruct (proposal_state_spec z d Hz) as [Hr Hp]. set (z' := proposal_state z d) in *.
  assert (Hz' : length z' = length latent) by (destruct Hr; lia).
  assert (Hf : exists s, mh_ratio log_prob proposal_log_prob latent proposals (combine latent z) d = Some (combine latent z', s)).
  { unfold mh_ratio. rewrite Hd, (env_update z Hz).
    (* the same draws, made independent of the dictionary *)
    destruct (propose_shape z z' (d_u d) (mkdraws data (fun k _ => d_propose d k (env z)) (d_u d)) Hz Hz') with
      (ps := proposals) (nd := combine latent z) (s := Fin 0) as (nd & s1 & E1 & K & L).
    { split; auto. split; auto. intros k v e Hin Hk. simpl. symmetry. auto. }
    { apply incl_refl. } { apply fst_combine; auto. }
    replace (mh_propose proposal_log_prob proposals d (combine latent z) (env z)) with (nd, s1) by (symmetry; exact E1).
    rewrite (new_sample_eq z z' nd Hz Hz' Hr K L). rewrite (env_update z' Hz').
    destruct (reverse_shape z z' Hz Hz' proposals s1 H3) as (s2 & E2).
    replace (mh_reverse proposal_log_prob proposals (env z) (env z') s1) with (Some s2) by (symmetry; exact E2).
    destruct (priors_shape z z' Hz Hz' latent s2 (incl_refl _)) as (s3 & E3).
    replace (mh_priors log_prob latent (env z) (env z') s2) with (Some s3) by (symmetry; exact E3).
    eexists. reflexivity. }
  destruct Hf as (s & Es). rewrite (mh_sample_of_ratio temper z z' s d Hz Hz' Es). eauto.
Qed.

(** ** The ratio *)
Hypothesis LD : log_densities log_prob proposal_log_prob.

Lemma propose_fold : forall z z' u d, length z = length latent -> length z' = length latent -> proposing z' u d ->
  forall ps nd s P N, incl ps proposals -> map fst nd = latent -> ratio_of P N s ->
  exists nd' s', fold_left (fun (acc : dict * ext) k => match acc with (new_sample, ratio) =>
      let v := d_propose d k (env z) in
      (dict_set new_sample k v, esub ratio (proposal_log_prob k (env z) v)) end) ps (nd, s) = (nd', s') /\
    map fst nd' = latent /\
    (forall k, dict_get nd' k = if in_dec Nat.eq_dec k ps then dict_get (combine latent z') k else dict_get nd k) /\
    ratio_of P (N * product (map (over (fun k v => density (proposal_log_prob k (env z) v)) z') ps)) s'.
Proof.
  intros z z' u d Hz Hz' (Hd1 & Hd2 & Hd3). pose proof WF as (H1 & H2 & H3 & H4 & H5).
  induction ps as [|k ps IH]; intros nd s P N Hi Hk Hr.
  - exists nd, s. simpl. split; auto. split; auto. split; auto. rewrite Rmult_1_r. auto.
  - cbn [fold_left].
    assert (Hkl : In k latent) by (apply H3, Hi; simpl; auto).
    destruct (env_get_k z' k Hz' Hkl) as (v & Hin & _).
    assert (Ev : d_propose d k (env z) = v). { apply Hd3; auto. apply Hi. simpl; auto. }
    destruct (IH (dict_set nd k (d_propose d k (env z))) (esub s (proposal_log_prob k (env z) (d_propose d k (env z))))
      P (N * density (proposal_log_prob k (env z) v))) as (nd' & s' & A & B & C & D).
    + intros a Ha. apply Hi. simpl; auto.
    + rewrite set_keys; auto. rewrite Hk; auto.
    + rewrite Ev. apply ratio_sub; auto. apply LD.
    + exists nd', s'. split; [exact A|]. split; auto. split.
      * intros k'. rewrite C. destruct (in_dec Nat.eq_dec k' ps) as [Hp|Hp]; destruct (in_dec Nat.eq_dec k' (k :: ps)) as [Hq|Hq];
          simpl in Hq; auto; try tauto.
        -- rewrite get_set, Ev. destruct Hq as [<-|]; [|tauto]. rewrite Nat.eqb_refl. symmetry. apply get_in; auto.
           rewrite fst_combine; auto.
        -- rewrite get_set. destruct (Nat.eqb_spec k k'); [tauto|auto].
      * simpl. rewrite (over_in _ z' k v); auto. rewrite <- Rmult_assoc. auto.
Qed.

Lemma reverse_fold : forall z z', length z = length latent -> length z' = length latent ->
  forall ps s P N, incl ps latent -> ratio_of P N s ->
  exists s', fold_left (fun acc k => match acc with None => None | Some r =>
      with_key (env z) k (fun v => Some (eadd r (proposal_log_prob k (env z') v))) end) ps (Some s) = Some s' /\
    ratio_of (P * product (map (over (fun k v => density (proposal_log_prob k (env z') v)) z) ps)) N s'.
Proof.
  intros z z' Hz Hz'. induction ps as [|k ps IH]; intros s P N Hi Hr.
  - exists s. simpl. rewrite Rmult_1_r. auto.
  - cbn [fold_left]. destruct (env_get_k z k Hz) as (v & Hin & Eg); [apply Hi; simpl; auto|].
    unfold with_key at 2. rewrite Eg.
    destruct (IH (eadd s (proposal_log_prob k (env z') v)) (P * density (proposal_log_prob k (env z') v)) N) as (s' & A & B).
    + intros a Ha. apply Hi. simpl; auto.
    + apply ratio_add; auto. apply LD.
    + exists s'. split; auto. simpl. rewrite (over_in _ z k v); auto. rewrite <- Rmult_assoc. auto.
Qed.

Lemma priors_fold : forall z z', length z = length latent -> length z' = length latent ->
  forall ps s P N, incl ps latent -> ratio_of P N s ->
  exists s', fold_left (fun acc k => match acc with None => None | Some r =>
      with_key (env z') k (fun vn => with_key (env z) k (fun vo =>
        Some (esub (eadd r (log_prob k (env z') vn)) (log_prob k (env z) vo)))) end) ps (Some s) = Some s' /\
    ratio_of (P * product (map (over (fun k v => density (log_prob k (env z') v)) z') ps))
             (N * product (map (over (fun k v => density (log_prob k (env z) v)) z) ps)) s'.
Proof.
  intros z z' Hz Hz'. induction ps as [|k ps IH]; intros s P N Hi Hr.
  - exists s. simpl. rewrite !Rmult_1_r. auto.
  - cbn [fold_left]. destruct (env_get_k z k Hz) as (v & Hin & Eg); [apply Hi; simpl; auto|].
    destruct (env_get_k z' k Hz') as (v' & Hin' & Eg'); [apply Hi; simpl; auto|].
    unfold with_key at 3. rewrite Eg'. unfold with_key at 3. rewrite Eg.
    destruct (IH (esub (eadd s (log_prob k (env z') v')) (log_prob k (env z) v))
      (P * density (log_prob k (env z') v')) (N * density (log_prob k (env z) v))) as (s' & A & B).
    + intros a Ha. apply Hi. simpl; auto.
    + apply ratio_sub; [apply ratio_add; auto|]; apply LD.
    + exists s'. split; auto. simpl. rewrite (over_in _ z k v), (over_in _ z' k v') by auto. rewrite <- !Rmult_assoc. auto.
Qed.

Lemma likelihoods_fold : forall z z' l s P N, ratio_of P N s ->
  ratio_of (P * product (map (fun kv => density (log_prob (fst kv) (env z') (snd kv))) l))
           (N * product (map (fun kv => density (log_prob (fst kv) (env z) (snd kv))) l))
   (fold_left (fun r xv => esub (eadd r (log_prob (fst xv) (env z') (snd xv))) (log_prob (fst xv) (env z) (snd xv))) l s).
Proof.
  intros z z'. induction l as [|[k v] l IH]; intros s P N H.
  - simpl. rewrite !Rmult_1_r. auto.
  - cbn [fold_left map product fold_right]. rewrite <- !Rmult_assoc. apply IH. apply ratio_sub; [apply ratio_add; auto|]; apply LD.
Qed.

Lemma reachable_sym : forall z z' : list V, reachable z z' -> reachable z' z.
Proof.
  intros z z' [H1 H2]. split; auto. intros i k v' A B C. destruct (nth_error z i) as [v|] eqn:E.
  - rewrite (H2 i k v A E C) in B. congruence.
  - apply nth_error_None in E. assert (nth_error z' i <> None) as Hn by congruence. apply nth_error_Some in Hn. lia.
Qed.

Lemma mh_eval : forall z z' u d, length z = length latent -> reachable z z' -> proposing z' u d ->
  exists s, mh_ratio log_prob proposal_log_prob latent proposals (combine latent z) d = Some (combine latent z', s) /\
    ratio_of (joint z' * g z' z) (joint z * g z z') s.
Proof.
  intros z z' u d Hz Hreach Hd. pose proof WF as (H1 & H2 & H3 & H4 & H5).
  assert (Hz' : length z' = length latent) by (destruct Hreach; lia).
  unfold mh_ratio. pose proof Hd as (Hd1 & _). rewrite Hd1, (env_update z Hz).
  destruct (propose_fold z z' u d Hz Hz' Hd proposals (combine latent z) (Fin 0) 1 1) as (nd & s1 & E1 & K & L & R1).
  { apply incl_refl. } { apply fst_combine; auto. } { apply ratio_of_0. }
  replace (mh_propose proposal_log_prob proposals d (combine latent z) (env z)) with (nd, s1) by (symmetry; exact E1).
  pose proof (new_sample_eq z z' nd Hz Hz' Hreach K L) as E.
  subst nd. rewrite (env_update z' Hz'). 
  destruct (reverse_fold z z' Hz Hz' proposals s1 _ _ H3 R1) as (s2 & E2 & R2).
  replace (mh_reverse proposal_log_prob proposals (env z) (env z') s1) with (Some s2) by (symmetry; exact E2).
  destruct (priors_fold z z' Hz Hz' latent s2 _ _ (incl_refl _) R2) as (s3 & E3 & R3).
  replace (mh_priors log_prob latent (env z) (env z') s2) with (Some s3) by (symmetry; exact E3).
  eexists. split; [reflexivity|].
  pose proof (likelihoods_fold z z' data _ _ _ R3) as R4. unfold mh_likelihoods.
  rewrite !over_latent in R4 by auto.
  match type of R4 with ratio_of ?A ?B _ => replace (joint z' * g z' z) with A; [replace (joint z * g z z') with B; [exact R4|]|] end.
  - rewrite (g_over z z' Hz Hz' Hreach). unfold MHSpec.joint. lra.
  - rewrite (g_over z' z Hz' Hz (reachable_sym _ _ Hreach)). unfold MHSpec.joint. lra.
Qed.

Notation sample := (mh_sample log_prob proposal_log_prob latent proposals (fun r => r)).

Lemma mh_sample_eval : forall z z' u d, length z = length latent -> reachable z z' -> proposing z' u d ->
  exists s, ratio_of (joint z' * g z' z) (joint z * g z z') s /\
    sample z d = Some (if eltb (elog (Fin u)) s then z' else z, eltb (elog (Fin u)) s).
Proof.
  intros z z' u d Hz Hreach Hd. destruct (mh_eval z z' u d Hz Hreach Hd) as (s & E & R). exists s. split; auto.
  pose proof WF as (H1 & H2 & H3 & H4 & H5). assert (Hz' : length z' = length latent) by (destruct Hreach; lia).
  rewrite (mh_sample_of_ratio (fun r => r) z z' s d Hz Hz' E). destruct Hd as (_ & -> & _). auto.
Qed.

Lemma product_nonzero : forall l x, product l <> 0 -> In x l -> x <> 0.
Proof. induction l as [|y l IH]; intros x H Hin; simpl in *; [tauto|]. destruct Hin as [->|Hin]; [|apply IH]; auto; nra. Qed.

Lemma g_reachable : forall z z', length z = length latent -> length z' = length latent -> g z z' <> 0 -> reachable z z'.
Proof.
  intros z z' Hz Hz' Hg. split; [lia|]. intros i k v A B C. destruct (nth_error z' i) as [v'|] eqn:E.
  - f_equal. unfold propose_density in Hg.
    assert (Hin : In (k, (v, v')) (combine latent (combine z z'))).
    { clear - A B E. revert z z' i A B E. induction latent as [|a l IH]; intros [|b z] [|c z'] [|i] A B E; simpl in *; try discriminate.
      - inversion A; inversion B; inversion E; auto.
      - right. eapply IH; eauto. }
    assert (H0 : (if in_dec Nat.eq_dec k proposals then density (proposal_log_prob k (env z) v') else if veq v v' then 1 else 0) <> 0).
    { eapply product_nonzero; [exact Hg|]. apply in_map_iff. exists (k, (v, v')). auto. }
    destruct (in_dec Nat.eq_dec k proposals); [tauto|]. destruct (veq v v'); congruence.
  - apply nth_error_None in E. assert (nth_error z i <> None) as Hn by congruence. apply nth_error_Some in Hn. lia.
Qed.

Notation step_probability := (step_probability log_prob proposal_log_prob latent proposals data).
Notation steps_to := (steps_to log_prob proposal_log_prob latent proposals data).
Notation ap z z' := (accept_prob (joint z' * g z' z) (joint z * g z z')).

Lemma steps : forall z z' u, length z = length latent -> reachable z z' -> 0 < u < 1 ->
  steps_to z z' u (if Rlt_dec u (ap z z') then z' else z).
Proof.
  intros z z' u Hz Hr Hu d Hd. destruct (mh_sample_eval z z' u d Hz Hr Hd) as (s & R & E). exists (eltb (elog (Fin u)) s).
  rewrite E. do 3 f_equal. destruct (Rlt_dec u (ap z z')) as [H|H].
  - apply (accept_iff _ _ _ _ R Hu) in H. rewrite H. auto.
  - destruct (eltb (elog (Fin u)) s) eqn:Es; auto. exfalso. apply H. apply (accept_iff _ _ _ _ R Hu). auto.
Qed.

Lemma joint_nonneg : forall z, 0 <= joint z.
Proof.
  intros z. unfold MHSpec.joint. apply Rmult_le_pos; apply product_nonneg; apply Forall_forall; intros x Hx;
    apply in_map_iff in Hx; destruct Hx as (kv & <- & _); apply density_nonneg.
Qed.
Lemma g_nonneg : forall z z', 0 <= g z z'.
Proof.
  intros z z'. unfold propose_density. apply product_nonneg, Forall_forall. intros x Hx. apply in_map_iff in Hx.
  destruct Hx as ([k [v v']] & <- & _). destruct (in_dec _ _ _); [apply density_nonneg|]. destruct (veq v v'); lra.
Qed.
Lemma ap_range : forall z z', 0 <= ap z z' <= 1.
Proof. intros z z'. apply accept_prob_range; apply Rmult_le_pos; auto using joint_nonneg, g_nonneg. Qed.

Definition leads (z z' r : list V) : R :=
  (if list_eq_dec veq z' r then ap z z' else 0) + (if list_eq_dec veq z r then 1 - ap z z' else 0).

Lemma step_prob : forall z z' r, length z = length latent -> reachable z z' -> step_probability z z' r (leads z z' r).
Proof.
  intros z z' r Hz Hr. unfold leads. pose proof (ap_range z z') as Ha. set (a := ap z z') in *.
  exists (fun u => (if list_eq_dec veq z' r then (if Rlt_dec u a then 1 else 0) else 0) +
                   (if list_eq_dec veq z r then (1 - if Rlt_dec u a then 1 else 0) else 0)).
  pose proof (indicator_RInt a Ha) as HI.
  assert (H0 : is_RInt (V := R_NormedModule) (fun _ : R => 0) 0 1 0).
  { pose proof (is_RInt_const (V := R_NormedModule) 0 1 0) as H.
    match type of H with @is_RInt _ _ _ _ ?v => replace v with 0 in H; [exact H|] end.
    unfold scal; simpl; unfold mult; simpl; lra. }
  assert (H1 : is_RInt (V := R_NormedModule) (fun u : R => 1 - (if Rlt_dec u a then 1 else 0)) 0 1 (1 - a)).
  { pose proof (is_RInt_const (V := R_NormedModule) 0 1 1) as H.
    pose proof (is_RInt_minus (V := R_NormedModule) _ _ 0 1 _ _ H HI) as HM.
    match type of HM with @is_RInt _ _ _ _ ?v => replace v with (1 - a) in HM; [exact HM|] end.
    unfold minus, plus, opp, scal; simpl; unfold mult; simpl; lra. }
  split.
  - apply (is_RInt_plus (V := R_NormedModule)).
    + destruct (list_eq_dec veq z' r); auto.
    + destruct (list_eq_dec veq z r); auto.
  - intros u Hu. pose proof (steps z z' u Hz Hr Hu) as Hs. fold a in Hs.
    destruct (list_eq_dec veq z' r) as [->|N1]; destruct (list_eq_dec veq z r) as [->|N2]; destruct (Rlt_dec u a).
    + left. split; [lra|auto]. + left. split; [lra|auto].
    + left. split; [lra|auto]. + right. split; [lra|]. exists z. auto.
    + right. split; [lra|]. exists z'. auto. + left. split; [lra|auto].
    + right. split; [lra|]. exists z'. auto. + right. split; [lra|]. exists z. auto.
Qed.

Lemma balance : forall z z', joint z * g z z' * ap z z' = joint z' * g z' z * ap z' z.
Proof.
  intros z z'. apply (accept_balance (joint z' * g z' z) (joint z * g z z')); apply Rmult_le_pos; auto using joint_nonneg, g_nonneg.
Qed.

Lemma detailed_balance : forall z z', length z = length latent -> reachable z z' -> z <> z' ->
  exists a a', step_probability z z' z' a /\ step_probability z' z z a' /\
    joint z * g z z' * a = joint z' * g z' z * a'.
Proof.
  intros z z' Hz Hr Hne. exists (leads z z' z'), (leads z' z z).
  assert (Hz' : length z' = length latent) by (destruct Hr; lia).
  split; [apply step_prob; auto|]. split; [apply step_prob; auto; apply reachable_sym; auto|].
  unfold leads. destruct (list_eq_dec veq z' z'); [|congruence]. destruct (list_eq_dec veq z z'); [congruence|].
  destruct (list_eq_dec veq z z); [|congruence]. destruct (list_eq_dec veq z' z); [congruence|].
  rewrite !Rplus_0_r. apply balance.
Qed.

Lemma unreachable_zero : forall z z', length z = length latent -> length z' = length latent ->
  ~ reachable z z' -> g z z' = 0 /\ g z' z = 0.
Proof.
  intros z z' Hz Hz' Hn. split.
  - destruct (Req_dec (g z z') 0) as [|H]; auto. exfalso. apply Hn. apply g_reachable; auto.
  - destruct (Req_dec (g z' z) 0) as [|H]; auto. exfalso. apply Hn. apply reachable_sym. apply g_reachable; auto.
Qed.

(** ** Uniqueness *)
Lemma proposing_exists : forall z' u, length z' = length latent -> latent <> [] -> exists d, proposing z' u d.
Proof.
  intros z' u Hl Hne. pose proof WF as (H1 & _). destruct z' as [|v0 z1]; [destruct latent; [congruence|discriminate]|].
  exists (mkdraws data (fun k _ => match dict_get (combine latent (v0 :: z1)) k with Some v => v | None => v0 end) u).
  split; auto. split; auto. intros k v e Hin _. simpl. rewrite (get_in _ k v); auto. rewrite fst_combine; auto.
Qed.

Lemma step_prob_unique : forall z z' r p q, length z' = length latent -> latent <> [] ->
  step_probability z z' r p -> step_probability z z' r q -> p = q.
Proof.
  intros z z' r p q Hz' Hne (f & If & Hf) (h & Ih & Hh). apply (RInt_01_unique f h); auto.
  intros u Hu. destruct (proposing_exists z' u Hz' Hne) as (d & Hd).
  assert (D : forall r1 r2, steps_to z z' u r1 -> steps_to z z' u r2 -> r1 = r2).
  { intros r1 r2 A B. destruct (A d Hd) as (a1 & E1). destruct (B d Hd) as (a2 & E2). congruence. }
  destruct (Hf u Hu) as [[-> A]|[-> (r1 & N1 & A)]]; destruct (Hh u Hu) as [[-> B]|[-> (r2 & N2 & B)]]; auto.
  - exfalso. apply N2. eauto. - exfalso. apply N1. eauto.
Qed.

(** ** Stationarity *)
Lemma sum_ext : forall {A} (f h : A -> R) l, (forall x, In x l -> f x = h x) -> sum (map f l) = sum (map h l).
Proof. intros A f h l H. f_equal. apply map_ext_in. auto. Qed.
Lemma sum_plus : forall {A} (f h : A -> R) l, sum (map (fun x => f x + h x) l) = sum (map f l) + sum (map h l).
Proof. induction l; simpl; lra. Qed.
Lemma sum_scal : forall {A} (f : A -> R) c l, sum (map (fun x => c * f x) l) = c * sum (map f l).
Proof. induction l; simpl; lra. Qed.
Lemma sum_delta : forall (f : list V -> R) r l, NoDup l -> In r l ->
  sum (map (fun x => if list_eq_dec veq x r then f x else 0) l) = f r.
Proof.
  intros f r. induction l as [|x l IH]; intros Hn Hin; [destruct Hin|]. inversion Hn; subst. cbn [map sum fold_right].
  destruct (list_eq_dec veq x r) as [->|Hx].
  - rewrite (sum_ext _ (fun _ => 0 * 0)).
    + rewrite (sum_scal (fun _ => 0)). lra.
    + intros y Hy. destruct (list_eq_dec veq y r) as [->|]; [tauto|lra].
  - destruct Hin as [|Hin]; [congruence|]. fold (sum (map (fun x => if list_eq_dec veq x r then f x else 0) l)).
    rewrite IH; auto. lra.
Qed.

Notation transition := (transition veq log_prob proposal_log_prob latent proposals data).

Lemma stationary : forall space, NoDup space -> (forall z, In z space -> length z = length latent) -> latent <> [] ->
  (forall z, In z space -> sum (map (g z) space) = 1) ->
  forall r, In r space ->
  exists K : list V -> R, (forall z, In z space -> transition space z r (K z)) /\
    (forall z q, In z space -> transition space z r q -> q = K z) /\
    sum (map (fun z => joint z * K z) space) = joint r.
Proof.
  intros space Hnd Hlen Hne Hsum r Hr.
  exists (fun z => sum (map (fun w => g z w * leads z w r) space)). split; [|split].
  - intros z Hz. exists (fun w => leads z w r). split; auto. intros w Hw Hg. apply step_prob; auto.
    apply g_reachable; auto.
  - intros z q Hz (f & Hf & ->). apply sum_ext. intros w Hw. destruct (Req_dec (g z w) 0) as [->|Hg]; [lra|].
    f_equal. eapply (step_prob_unique z w); eauto. apply step_prob; auto. apply g_reachable; auto.
  - unfold leads.
    rewrite (sum_ext _ (fun z => (joint z * g z r * ap z r) +
       (if list_eq_dec veq z r then joint z * sum (map (fun w => g z w * (1 - ap z w)) space) else 0))).
    2:{ intros z Hz. rewrite (sum_ext _ (fun w => (if list_eq_dec veq w r then g z w * ap z w else 0) +
            (if list_eq_dec veq z r then 1 else 0) * (g z w * (1 - ap z w)))).
        - rewrite sum_plus, sum_delta, sum_scal by auto. destruct (list_eq_dec veq z r); lra.
        - intros w Hw. destruct (list_eq_dec veq w r); destruct (list_eq_dec veq z r); lra. }
    rewrite sum_plus, (sum_delta (fun z => joint z * sum (map (fun w => g z w * (1 - ap z w)) space))) by auto.
    rewrite (sum_ext (fun z => joint z * g z r * ap z r) (fun z => joint r * (g r z * ap r z)))
      by (intros; rewrite balance; lra).
    rewrite sum_scal.
    rewrite (sum_ext (fun w => g r w * (1 - ap r w)) (fun w => g r w + (-1) * (g r w * ap r w))) by (intros; lra).
    rewrite sum_plus, sum_scal. rewrite Hsum by auto. lra.
Qed.

End P.
