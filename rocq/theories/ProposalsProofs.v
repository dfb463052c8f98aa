(** * Proofs for C80. *)
From Coq Require Import Reals List Arith Bool Lia Lra.
From Verif Require Import Ext Feed MonteCarlo MonteCarloSpec MH MHSpec MHProofs MonteCarloProofs Gibbs ChainProofs.
From Verif Require Import Proposals.
Import ListNotations.

Section Build.
Context {V : Type}.
Notation dict := (list (nat * V)).
Variable log_prob proposal_log_prob : nat -> dict -> V -> ext.
Variable latent proposals : list nat.

Lemma keys_set : forall (d : dict) k v, NoDup (map fst d) ->
  NoDup (map fst (dict_set d k v)) /\ (forall x, In x (map fst (dict_set d k v)) <-> x = k \/ In x (map fst d)).
Proof.
  intros d k v H. destruct (in_dec Nat.eq_dec k (map fst d)) as [Hk|Hk].
  - rewrite set_keys by auto. split; auto. intros x. split; auto. intros [-> |Hx]; auto.
  - rewrite set_new by auto. rewrite map_app. cbn. split.
    + clear -H Hk. induction (map fst d) as [|a l IH]; cbn; [repeat constructor; auto|]. inversion H; subst. constructor.
      * rewrite in_app_iff. cbn. intros [A|[A|[]]]; [auto|]. subst. apply Hk. cbn. auto.
      * apply IH; auto. intros A. apply Hk. cbn. auto.
    + intros x. rewrite in_app_iff. cbn. split; [intros [A|[A|[]]]; auto|intros [A|A]; auto].
Qed.
Lemma propose_keys : forall d e ps (nd : dict) s nd' s', NoDup (map fst nd) ->
  fold_left (fun acc z => match acc with (new_sample, ratio) =>
      let v := d_propose d z e in
      (dict_set new_sample z v, esub ratio (proposal_log_prob z e v)) end) ps (nd, s) = (nd', s') ->
  NoDup (map fst nd') /\ forall x, In x (map fst nd') <-> In x ps \/ In x (map fst nd).
Proof.
  intros d e ps. induction ps as [|p ps IH]; intros nd s nd' s' H E; cbn in E.
  - inversion E; subst. split; auto. intros x. cbn. tauto.
  - destruct (keys_set nd p (d_propose d p e) H) as [H1 H2]. destruct (IH _ _ _ _ H1 E) as [H3 H4]. split; auto.
    intros x. rewrite H4, H2. cbn. intuition.
Qed.

Lemma builds : forall temper old d, NoDup latent -> NoDup proposals -> NoDup (map fst (d_data d)) ->
  (forall k, In k latent -> ~ In k (map fst (d_data d))) -> length old = length latent ->
  ((exists r, mh_sample log_prob proposal_log_prob latent proposals temper old d = Some r) <-> incl proposals latent).
Proof.
  intros temper old d HL HP HD HX Ho. split.
  - intros [r E]. unfold mh_sample in E. destruct (mh_ratio _ _ _ _ _ d) as [[nd ratio]|] eqn:ER; [|discriminate].
    destruct (mh_select _ nd _ _) as [[sample a]|] eqn:ES; [|discriminate]. clear E.
    unfold mh_select in ES. destruct (Nat.eqb _ _) eqn:EL; [|discriminate]. apply Nat.eqb_eq in EL. clear ES.
    unfold mh_ratio in ER. destruct (mh_propose _ _ _ _ _) as [nd' s'] eqn:EP.
    destruct (mh_reverse _ _ _ _ _); [|discriminate]. destruct (mh_priors _ _ _ _ _); [|discriminate]. inversion ER; subst nd'. clear ER.
    assert (EK : map fst (combine latent old) = latent) by (apply fst_combine; auto).
    unfold mh_propose in EP. apply propose_keys in EP; [|rewrite EK; auto]. destruct EP as [K1 K2].
    rewrite EK in K2. intros x Hx.
    assert (HI : incl latent (map fst nd)) by (intros y Hy; apply K2; auto).
    assert (HLn : length (map fst nd) <= length latent).
    { rewrite map_length, EL, combine_length. lia. }
    apply (NoDup_length_incl HL HLn HI). apply K2. auto.
  - intros HI. destruct (mh_move log_prob proposal_log_prob latent proposals (d_data d)) with (temper := temper) (z := old) (d := d) as [a E]; auto.
    + repeat split; auto.
    + eauto.
Qed.

Lemma frozen : forall us tables z0 m, (forall i, well_posed latent proposals (d_data (fst (us i)))) ->
  length tables = length latent -> row_is tables 0 z0 -> (forall rows, In rows tables -> m <= length rows) ->
  exists s infos, updates (mh_kernel log_prob proposal_log_prob latent proposals) (initial tables tt) us 0 m = Some (s, infos) /\
    forall i z v, nth_error latent i = Some z -> ~ In z proposals -> nth_error z0 i = Some v ->
    forall j, j < m -> nth_error (nth i (m_tables s) []) j = Some v.
Proof.
  intros us tables z0 m WF HT H0 Hm.
  destruct (mh_chosen log_prob proposal_log_prob latent proposals us tables z0 m WF HT H0 Hm) as (s & infos & E & st & acc & [A0 A1] & LA & RW & _).
  exists s, infos. split; auto. intros i z v Hz Hn Hv j Hj.
  assert (G : forall q, q <= m -> nth_error (st q) i = Some v /\ length (st q) = length latent).
  { induction q as [|q IH]; intros Hq.
    - rewrite A0. split; auto. destruct H0. lia.
    - destruct IH as [I1 I2]; [lia|]. destruct (nth_error acc q) as [a|] eqn:Ea; [|apply nth_error_None in Ea; lia].
      rewrite (A1 q a Ea). destruct a; auto. unfold proposal_state. split.
      + pose proof (nth_combine latent (st q) i z v Hz I1) as C. rewrite nth_error_map, C. cbn.
        destruct (in_dec Nat.eq_dec z proposals); [tauto|auto].
      + rewrite map_length, combine_length. lia. }
  destruct (RW j Hj) as [R1 R2]. apply R2. apply (G (S j)). lia.
Qed.
End Build.

Section Gibbs.
Context {V : Type}.
Notation dict := (list (nat * V)).

Lemma first_missing_none : forall proposals keys, first_missing proposals keys = None <-> incl keys proposals.
Proof.
  intros ps keys. induction keys as [|z zs IH]; cbn.
  - split; auto. intros _ x [].
  - destruct (in_dec Nat.eq_dec z ps) as [H|H].
    + rewrite IH. split; [intros A x [<- |Hx]; auto|intros A x Hx; apply A; cbn; auto].
    + split; [discriminate|]. intros A. exfalso. apply H, A. cbn. auto.
Qed.
Lemma first_missing_some : forall proposals keys z, first_missing proposals keys = Some z <->
  exists a b, keys = a ++ z :: b /\ incl a proposals /\ ~ In z proposals.
Proof.
  intros ps keys z. induction keys as [|y ys IH]; cbn.
  - split; [discriminate|]. intros ([|] & b & E & _); discriminate.
  - destruct (in_dec Nat.eq_dec y ps) as [H|H].
    + rewrite IH. split.
      * intros (a & b & -> & A & B). exists (y :: a), b. split; auto. split; auto. intros x [<- |Hx]; auto.
      * intros ([|y' a] & b & E & A & B); cbn in E; inversion E; subst; [tauto|]. exists a, b. split; auto. split; auto.
        intros x Hx. apply A. cbn. auto.
    + split.
      * intros E. inversion E; subst. exists [], ys. split; auto. split; auto. intros x [].
      * intros ([|y' a] & b & E & A & B); cbn in E; inversion E; subst; auto. exfalso. apply H, A. cbn. auto.
Qed.
Lemma scan_keys_none : forall proposals blocks (fd : dict), Forall (fun bd => incl (fst bd) proposals) blocks ->
  scan_keys proposals fd blocks = (gibbs_scan fd blocks, None).
Proof.
  intros ps blocks. induction blocks as [|bd bs IH]; intros fd H; [reflexivity|]. inversion H; subst. cbn [scan_keys].
  rewrite (proj2 (first_missing_none ps (fst bd))) by auto. rewrite IH by auto. reflexivity.
Qed.
Lemma scan_keys_some : forall proposals blocks (fd fd' : dict) z, scan_keys proposals fd blocks = (fd', Some z) <->
  exists before b f after, blocks = before ++ (b, f) :: after /\ Forall (fun bd => incl (fst bd) proposals) before /\
    first_missing proposals b = Some z /\ fd' = gibbs_scan fd before.
Proof.
  intros ps blocks. induction blocks as [|[b f] bs IH]; intros fd fd' z; cbn [scan_keys].
  - split; [discriminate|]. intros ([|] & b & f & af & E & _); discriminate.
  - cbn [fst snd]. destruct (first_missing ps b) as [y|] eqn:E.
    + split.
      * intros X. inversion X; subst. exists [], b, f, bs. repeat split; auto.
      * intros ([|[b' f'] be] & b0 & f0 & af & E1 & F & M & ->); cbn in E1; inversion E1; subst.
        -- rewrite M in E. inversion E; subst. reflexivity.
        -- inversion F as [|? ? F1 F2]; subst. cbn in F1. apply first_missing_none in F1. congruence.
    + rewrite IH. split.
      * intros (be & b0 & f0 & af & -> & F & M & ->). exists ((b, f) :: be), b0, f0, af. repeat split; auto.
        constructor; auto. cbn. apply first_missing_none; auto.
      * intros ([|[b' f'] be] & b0 & f0 & af & E1 & F & M & ->); cbn in E1; inversion E1; subst; [congruence|].
        inversion F; subst. exists be, b0, f0, af. repeat split; auto.
Qed.

Lemma gibbs_key_error : forall latent proposals dt (s s' : mstate V dict) d late z,
  gibbs_try latent proposals dt s d late = Some (s', Some z) <->
  exists rows before b f after b1 b2, gather_all (m_tables s) (m_t s - 1) = Some rows /\
    gd_blocks d = before ++ (b, f) :: after /\ Forall (fun bd => incl (fst bd) proposals) before /\
    b = b1 ++ z :: b2 /\ incl b1 proposals /\ ~ In z proposals /\
    s' = mkm (m_tables s) (gibbs_scan (gibbs_start latent dt (m_extra s) rows d) before) (m_t s) (m_accept s).
Proof.
  intros latent ps dt s s' d late z. unfold gibbs_try. destruct (gather_all _ _) as [rows|].
  2:{ split; [discriminate|]. intros (rows & _ & _ & _ & _ & _ & _ & E & _). discriminate. }
  destruct (scan_keys ps _ (gd_blocks d)) as [self [y|]] eqn:E.
  - pose proof E as E0. apply scan_keys_some in E. destruct E as (be & b & f & af & Eb & F & M & ->). split.
    + intros X. inversion X; subst. apply first_missing_some in M. destruct M as (b1 & b2 & Ebb & A & B).
      exists rows, be, b, f, af, b1, b2. repeat split; auto.
    + intros (rows' & be' & b' & f' & af' & b1 & b2 & R & Eb' & F' & Ebb & A & B & ->). inversion R; subst rows'.
      assert (M' : scan_keys ps (gibbs_start latent dt (m_extra s) rows d) (gd_blocks d) =
                   (gibbs_scan (gibbs_start latent dt (m_extra s) rows d) be', Some z)).
      { apply scan_keys_some. exists be', b', f', af'. repeat split; auto. apply first_missing_some. exists b1, b2. auto. }
      rewrite M' in E0. inversion E0. subst. auto.
  - split.
    + destruct (update _ _ _ _) as [[[? ?] ?]|]; discriminate.
    + intros (rows' & be' & b' & f' & af' & b1 & b2 & R & Eb' & F' & Ebb & A & B & ->). inversion R; subst rows'.
      assert (M' : scan_keys ps (gibbs_start latent dt (m_extra s) rows d) (gd_blocks d) =
                   (gibbs_scan (gibbs_start latent dt (m_extra s) rows d) be', Some z)).
      { apply scan_keys_some. exists be', b', f', af'. repeat split; auto. apply first_missing_some. exists b1, b2. auto. }
      congruence.
Qed.

Lemma gibbs_no_error : forall latent proposals dt (s : mstate V dict) d late, Forall (fun bd => incl (fst bd) proposals) (gd_blocks d) ->
  gibbs_try latent proposals dt s d late =
  match update (gibbs_kernel latent dt) s d late with Some (s', _, _) => Some (s', None) | None => None end.
Proof.
  intros latent ps dt s d late H. unfold gibbs_try.
  destruct (gather_all (m_tables s) (m_t s - 1)) eqn:E.
  - rewrite scan_keys_none by auto. auto.
  - unfold update, train. rewrite E. auto.
Qed.
End Gibbs.

Lemma gibbs_builds : forall latent proposals,
  (gibbs_build latent proposals = None <-> incl latent proposals) /\
  (forall z, gibbs_build latent proposals = Some z -> In z latent /\ ~ In z proposals).
Proof.
  intros latent ps. split; [apply first_missing_none|]. intros z H. apply first_missing_some in H.
  destruct H as (a & b & -> & _ & H). split; auto. apply in_or_app. cbn. auto.
Qed.
Lemma gibbs_after_build : forall {V} latent proposals dt (s : mstate V (list (nat * V))) d late,
  gibbs_build latent proposals = None -> Forall (fun bd => incl (fst bd) latent) (gd_blocks d) ->
  gibbs_try latent proposals dt s d late =
  match update (gibbs_kernel latent dt) s d late with Some (s', _, _) => Some (s', None) | None => None end.
Proof.
  intros V latent ps dt s d late H HB. apply gibbs_no_error. apply first_missing_none in H.
  eapply Forall_impl; [|exact HB]. intros bd Hb x Hx. auto.
Qed.

Definition flat_model : nat -> list (nat * bool) -> bool -> ext := fun _ _ _ => Fin 0%R.
Lemma covers_refuted : exists (log_prob proposal_log_prob : nat -> list (nat * bool) -> bool -> ext) latent proposals,
  NoDup latent /\ log_densities log_prob proposal_log_prob /\
  (forall z z', length z = 2 -> length z' = 2 -> joint log_prob latent [] z = joint log_prob latent [] z' /\ (0 < joint log_prob latent [] z)%R) /\
  forall us m, (forall i, d_data (fst (us i)) = []) ->
  exists s infos, updates (mh_kernel log_prob proposal_log_prob latent proposals)
      (initial [repeat false m; repeat false m] tt) us 0 m = Some (s, infos) /\
    forall j, j < m -> nth_error (nth 1 (m_tables s) []) j = Some false.
Proof.
  exists flat_model, flat_model, [0; 1], [0]. split; [repeat constructor; cbn; intuition discriminate|].
  split. { split; intros; right; unfold flat_model; eauto. }
  split.
  { intros z z' Hz Hz'. destruct z as [|a [|b [|]]]; try discriminate. destruct z' as [|a' [|b' [|]]]; try discriminate.
    unfold joint, flat_model. simpl. rewrite exp_0. split; lra. }
  intros us m Hd. destruct m as [|m].
  - do 2 eexists. split; [reflexivity|]. intros j Hj. lia.
  - destruct (frozen flat_model flat_model [0; 1] [0] us [repeat false (S m); repeat false (S m)] [false; false] (S m)) as (s & infos & E & H).
    + intros i. rewrite Hd. repeat split; cbn; auto.
      * repeat constructor; cbn; intuition discriminate.
      * repeat constructor; cbn; intuition.
      * intros x [<-|[]]. cbn. auto.
      * constructor.
    + reflexivity.
    + split; [reflexivity|]. intros [|[|i]] v Hv; cbn in Hv; inversion Hv; subst; try reflexivity. destruct i; discriminate.
    + intros rows [<-|[<-|[]]]; rewrite repeat_length; auto.
    + exists s, infos. split; [exact E|]. intros j Hj. apply (H 1 1 false); auto. cbn. intuition discriminate.
Qed.
Lemma keys_example : let lp := fun (_ : nat) (_ : list (nat * bool)) (_ : bool) => Fin 0%R in
  let d := mkdraws [(2, true)] (fun _ _ => true) (1 / 2)%R in
  (exists r, mh_sample lp lp [0; 1] [0] (fun r => r) [false; false] d = Some r) /\
  ~ (exists r, mh_sample lp lp [0; 1] [0; 1; 2] (fun r => r) [false; false] d = Some r) /\
  gibbs_build [0; 1] [0] = Some 1 /\ gibbs_build [0; 1] [0; 1; 2] = None.
Proof.
  intros lp d. assert (N2 : NoDup [0; 1]) by (repeat constructor; cbn; intuition discriminate).
  assert (HX : forall k, In k [0; 1] -> ~ In k (map fst (d_data d))) by (cbn; intros k [<-|[<-|[]]] [A|[]]; discriminate).
  split; [|split; [|split; reflexivity]].
  - apply (builds lp lp [0; 1] [0] (fun r => r) [false; false] d); auto; try (repeat constructor; cbn; intuition discriminate).
    intros x [<-|[]]. cbn. auto.
  - intros H. apply (builds lp lp [0; 1] [0; 1; 2] (fun r => r) [false; false] d) in H; auto; try (repeat constructor; cbn; intuition discriminate).
    specialize (H 2). cbn in H. intuition discriminate.
Qed.
