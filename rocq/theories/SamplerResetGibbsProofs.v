(** * Proofs for C95: Gibbs. *)
From Coq Require Import List Arith Bool Lia.
From Verif Require Import Ext Feed MonteCarlo MonteCarloSpec MonteCarloProofs Gibbs SamplerReset SamplerResetSpec SamplerResetProofs.
Import ListNotations.
Set Bullet Behavior "Strict Subproofs".

Section Proofs.
Context {V : Type}.
Notation dict := (list (nat * V)).

Lemma set_some : forall (d : dict) k v, dict_set d k v <> [].
Proof. intros [|[k' v'] d] k v; simpl; [discriminate|]. destruct (Nat.eqb k' k); discriminate. Qed.

Lemma fold_some : forall {A} (f : dict -> A -> dict), (forall d a, d <> [] -> f d a <> []) ->
  forall l d, d <> [] -> fold_left f l d <> [].
Proof. intros A f H l. induction l as [|a l IH]; intros d Hd; simpl; auto. Qed.

Lemma latent_some : forall (l : dict) d, l <> [] -> init_latent l d <> [].
Proof.
  assert (G : forall (l : dict) d, d <> [] -> init_latent l d <> []).
  { induction l as [|[z v] l IH]; intros d H; simpl; auto. apply IH, set_some. }
  intros [|[z v] l] d H; [congruence|]. simpl. apply G, set_some.
Qed.

Lemma start_some : forall latent dt (self : dict) rows d, self <> [] \/ combine latent rows <> [] ->
  gibbs_start latent dt self rows d <> [].
Proof.
  intros latent dt self rows d H. unfold gibbs_start, dict_update. apply fold_some; [intros; apply set_some|].
  destruct self as [|x self]; [|discriminate]. destruct H as [H|H]; [congruence|].
  unfold init_data. apply fold_some; [|apply latent_some; auto].
  intros d0 [[k []] v] Hd; auto using set_some.
Qed.

Lemma scan_some : forall blocks (fd : dict), fd <> [] -> gibbs_scan fd blocks <> [].
Proof.
  intros blocks fd H. unfold gibbs_scan. apply fold_some; auto. intros d [b draw] Hd.
  unfold scan_block. apply fold_some; auto. intros; apply set_some.
Qed.

Lemma start_rows : forall latent dt (self : dict) rows rows' d, self <> [] ->
  gibbs_start latent dt self rows d = gibbs_start latent dt self rows' d.
Proof. intros latent dt [|x self] rows rows' d H; [congruence|]. reflexivity. Qed.

Definition step latent dt z0 (self : dict) (d : gibbs_draws V) : dict :=
  gibbs_scan (gibbs_start latent dt self z0 d) (gd_blocks d).

Definition ready z0 (s : mstate V dict) : Prop :=
  m_extra s <> [] \/ (gather_all (m_tables s) 0 = Some z0 /\ m_t s = 0).

Lemma updates_state : forall latent dt z0 us, combine latent z0 <> [] -> forall n i s s' infos, ready z0 s ->
  updates (gibbs_kernel latent dt) s us i n = Some (s', infos) ->
  ready z0 s' /\ m_extra s' = fold_left (step latent dt z0) (map (fun j => fst (us j)) (seq i n)) (m_extra s).
Proof.
  intros latent dt z0 us H0. induction n as [|n IH]; intros i s s' infos Hs E.
  - inversion E; subst. auto.
  - cbn [updates] in E. unfold update, train in E.
    destruct (gather_all (m_tables s) (m_t s - 1)) as [old|] eqn:Eg; [|discriminate].
    unfold gibbs_kernel in E at 1.
    destruct (scatter_all _ _ _) as [tables|] eqn:Et; [|discriminate].
    cbn [m_tables m_extra m_t m_accept] in E.
    destruct (updates _ _ us (S i) n) as [[s2 infos2]|] eqn:Eu; [|discriminate].
    inversion E; subst s2 infos; clear E.
    assert (Es : gibbs_scan (gibbs_start latent dt (m_extra s) old (fst (us i))) (gd_blocks (fst (us i))) =
      step latent dt z0 (m_extra s) (fst (us i))).
    { unfold step. f_equal. destruct Hs as [Hs|[Hg Ht]]; [apply start_rows; auto|].
      rewrite Ht in Eg. change (0 - 1) with 0 in Eg. rewrite Eg in Hg. inversion Hg; auto. }
    apply IH in Eu.
    + cbn [m_extra] in Eu. rewrite Es in Eu. exact Eu.
    + left. cbn [m_extra]. rewrite Es. unfold step. apply scan_some, start_some. destruct (m_extra s); [right; auto|left; discriminate].
Qed.

Definition all_draws (runs : list (nat * (nat -> gibbs_draws V * bool))) : list (gibbs_draws V) :=
  flat_map (fun r => map (fun j => fst (snd r j)) (seq 0 (fst r))) runs.

Lemma history_state : forall latent dt z0, combine latent z0 <> [] -> forall runs s s', ready z0 s ->
  history (gibbs_kernel latent dt) s runs = Some s' ->
  m_extra s' = fold_left (step latent dt z0) (all_draws runs) (m_extra s).
Proof.
  intros latent dt z0 H0. induction runs as [|[n us] runs IH]; intros s s' Hs E.
  - inversion E; subst; auto.
  - cbn [history] in E. destruct (updates _ s us 0 n) as [[s1 infos]|] eqn:Eu; [|discriminate].
    destruct (updates_state latent dt z0 us H0 n 0 s s1 infos Hs Eu) as [R1 X1].
    apply IH in E.
    + change (all_draws ((n, us) :: runs)) with (map (fun j => fst (us j)) (seq 0 n) ++ all_draws runs).
      rewrite fold_left_app, <- X1. exact E.
    + destruct R1 as [R1|[R1 R2]]; [left; auto|right; split; auto].
Qed.

Lemma gibbs_history : forall latent dt tables z0 (runs : list (nat * (nat -> gibbs_draws V * bool))),
  latent <> [] -> length tables = length latent -> row_is tables 0 z0 ->
  (forall n us rows, In (n, us) runs -> In rows tables -> n <= length rows) ->
  exists s, history (gibbs_kernel latent dt) (initial tables []) runs = Some s /\
    m_extra s = fold_left (fun self d => gibbs_scan (gibbs_start latent dt self z0 d) (gd_blocks d))
      (flat_map (fun r => map (fun j => fst (snd r j)) (seq 0 (fst r))) runs) [].
Proof.
  intros latent dt tables z0 runs Hl HL H0 Hn.
  destruct (history_fill (gibbs_kernel latent dt) (fun _ z => length z = length latent) tables [] z0 runs) as (s & E & _).
  - intros n us _. rewrite HL. split; auto. intros i x z _. do 3 eexists. split; [reflexivity|]. apply map_length.
  - auto.
  - exact H0.
  - destruct H0; lia.
  - exact Hn.
  - exists s. split; auto. apply (history_state latent dt z0) in E; auto.
    + destruct H0 as [A _]. destruct latent, z0; simpl in *; try congruence; try lia; discriminate.
    + right. split; [|reflexivity]. apply gather_row; auto.
Qed.
End Proofs.
