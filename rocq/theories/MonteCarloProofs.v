From Coq Require Import List Arith Bool Reals Lia Lra.
From Verif Require Import Ext MonteCarlo MonteCarloSpec.
Import ListNotations.

Section P.
Context {V X U : Type}.
Notation kernel := (kernel V X U).
Notation mstate := (mstate V X).

Lemma updates_snoc : forall (k : kernel) us n s i,
  updates k s us i (S n) =
  match updates k s us i n with
  | None => None
  | Some (s', infos) =>
      match update k s' (fst (us (i + n))) (snd (us (i + n))) with
      | None => None
      | Some (s'', t, rate) => Some (s'', infos ++ [(t, rate)])
      end
  end.
Proof.
  intros k us. induction n as [|n IH]; intros s i.
  - cbn [updates]. rewrite Nat.add_0_r. destruct (update k s _ _) as [[[s' t] r]|]; auto.
  - cbn [updates]. cbn [updates] in IH. destruct (update k s _ _) as [[[s' t] r]|] eqn:E; auto.
    rewrite (IH s' (S i)). replace (S i + n) with (i + S n) by lia.
    destruct (updates k s' us (S i) n) as [[s1 infos]|]; auto.
    destruct (update k s1 _ _) as [[[s2 t2] r2]|]; auto.
Qed.

Lemma scatter_update_some : forall (rows : list V) i v, i < length rows ->
  exists rows', scatter_update rows i v = Some rows' /\ length rows' = length rows /\
    nth_error rows' i = Some v /\ forall j, j <> i -> nth_error rows' j = nth_error rows j.
Proof.
  intros rows i v Hi. unfold scatter_update. destruct (Nat.ltb_spec i (length rows)); [|lia].
  eexists. split; [reflexivity|]. split; [|split].
  - rewrite app_length. cbn [length]. rewrite firstn_length, skipn_length. lia.
  - rewrite nth_error_app2; rewrite firstn_length; [|lia]. replace (i - Nat.min i (length rows)) with 0 by lia. auto.
  - intros j Hj. destruct (Nat.lt_ge_cases j i).
    + rewrite nth_error_app1 by (rewrite firstn_length; lia). rewrite <- (firstn_skipn i rows) at 2.
      rewrite nth_error_app1; auto. rewrite firstn_length. lia.
    + rewrite nth_error_app2 by (rewrite firstn_length; lia). rewrite firstn_length.
      replace (j - Nat.min i (length rows)) with (S (j - S i)) by lia. cbn [nth_error].
      rewrite <- (firstn_skipn (S i) rows) at 2. rewrite nth_error_app2; rewrite firstn_length; [|lia].
      f_equal. lia.
Qed.

Lemma scatter_all_some : forall (tables : list (list V)) i vs, length vs = length tables ->
  (forall rows, In rows tables -> i < length rows) ->
  exists tables', scatter_all tables i vs = Some tables' /\ length tables' = length tables /\
    (forall a, length (nth a tables' []) = length (nth a tables [])) /\
    (forall a v, nth_error vs a = Some v -> nth_error (nth a tables' []) i = Some v) /\
    (forall a j, j <> i -> nth_error (nth a tables' []) j = nth_error (nth a tables []) j).
Proof.
  induction tables as [|rows ts IH]; intros i [|v vs] Hl Hi; simpl in Hl; try lia.
  - exists []. simpl. split; auto. split; auto. split; [intros [|a]; auto|].
    split; [intros [|a] v E; discriminate|]. intros [|a] j _; auto.
  - destruct (scatter_update_some rows i v) as (r & E1 & L1 & N1 & R1); [apply Hi; simpl; auto|].
    destruct (IH i vs) as (rs & E2 & L2 & A2 & N2 & R2); [lia|intros; apply Hi; simpl; auto|].
    exists (r :: rs). simpl. rewrite E1, E2. split; auto. split; [simpl; lia|]. split; [|split].
    + intros [|a]; simpl; auto.
    + intros [|a] w E; simpl in *; [inversion E; subst; auto|auto].
    + intros [|a] j Hj; simpl; auto.
Qed.

Lemma scatter_all_none : forall (tables : list (list V)) i vs rows, In rows tables -> length rows <= i ->
  scatter_all tables i vs = None.
Proof.
  induction tables as [|r ts IH]; intros i vs rows Hin Hl; [destruct Hin|].
  destruct vs as [|v vs]; auto. simpl. destruct Hin as [->|Hin].
  - unfold scatter_update. destruct (Nat.ltb_spec i (length rows)); [lia|auto].
  - rewrite (IH i vs rows Hin Hl). destruct (scatter_update r i v); auto.
Qed.

Lemma gather_row : forall (tables : list (list V)) i z, row_is tables i z -> gather_all tables i = Some z.
Proof.
  unfold row_is. induction tables as [|rows ts IH]; intros i [|v z] [Hl H]; simpl in Hl; try lia; auto.
  simpl. pose proof (H 0 v eq_refl) as H0. simpl in H0. unfold gather. rewrite H0.
  rewrite (IH i z); auto. split; [lia|]. intros a w E. exact (H (S a) w E).
Qed.

Lemma train_t : forall (k : kernel) (s s' : mstate) u, train k s u = Some s' -> m_t s' = m_t s.
Proof.
  intros k s s' u. unfold train. destruct (gather_all _ _); [|discriminate].
  destruct (k _ _ _ _) as [[[x z] a]|]; [|discriminate]. destruct (scatter_all _ _ _); [|discriminate].
  intros E; inversion E; auto.
Qed.

Lemma accepted_snoc : forall acc a, accepted (acc ++ [a]) = accepted acc + if a then 1 else 0.
Proof. intros acc a. unfold accepted. rewrite count_occ_app. destruct a; auto. Qed.

(** The rates: either n_accept before or after, over t before. *)
Definition rate_of (acc : list bool) (j : nat) (late : bool) : ext :=
  n_accept_over_t (accepted (firstn (if late then S j else j) acc)) j.

Definition after (k : kernel) tables x us n z0 (s : mstate) (infos : list (nat * ext)) : Prop :=
  m_t s = n /\ map fst infos = seq 1 n /\ rest_unchanged tables (m_tables s) n /\
  (forall j, j < n -> exists x' z acc, chain k x z0 us j x' z acc /\ row_is (m_tables s) j z) /\
  exists acc, length acc = n /\ m_accept s = accepted acc /\
    (n = 0 -> m_extra s = x) /\
    (forall j, S j = n -> exists z, chain k x z0 us j (m_extra s) z acc) /\
    (forall j, j < n -> nth_error (map snd infos) j = Some (rate_of acc j (snd (us j)))).

Lemma chain_P : forall (k : kernel) P n us x z0, proper k P n us -> P x z0 ->
  forall j x' z' acc, chain k x z0 us j x' z' acc -> P x' z'.
Proof.
  intros k P n us x z0 [_ Hk] H0. induction 1 as [x' z' a E|j x1 z1 acc x' z' a C IH E].
  - destruct (Hk 0 x z0 H0) as (x2 & z2 & a2 & E2 & H). rewrite E in E2. inversion E2; subst. auto.
  - destruct (Hk (S j) x1 z1 IH) as (x2 & z2 & a2 & E2 & H). rewrite E in E2. inversion E2; subst. auto.
Qed.

Lemma updates_after : forall (k : kernel) P tables x us z0 n, proper k P (length tables) us ->
  (0 < n -> row_is tables 0 z0 /\ P x z0) ->
  (forall rows, In rows tables -> n <= length rows) ->
  exists s infos, updates k (initial tables x) us 0 n = Some (s, infos) /\ after k tables x us n z0 s infos.
Proof.
  intros k P tables x us z0 n Hk. induction n as [|n IH]; intros H0 Hn.
  - exists (initial tables x), []. split; [reflexivity|]. unfold after. simpl.
    split; auto. split; auto. split; [split; [auto|intros i; auto]|]. split; [intros j Hj; lia|].
    exists []. simpl. repeat split; auto; intros; lia.
  - destruct IH as (s & infos & E & Ht & Hi & (HL & HR) & Hrow & acc & Hacc & Hna & Hx0 & Hx & Hrate).
    { intros; apply H0; lia. } { intros rows Hr. specialize (Hn rows Hr). lia. }
    rewrite updates_snoc, E. change (0 + n) with n.
    assert (Hold : exists z, row_is (m_tables s) (n - 1) z /\ 
      (n = 0 -> z = z0) /\ forall j, S j = n -> chain k x z0 us j (m_extra s) z acc).
    { destruct n as [|m].
      - exists z0. destruct (H0 ltac:(lia)) as [[A B] _]. split; [|split; [auto|intros; lia]]. split; [lia|].
        intros i v Ev. destruct (HR i) as [_ HRi]. rewrite HRi by lia. auto.
      - destruct (Hrow m ltac:(lia)) as (x' & z & acc' & Hc & Hr). exists z.
        replace (S m - 1) with m by lia. split; auto. split; [lia|]. intros j Hj. assert (j = m) by lia; subst j.
        destruct (Hx m eq_refl) as (z' & Hc').
        assert (D : forall j x1 z1 a1 x2 z2 a2, chain k x z0 us j x1 z1 a1 -> chain k x z0 us j x2 z2 a2 -> x1 = x2 /\ z1 = z2 /\ a1 = a2).
        { clear. induction j; intros x1 z1 a1 x2 z2 a2 H1 H2; inversion H1; inversion H2; subst.
          - match goal with A : k _ _ _ _ = _, B : k _ _ _ _ = _ |- _ => rewrite A in B; inversion B end. auto.
          - match goal with A : chain k x z0 us j _ _ _, B : chain k x z0 us j _ _ _ |- _ =>
              destruct (IHj _ _ _ _ _ _ A B) as (-> & -> & ->) end.
            match goal with A : k _ _ _ _ = Some _, B : k _ _ _ _ = Some _ |- _ => rewrite A in B; inversion B end. auto. }
        destruct (D _ _ _ _ _ _ _ Hc Hc') as (-> & -> & ->). auto. }
    destruct Hold as (z & Hz & Hz0 & Hch).
    unfold update, train. rewrite Ht. rewrite (gather_row _ _ _ Hz).
    destruct (H0 ltac:(lia)) as [_ HP0].
    destruct (proj2 Hk n (m_extra s) z) as (x' & z' & a & Ek & HP).
    { destruct n as [|m]; [rewrite (Hz0 eq_refl), (Hx0 eq_refl); auto|]. eapply (chain_P k P _ us x z0 Hk HP0); apply Hch; auto. }
    apply (proj1 Hk) in HP. rename HP into Hlen.
    rewrite Ek.
    assert (Hin : forall rows, In rows (m_tables s) -> n < length rows).
    { intros rows Hr. destruct (In_nth _ _ [] Hr) as (i & Hil & <-). destruct (HR i) as [Hli _].
      rewrite <- Hli. specialize (Hn (nth i tables [])). apply Hn. apply nth_In. lia. }
    destruct (scatter_all_some (m_tables s) n z') as (tables' & Es & L1 & L2 & N1 & N2); [lia|auto|].
    rewrite Es. simpl. eexists. eexists. split; [reflexivity|]. unfold after. simpl. split; auto. split.
    { rewrite map_app, Hi. change (1 :: seq 2 n) with (seq 1 (S n)). rewrite seq_S. auto. }
    assert (Hchain : chain k x z0 us n x' z' (acc ++ [a])).
    { destruct n as [|m].
      - destruct acc; [|discriminate]. simpl. constructor. rewrite <- (Hx0 eq_refl), <- (Hz0 eq_refl). auto.
      - econstructor; [apply Hch; auto|]. auto. }
    split; [|split].
    + split; [lia|]. intros i. rewrite L2. destruct (HR i) as [A B]. split; auto. intros j Hj.
      rewrite N2 by lia. apply B. lia.
    + intros j Hj. destruct (Nat.eq_dec j n) as [->|Hne].
      * exists x', z', (acc ++ [a]). split; auto. split; [lia|auto].
      * destruct (Hrow j ltac:(lia)) as (x1 & z1 & acc1 & C1 & [R1 R2]). exists x1, z1, acc1. split; auto.
        split; [lia|]. intros i v Ev. rewrite N2 by auto. auto.
    + exists (acc ++ [a]). split; [rewrite app_length; simpl; lia|]. split; [rewrite accepted_snoc; lia|].
      split; [lia|]. split.
      { intros j Hj. assert (j = n) by lia; subst j. eauto. }
      intros j Hj. rewrite map_app. destruct (Nat.eq_dec j n) as [->|Hne].
      * rewrite nth_error_app2; rewrite map_length, <- (map_length fst infos), Hi, seq_length; [|lia].
        rewrite Nat.sub_diag. simpl. f_equal. unfold rate_of. rewrite Hna.
        destruct (snd (us n)).
        -- rewrite firstn_all2 by (rewrite app_length; simpl; lia). rewrite accepted_snoc. auto.
        -- rewrite firstn_app. rewrite firstn_all2 by lia. rewrite Hacc, Nat.sub_diag. simpl. rewrite app_nil_r. auto.
      * rewrite nth_error_app1; [|rewrite map_length, <- (map_length fst infos), Hi, seq_length; lia].
        rewrite Hrate by lia. f_equal. unfold rate_of. rewrite firstn_app.
        replace ((if snd (us j) then S j else j) - length acc) with 0 by (destruct (snd (us j)); lia).
        simpl. rewrite app_nil_r. auto.
Qed.

Lemma n_iter_min : forall (tables : list (list V)), tables <> [] ->
  exists n, n_iter tables = Some n /\ (forall rows, In rows tables -> n <= length rows) /\
    exists rows, In rows tables /\ length rows = n.
Proof.
  intros [|rows ts] H; [congruence|]. clear H. simpl. eexists. split; [reflexivity|].
  assert (G : forall (ts : list (list V)) m, let n := fold_left (fun m r => Nat.min m (length r)) ts m in
    n <= m /\ (forall r, In r ts -> n <= length r) /\ (n = m \/ exists r, In r ts /\ length r = n)).
  { clear. induction ts as [|r ts IH]; intros m; simpl; [split; [lia|]; split; [tauto|auto]|].
    destruct (IH (Nat.min m (length r))) as (A & B & C). split; [lia|]. split.
    - intros r' [<-|H]; [lia|auto].
    - destruct C as [C|(r' & C1 & C2)]; [|eauto]. destruct (Nat.min_dec m (length r)) as [D|D].
      + left; lia.
      + right. exists r. split; auto. lia. }
  destruct (G ts (length rows)) as (A & B & C). split.
  - intros r [<-|H]; auto.
  - destruct C as [C|(r & C1 & C2)]; [exists rows; auto|exists r; auto].
Qed.

Lemma run_after : forall (k : kernel) P tables x us z0, proper k P (length tables) us -> tables <> [] ->
  ((forall rows, In rows tables -> rows <> []) -> row_is tables 0 z0 /\ P x z0) ->
  exists s infos n, run k tables x us = Some (s, infos) /\
    (forall rows, In rows tables -> n <= length rows) /\ (exists rows, In rows tables /\ length rows = n) /\
    after k tables x us n z0 s infos.
Proof.
  intros k P tables x us z0 Hk Hne H0. destruct (n_iter_min tables Hne) as (n & E & A & B).
  destruct (updates_after k P tables x us z0 n Hk) as (s & infos & E2 & H); auto.
  { intros Hn. apply H0. intros rows Hr ->. specialize (A [] Hr). simpl in A. lia. }
  exists s, infos, n. unfold run. rewrite E. auto.
Qed.

Lemma updates_t : forall (k : kernel) us n s i s' infos, updates k s us i n = Some (s', infos) ->
  m_t s' = m_t s + n.
Proof.
  intros k us. induction n as [|n IH]; intros s i s' infos E.
  - simpl in E. inversion E; subst. lia.
  - cbn [updates] in E. unfold update in E. destruct (train k s _) as [s1|] eqn:E1; [|discriminate].
    destruct (updates k _ us (S i) n) as [[s2 inf]|] eqn:E2; [|discriminate]. inversion E; subst.
    apply IH in E2. simpl in E2. rewrite (train_t _ _ _ _ E1) in E2. lia.
Qed.

Lemma updates_lengths : forall (k : kernel) us n s i s' infos, updates k s us i n = Some (s', infos) ->
  map (@length V) (m_tables s') = map (@length V) (m_tables s).
Proof.
  intros k us. induction n as [|n IH]; intros s i s' infos E.
  - simpl in E. inversion E; subst. auto.
  - cbn [updates] in E. unfold update, train in E. destruct (gather_all _ _) as [old|]; [|discriminate].
    destruct (k _ _ _ _) as [[[x z] a]|]; [|discriminate].
    destruct (scatter_all _ _ _) as [ts|] eqn:Es; [|discriminate].
    destruct (updates k _ us (S i) n) as [[s2 inf]|] eqn:E2; [|discriminate]. inversion E; subst.
    apply IH in E2. rewrite E2. simpl. clear - Es. revert z ts Es.
    induction (m_tables s) as [|r t IHt]; intros [|v z] ts Es; cbn [scatter_all] in Es; try discriminate.
    + inversion Es; auto.
    + destruct (scatter_update r (m_t s) v) as [r'|] eqn:Eu; [|discriminate].
      destruct (scatter_all t _ z) as [rs|] eqn:Er; [|discriminate]. injection Es as <-. cbn [map].
      rewrite (IHt _ _ Er). f_equal.
      assert (Hlt : m_t s < length r).
      { unfold scatter_update in Eu. destruct (Nat.ltb_spec (m_t s) (length r)); [auto|discriminate]. }
      destruct (scatter_update_some r (m_t s) v Hlt) as (r'' & E1 & E2 & _). rewrite Eu in E1. inversion E1; subst; auto.
Qed.

Lemma past_end : forall (k : kernel) tables x us n rows, In rows tables -> length rows < n ->
  updates k (initial tables x) us 0 n = None.
Proof.
  intros k tables x us n rows Hin. induction n as [|n IH]; intros Hn; [lia|].
  rewrite updates_snoc. destruct (Nat.eq_dec n (length rows)) as [->|Hne].
  - destruct (updates k (initial tables x) us 0 (length rows)) as [[s infos]|] eqn:E; auto.
    pose proof (updates_t _ _ _ _ _ _ _ E) as Ht. simpl in Ht.
    assert (exists r, In r (m_tables s) /\ length r = length rows) as (r & Hr & Hl).
    { pose proof (updates_lengths _ _ _ _ _ _ _ E) as EL. simpl in EL.
      assert (In (length rows) (map (@length V) (m_tables s))) as H by (rewrite EL; apply in_map; auto).
      apply in_map_iff in H. destruct H as (r & H1 & H2). eauto. }
    unfold update, train. destruct (gather_all _ _) as [old|]; auto. destruct (k _ _ _ _) as [[[x' z] a]|]; auto.
    rewrite (scatter_all_none _ _ _ r Hr); auto. lia.
  - rewrite IH by lia. auto.
Qed.

Lemma chain_len : forall (k : kernel) x z0 us j x' z acc, chain k x z0 us j x' z acc -> length acc = S j.
Proof. induction 1; auto. rewrite app_length. simpl. lia. Qed.

(** ** Rates *)
Lemma accepted_le : forall acc, accepted acc <= length acc.
Proof.
  unfold accepted. induction acc as [|a l IH]; simpl; auto. destruct (bool_dec a true); lia.
Qed.

Local Open Scope R_scope.

Lemma over_zero : forall n, n_accept_over_t n 0 = NaN \/ n_accept_over_t n 0 = PInf.
Proof.
  intros n. unfold n_accept_over_t, ediv. simpl. destruct (Req_EM_T 0 0) as [_|N]; [|lra].
  unfold inf_times. destruct (Rlt_dec 0 (INR n)); auto. destruct (Rlt_dec (INR n) 0) as [H|]; auto.
  pose proof (pos_INR n). lra.
Qed.

Lemma over_pos : forall n t, (0 < t)%nat -> n_accept_over_t n t = Fin (INR n / INR t).
Proof.
  intros n t Ht. unfold n_accept_over_t, ediv. destruct (Req_EM_T (INR t) 0) as [E|]; auto.
  apply lt_INR in Ht. simpl in Ht. lra.
Qed.
End P.

(** ** In the form of the property file *)
Lemma updates_fill : forall {V X U} (k : kernel V X U) P tables x us z0 n, proper k P (length tables) us ->
  (0 < n -> row_is tables 0 z0 /\ P x z0) -> (forall rows, In rows tables -> n <= length rows) ->
  exists s infos, updates k (initial tables x) us 0 n = Some (s, infos) /\
    m_t s = n /\ map fst infos = seq 1 n /\ rest_unchanged tables (m_tables s) n /\
    forall j, j < n -> exists x' z acc, chain k x z0 us j x' z acc /\ row_is (m_tables s) j z.
Proof.
  intros. destruct (updates_after k P tables x us z0 n) as (s & infos & E & A & B & C & D & _); auto.
  exists s, infos. auto.
Qed.

Lemma run_fill : forall {V X U} (k : kernel V X U) P tables x us z0, proper k P (length tables) us -> tables <> [] ->
  ((forall rows, In rows tables -> rows <> []) -> row_is tables 0 z0 /\ P x z0) ->
  exists s infos n, run k tables x us = Some (s, infos) /\
    (forall rows, In rows tables -> n <= length rows) /\ (exists rows, In rows tables /\ length rows = n) /\
    m_t s = n /\ map fst infos = seq 1 n /\ rest_unchanged tables (m_tables s) n /\
    forall j, j < n -> exists x' z acc, chain k x z0 us j x' z acc /\ row_is (m_tables s) j z.
Proof.
  intros V X U k P tables x us z0 Hk Hne H0.
  destruct (run_after k P tables x us z0 Hk Hne H0) as (s & infos & n & E & A & B & C & D & F & G & _).
  exists s, infos, n. repeat (split; auto).
Qed.

Lemma nth_rate : forall (infos : list (nat * ext)) j r, nth_error (map snd infos) j = Some r ->
  exists t, nth_error infos j = Some (t, r).
Proof.
  intros infos j r H. rewrite nth_error_map in H. destruct (nth_error infos j) as [[t r']|]; [|discriminate].
  simpl in H. inversion H; subst. eauto.
Qed.
Lemma nth_iteration : forall (infos : list (nat * ext)) n j t r, map fst infos = seq 1 n ->
  nth_error infos j = Some (t, r) -> t = S j.
Proof.
  intros infos n j t r H E. pose proof (map_nth_error fst _ _ E) as E2. rewrite H in E2.
  assert (Hj : j < n). { rewrite <- (seq_length n 1). apply nth_error_Some. congruence. }
  rewrite (nth_error_nth' _ 0) in E2 by (rewrite seq_length; auto). rewrite seq_nth in E2 by auto. simpl in E2. inversion E2; auto.
Qed.

Lemma first_rate : forall {V X U} (k : kernel V X U) P tables x us z0 n, proper k P (length tables) us ->
  0 < n -> row_is tables 0 z0 -> P x z0 -> (forall rows, In rows tables -> n <= length rows) ->
  exists s infos, updates k (initial tables x) us 0 n = Some (s, infos) /\
    (nth_error infos 0 = Some (1, NaN) \/ nth_error infos 0 = Some (1, PInf)).
Proof.
  intros V X U k P tables x us z0 n Hk Hn Hr HP Hl.
  destruct (updates_after k P tables x us z0 n) as (s & infos & E & A & B & C & D & acc & _ & _ & _ & _ & F); auto.
  exists s, infos. split; auto. destruct (nth_rate _ _ _ (F 0 Hn)) as (t & Et).
  pose proof (nth_iteration _ _ _ _ _ B Et). subst t. rewrite Et.
  unfold rate_of. destruct (over_zero (accepted (firstn (if snd (us 0) then 1 else 0) acc))) as [->| ->]; auto.
Qed.

Lemma later_rates : forall {V X U} (k : kernel V X U) P tables x us z0 n, proper k P (length tables) us ->
  (0 < n -> row_is tables 0 z0 /\ P x z0) -> (forall rows, In rows tables -> n <= length rows) ->
  exists s infos, updates k (initial tables x) us 0 n = Some (s, infos) /\
    exists acc, length acc = n /\ (forall j, S j = n -> exists z, chain k x z0 us j (m_extra s) z acc) /\
    forall j, 1 <= j < n -> exists q, nth_error infos j = Some (S j, Fin q) /\
      (q = INR (accepted (firstn (if snd (us j) then S j else j) acc)) / INR j)%R /\
      (snd (us j) = false -> (0 <= q <= 1)%R) /\ (0 <= q <= INR (S j) / INR j)%R.
Proof.
  intros V X U k P tables x us z0 n Hk H0 Hl.
  destruct (updates_after k P tables x us z0 n) as (s & infos & E & A & B & C & D & acc & La & _ & _ & Hc & F); auto.
  exists s, infos. split; auto. exists acc. split; auto. split; auto. intros j Hj.
  destruct (nth_rate _ _ _ (F j ltac:(lia))) as (t & Et). pose proof (nth_iteration _ _ _ _ _ B Et). subst t.
  unfold rate_of in Et. rewrite over_pos in Et by lia. eexists. split; [exact Et|]. split; [reflexivity|].
  assert (Hj0 : (0 < INR j)%R). { replace 0%R with (INR 0) by auto. apply lt_INR. lia. }
  assert (Hi : (0 < / INR j)%R) by (apply Rinv_0_lt_compat; auto).
  assert (G : forall m, m <= n -> (0 <= INR (accepted (firstn m acc)) / INR j <= INR m / INR j)%R).
  { intros m Hm. pose proof (pos_INR (accepted (firstn m acc))). pose proof (accepted_le (firstn m acc)) as L.
    rewrite firstn_length, La in L. assert (L2 : accepted (firstn m acc) <= m) by lia. apply le_INR in L2. unfold Rdiv. split.
    - apply Rmult_le_pos; lra. - apply Rmult_le_compat_r; lra. }
  split.
  - intros ->. specialize (G j ltac:(lia)). replace (INR j / INR j)%R with 1%R in G by (field; lra). auto.
  - destruct (snd (us j)).
    + apply G. lia.
    + specialize (G j ltac:(lia)). assert (INR j <= INR (S j))%R by (apply le_INR; lia).
      assert (INR j / INR j <= INR (S j) / INR j)%R by (apply Rmult_le_compat_r; lra). lra.
Qed.
