(** * Proofs for C95. *)
From Coquelicot Require Import Coquelicot.
From Coq Require Import Reals List Arith Bool Lia Lra.
From Verif Require Import Ext MonteCarlo MonteCarloSpec MonteCarloProofs Transform HMC SGLD.
From Verif Require Import SamplerReset SamplerResetSpec.
Import ListNotations.
Set Bullet Behavior "Strict Subproofs".
Local Open Scope nat_scope.

Section Proofs.
Context {V X U : Type}.
Implicit Types (k : kernel V X U) (runs : list (nat * (nat -> U * bool))).

Lemma history_snoc : forall k runs s n us, history k s (runs ++ [(n, us)]) =
  match history k s runs with None => None | Some s' =>
    match updates k s' us 0 n with None => None | Some (s'', _) => Some (reset s'') end end.
Proof.
  intros k. induction runs as [|[m us'] runs IH]; intros s n us; simpl.
  - destruct (updates k s us 0 n) as [[s'' i]|]; auto.
  - destruct (updates k s us' 0 m) as [[s'' i]|]; auto.
Qed.

Lemma row_kept : forall (t t' : list (list V)) n j z, rest_unchanged t t' n -> n <= j -> row_is t j z -> row_is t' j z.
Proof.
  intros t t' n j z [L R] H [A B]. split; [lia|]. intros i v E. destruct (R i) as [_ Q]. rewrite Q by lia. auto.
Qed.

Lemma rest_trans : forall (t t' t'' : list (list V)) n n' m, rest_unchanged t t' n -> rest_unchanged t' t'' n' ->
  n <= m -> n' <= m -> rest_unchanged t t'' m.
Proof.
  intros t t' t'' n n' m [L R] [L' R'] H H'. split; [lia|]. intros i. destruct (R i) as [A B], (R' i) as [A' B'].
  split; [lia|]. intros j Hj. rewrite B', B by lia. auto.
Qed.

Lemma history_rows : forall k P tables x z0 runs, (forall n us, In (n, us) runs -> proper k P (length tables) us) ->
  (forall x z x' z', P x z -> P x' z' -> P x z') -> row_is tables 0 z0 -> P x z0 ->
  (forall n us rows, In (n, us) runs -> In rows tables -> n <= length rows) ->
  exists s x1 z1, history k (initial tables x) runs = Some s /\ s = initial (m_tables s) x1 /\
    restarts k x z0 runs x1 z1 /\ P x1 z1 /\ row_is (m_tables s) 0 z1 /\
    (forall m, (forall n us, In (n, us) runs -> n <= m) -> rest_unchanged tables (m_tables s) m) /\
    (length tables = length (m_tables s) /\ forall i, length (nth i tables []) = length (nth i (m_tables s) [])) /\
    forall before n us later, runs = before ++ (n, us) :: later ->
      exists xb zb, restarts k x z0 before xb zb /\
        forall j, j < n -> (forall n' us', In (n', us') later -> n' <= j) ->
          exists x' z acc, chain k xb zb us j x' z acc /\ row_is (m_tables s) j z.
Proof.
  intros k P tables x z0 runs Hk Hsep H0 HP0 Hn. induction runs as [|[n us] runs IH] using rev_ind.
  - exists (initial tables x), x, z0. simpl. repeat split; auto; try apply H0; try constructor.
    intros [|? ?] n us later E; discriminate.
  - destruct IH as (s & x1 & z1 & E & Es & HR & HP & Hrow & Hrest & [HL HLi] & Hall).
    { intros m us' Hin. apply (Hk m us'). apply in_or_app; auto. }
    { intros m us' rows Hin. apply (Hn m us'). apply in_or_app; auto. }
    assert (Hlast : In (n, us) (runs ++ [(n, us)])) by (apply in_or_app; simpl; auto).
    destruct (updates_after k P (m_tables s) x1 us z1 n) as (s' & infos & E' & Ht & Hi & Hrest' & Hrows & acc & Hacc & Hna & Hx0 & Hx & _).
    { rewrite <- HL. apply (Hk n us Hlast). }
    { intros _. split; auto. }
    { intros rows Hr. destruct (In_nth _ _ [] Hr) as (i & Hil & <-). rewrite <- HLi.
      apply (Hn n us _ Hlast). apply nth_In. lia. }
    pose proof (Hk n us Hlast) as Hkn. rewrite HL in Hkn.
    assert (Hstart : exists x2 z2, restarts k x z0 (runs ++ [(n, us)]) x2 z2 /\ m_extra s' = x2 /\ P x2 z2 /\ row_is (m_tables s') 0 z2).
    { destruct n as [|n].
      - exists x1, z1. split; [constructor; auto|]. split; auto. split; auto. apply (row_kept _ _ 0 0 z1 Hrest'); auto.
      - destruct (Hrows 0 ltac:(lia)) as (xa & za & aa & Ca & Ra). destruct (Hx n eq_refl) as (zb & Cb).
        exists (m_extra s'), za. split; [econstructor; eauto|]. split; auto. split; auto.
        eapply Hsep; eapply (chain_P k P _ us x1 z1 Hkn HP); eauto. }
    destruct Hstart as (x2 & z2 & S1 & S2 & S3 & S4).
    exists (reset s'), x2, z2. split.
    { rewrite history_snoc, E. rewrite Es. rewrite E'. auto. }
    split; [unfold reset, initial; simpl; rewrite S2; auto|]. split; auto. split; auto. split; auto.
    change (m_tables (reset s')) with (m_tables s'). split; [|split].
    + intros m Hm. apply (rest_trans tables (m_tables s) (m_tables s') m n m); auto.
      * apply Hrest. intros n' us' Hin. apply (Hm n' us'). apply in_or_app; auto.
      * apply (Hm n us Hlast).
    + destruct Hrest' as [L' R']. split; [lia|]. intros i. rewrite HLi. apply R'.
    + intros before n1 us1 later Eq. destruct later as [|r later] using rev_ind.
      * apply app_inj_tail in Eq. destruct Eq as [<- Eq]. inversion Eq; subst n1 us1. exists x1, z1. split; auto.
      * clear IHlater. change (before ++ (n1, us1) :: later ++ [r]) with (before ++ ((n1, us1) :: later) ++ [r]) in Eq.
        rewrite app_assoc in Eq. apply app_inj_tail in Eq. destruct Eq as [Eq <-].
        destruct (Hall before n1 us1 later Eq) as (xb & zb & B1 & B2). exists xb, zb. split; auto.
        intros j Hj Hl. destruct (B2 j Hj) as (x' & z & acc' & C1 & C2).
        { intros n' us' Hin. apply (Hl n' us'). apply in_or_app; auto. }
        exists x', z, acc'. split; auto. apply (row_kept _ _ n j z Hrest'); auto.
        apply (Hl n us). apply in_or_app; simpl; auto.
Qed.

Lemma history_fill : forall k P tables x z0 runs, (forall n us, In (n, us) runs -> proper k P (length tables) us) ->
  (forall x z x' z', P x z -> P x' z' -> P x z') -> row_is tables 0 z0 -> P x z0 ->
  (forall n us rows, In (n, us) runs -> In rows tables -> n <= length rows) ->
  exists s, history k (initial tables x) runs = Some s /\ m_t s = 0 /\ m_accept s = 0 /\
    (forall m, (forall n us, In (n, us) runs -> n <= m) -> rest_unchanged tables (m_tables s) m) /\
    forall before n us later, runs = before ++ (n, us) :: later ->
      exists xb zb, restarts k x z0 before xb zb /\
        forall j, j < n -> (forall n' us', In (n', us') later -> n' <= j) ->
          exists x' z acc, chain k xb zb us j x' z acc /\ row_is (m_tables s) j z.
Proof.
  intros k P tables x z0 runs A B C D F.
  destruct (history_rows k P tables x z0 runs A B C D F) as (s & x1 & z1 & E & Es & _ & _ & _ & R & _ & H).
  exists s. split; auto. split; [rewrite Es; auto|]. split; [rewrite Es; auto|]. auto.
Qed.
End Proofs.

Lemma sgld_unit_step : forall (z : R),
  sgld_kernel (fun _ _ v => match v with [w] => Fin (- (w * w) / 2) | _ => NaN end) (fun _ => 1%R) [(0, None)]
    (fun _ z => map (map Ropp) z) 1 0 tt [[z]] (mksg [] [[1%R]]) = Some (tt, [[(z / 2 + 1)%R]], true).
Proof.
  intros z. unfold sgld_kernel, learning_rate. change (INR (0 + 1)) with 1%R.
  replace (Rpower 1 0.55) with 1%R by (unfold Rpower; rewrite ln_1, Rmult_0_r, exp_0; auto).
  replace (1 / 1)%R with 1%R by field. simpl. rewrite sqrt_1. unfold vadd; simpl.
  match goal with |- Some (tt, [[?a]], true) = _ => replace a with (z / 2 + 1)%R by lra end. auto.
Qed.

Lemma reset_differs : exists (us : nat -> sg_draws * bool),
  let lp := fun (_ : nat) (_ : list (nat * tensor)) (v : tensor) => match v with [w] => Fin (- (w * w) / 2) | _ => NaN end in
  let grad := fun (_ : list tensor -> option ext) (z : list tensor) => map (map Ropp) z in
  let k := sgld_kernel lp (fun _ => 1%R) [(0, None)] grad 1 in
  (forall w : R, is_derive (fun w : R => (- (w * w) / 2)%R) w (- w)%R) /\
  exists once twice, history k (initial [[[0%R]]] tt) [(1, us)] = Some once /\
    history k (initial [[[0%R]]] tt) [(1, us); (1, us)] = Some twice /\
    m_tables once = [[[1%R]]] /\ m_tables twice = [[[(3 / 2)%R]]].
Proof.
  exists (fun _ => (mksg [] [[1%R]], false)). intros lp grad k. split.
  - intros w. auto_derive; auto. lra.
  - assert (G : forall z, history k (initial [[[z]]] tt) [(1, fun _ => (mksg [] [[1%R]], false))] =
      Some (initial [[[(z / 2 + 1)%R]]] tt)).
    { intros z. unfold history, updates, update, train.
      change (gather_all (m_tables (initial [[[z]]] tt)) (m_t (initial (X := unit) [[[z]]] tt) - 1)) with (Some [[z]]).
      change (k (m_t (initial (X := unit) [[[z]]] tt)) (m_extra (initial [[[z]]] tt)) [[z]] (fst (mksg [] [[1%R]], false)))
        with (k 0 tt [[z]] (mksg [] [[1%R]])).
      unfold k, lp, grad. rewrite sgld_unit_step. reflexivity. }
    exists (initial [[[1%R]]] tt), (initial [[[(3 / 2)%R]]] tt). split; [|split; [|split; reflexivity]].
    + rewrite G. replace (0 / 2 + 1)%R with 1%R by lra. auto.
    + change [(1, fun _ : nat => (mksg [] [[1%R]], false)); (1, fun _ : nat => (mksg [] [[1%R]], false))]
        with ([(1, fun _ : nat => (mksg [] [[1%R]], false))] ++ [(1, fun _ : nat => (mksg [] [[1%R]], false))]).
      rewrite history_snoc, G. specialize (G (0 / 2 + 1)%R). unfold history in G.
      destruct (updates k (initial [[[(0 / 2 + 1)%R]]] tt) (fun _ => (mksg [] [[1%R]], false)) 0 1) as [[s i]|]; [|discriminate].
      rewrite G. replace ((0 / 2 + 1) / 2 + 1)%R with (3 / 2)%R by lra. auto.
Qed.
