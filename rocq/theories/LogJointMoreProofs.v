(** * The log joint density as a function of the sample; examples (proofs). *)
From Verif Require Import Copy CopySpec CopyProofs CopySubstProofs CopyFinalProofs CopyCallProofs LogJoint LogJointSpec LogJointProofs.
From Coq Require Import Reals String List Arith Bool Lia Lra.
Import ListNotations.
Local Open Scope string_scope.

(** ** One function of the sample *)

Section Function.
Variable g1 g2 : graph.
Variable h : nat -> nat.
Hypothesis Hw1 : wf g1.
Hypothesis Ha1 : acyclic g1 h.
Hypothesis He : extends g1 g2.
Context {V M : Type}.
Variable sem : nat -> M -> list V -> V.
Variable st : nat -> V.
Variable noise1 noise2 : nat -> M.
Variable env1 env2 : nat -> option V.
Variable keys bound : list elem.
Hypothesis Henv : forall t, t < length (ops g1) -> env1 t = env2 t.
Hypothesis Hdom : forall k, In k bound -> env1 (tensor_of g1 k) <> None.
Hypothesis Hset : settled sem g1 keys bound.

Lemma held_same : forall i d x, In (XRV i) keys -> nth_error (rvs g1) i = Some d -> In x (rargs d) ->
  forall n t, h t < n -> t < length (ops g1) -> depends g1 (tensor_of g1 x) t ->
  forall v w, held sem st noise1 env1 g1 t v -> held sem st noise2 env2 g2 t w -> v = w.
Proof.
  intros i d x Hk Hi Hx. induction n as [|n IH]; intros t Hn Ht Hdep v w E1 E2; [lia|].
  pose proof (Henv t Ht) as Ee.
  destruct (nth_error (ops g1) t) as [dt|] eqn:Et; [|apply nth_error_None in Et; lia].
  pose proof (proj1 He _ _ Et) as Et2.
  inversion E1 as [? ? A1|? d1 A1 A2 A3|? d1 ty vs A1 A2 A3 A4]; subst;
    inversion E2 as [? ? B1|? d2 B1 B2 B3|? d2 ty2 ws B1 B2 B3 B4]; subst; try congruence.
  - rewrite Et in A2. injection A2 as <-. rewrite Et2 in B2. injection B2 as <-. rewrite B3 in A3. discriminate.
  - rewrite Et in A2. injection A2 as <-. rewrite Et2 in B2. injection B2 as <-. rewrite A3 in B3. discriminate.
  - rewrite Et in A2. injection A2 as <-. rewrite Et2 in B2. injection B2 as <-. rewrite A3 in B3. injection B3 as <-.
    assert (Hvs : vs = ws).
    { pose proof (wf_closed _ Hw1 _ _ Et) as Hcl. pose proof (Ha1 _ _ Et) as Hlow.
      assert (Hsub : forall j, In j (oins dt) -> depends g1 (tensor_of g1 x) j).
      { intros j Hj. eapply depends_trans; [exact Hdep|]. eapply dep_step; [exact Et|exact Hj|constructor]. }
      clear - A4 B4 Hcl Hlow Hsub IH Hn. revert ws B4. induction A4 as [|j v l vs Hv _ IHl]; intros ws B4; inversion B4; subst; auto.
      inversion Hcl; inversion Hlow; subst. f_equal.
      - eapply (IH j); eauto; [lia|]. apply Hsub. now left.
      - apply IHl; auto. intros j' Hj'. apply Hsub. now right. }
    subst ws. destruct (Hset i d x t dt ty Hk Hi Hx Hdep Et A3) as [Hb|Hb]; [|apply Hb].
    exfalso. apply in_map_iff in Hb. destruct Hb as [k [<- Hkb]]. exact (Hdom _ Hkb A1).
Qed.

Variable score : nat -> nat -> list V -> V -> R.

Lemma density_same : forall z a b, In z keys -> is_rv z = true -> valid g1 z ->
  density sem st score noise1 env1 g1 z a -> density sem st score noise2 env2 g2 z b -> a = b.
Proof.
  intros z a b Hk Rz Vz [i [dz [j [dx [vs [v [E1 [E2 [E3 [E4 [E5 [E6 ->]]]]]]]]]]]]
    [i' [dz' [j' [dx' [ws [w [F1 [F2 [F3 [F4 [F5 [F6 ->]]]]]]]]]]]]. subst z.
  injection E3 as <-. injection F1 as <-. injection F3 as <-.
  assert (dx = dz) by congruence. subst dx. pose proof (proj2 He _ _ E2) as E2'.
  assert (dz' = dz) by congruence. assert (dx' = dz) by congruence. subst dz' dx'.
  assert (Hlt : rvalue dz < length (ops g1)).
  { pose proof (wf_rvs _ Hw1) as HF. rewrite Forall_forall in HF. destruct (HF dz (nth_error_In _ _ E2)) as [_ Hop]. eapply nth_lt; eauto. }
  assert (v = w) by (rewrite Henv in E6 by exact Hlt; congruence). subst w. f_equal.
  assert (Hargs : forall l, incl l (rargs dz) -> forall vs ws, helds sem st noise1 env1 g1 (map (tensor_of g1) l) vs ->
            helds sem st noise2 env2 g2 (map (tensor_of g2) l) ws -> vs = ws).
  { induction l as [|x l IHl]; intros Hl us us' H1 H2; inversion H1; inversion H2; subst; auto. f_equal.
    - assert (Hx : In x (rargs dz)) by (apply Hl; now left).
      pose proof (wf_rvs _ Hw1) as HF. rewrite Forall_forall in HF. destruct (HF dz (nth_error_In _ _ E2)) as [HA _].
      rewrite Forall_forall in HA. destruct (HA _ Hx) as [Vx _].
      match goal with H : held _ _ _ _ g2 _ _ |- _ => rewrite (tensor_extends g1 g2 x He Vx) in H end.
      eapply (held_same i dz x Hk E2 Hx (S (h (tensor_of g1 x)))); eauto; [apply valid_lt; auto|constructor].
    - eapply IHl; eauto. intros y Hy. apply Hl. now right. }
  eapply (Hargs (rargs dz)); eauto. apply incl_refl.
Qed.

Lemma sums_same : forall l a b, incl l keys -> Forall (fun z => is_rv z = true /\ valid g1 z) l ->
  sum_is (density sem st score noise1 env1 g1) l a -> sum_is (density sem st score noise2 env2 g2) l b -> a = b.
Proof.
  induction l as [|z l IH]; intros a b Hk Hl H1 H2; inversion H1; inversion H2; subst; auto.
  inversion Hl as [|? ? [Rz Vz] Hl']; subst. f_equal.
  - eapply (density_same z); eauto. apply Hk. now left.
  - apply IH; auto. intros u Hu. apply Hk. now right.
Qed.
End Function.

Lemma world_trans : forall g0 g g', world g0 g -> world g g' -> world g0 g'.
Proof.
  intros g0 g g' [A1 A2 A3 A4] [B1 B2 B3 B4]. constructor; auto; [eapply extends_trans; eauto|].
  intros r d Hr Hd. destruct (Nat.lt_ge_cases r (length (rvs g))) as [Hlt|Hge].
  - destruct (nth_error (rvs g) r) as [d1|] eqn:E; [|apply nth_error_None in E; lia].
    pose proof (proj2 B1 _ _ E). assert (d1 = d) by congruence. subst. eapply A4; eauto.
  - pose proof (B4 _ _ Hge Hd). pose proof (named_len _ _ (extends_named _ _ A1)). lia.
Qed.
Lemma later_world : forall g g', later g g' -> world g g'.
Proof. intros g g' [A [B [C D]]]. constructor; auto. Qed.

Lemma bindings_ext : forall g g' d, extends g g' -> bindings g d -> bindings g' d.
Proof.
  intros g g' d He Hb. eapply Forall_impl; [|exact Hb]. intros kv [[A B] [C D]].
  split; [split; auto|split; auto]; eapply valid_extends; eauto.
Qed.

Lemma in_key : forall (d : swap) k, In k (map fst d) -> exists y, In (k, y) d.
Proof. intros d k H. apply in_map_iff in H. destruct H as [[a b] [<- H]]. eauto. Qed.

Lemma env_none : forall V (e : nat -> option V) t, (e t <> None -> False) -> e t = None.
Proof. intros V e t H. destruct (e t); auto. exfalso. apply H. discriminate. Qed.

Theorem two_calls : forall g1 h pick scope1 latents sample1 data,
  wf g1 -> acyclic g1 h -> new_scope g1 scope1 ->
  bindings g1 sample1 -> Forall (fun kv => is_rv (snd kv) = false) sample1 ->
  bindings g1 (rv_items data) -> Forall (fun kv => is_rv (snd kv) = false) (rv_items data) ->
  NoDup (map fst (sample1 ++ rv_items data)%list) -> incl latents (map fst sample1) ->
  exists N g1' terms1,
    (forall fuel, N <= fuel -> log_joint fuel pick scope1 latents sample1 data g1 = (g1', Ok terms1)) /\
    forall g2 pick2 scope2 sample2, later g1' g2 -> new_scope g2 scope2 ->
      bindings g2 sample2 -> Forall (fun kv => is_rv (snd kv) = false) sample2 -> map fst sample2 = map fst sample1 ->
      exists N2 g2' terms2,
        (forall fuel, N2 <= fuel -> log_joint fuel pick2 scope2 latents sample2 data g2 = (g2', Ok terms2)) /\
        forall V M (sem : nat -> M -> list V -> V) st noise score,
          settled sem g1 (latents ++ observed data)%list (map fst (sample1 ++ rv_items data)%list) ->
          (forall k y1 y2 v, In (k, y1) sample1 -> In (k, y2) sample2 ->
             given sem st noise g2' y1 v -> given sem st noise g2' y2 v) ->
          exists a, (forall b, sum_is (term_is sem st score noise g2') terms1 b <-> b = a) /\
                    (forall b, sum_is (term_is sem st score noise g2') terms2 b <-> b = a).
Proof.
  intros g1 h pick scope1 latents sample1 data Hw Ha [s1 [Hs1 Hf1]] Hb1 Hr1 Hdt Hdr Hnd Hlat.
  assert (Hun : forall g ks, unrelated g ks (map snd (rv_items data))).
  { intros g ks k q _ Hq Rq. exfalso. apply in_map_iff in Hq. destruct Hq as [kv [<- Hi]].
    rewrite Forall_forall in Hdr. rewrite (Hdr _ Hi) in Rq. discriminate. }
  destruct (log_joint_at g1 h pick Hw Ha scope1 s1 latents sample1 data Hs1 Hf1 Hb1 Hr1 Hdt Hnd Hlat (Hun _ _))
    as [N1 [g1' [terms1 [E1 [Hw1 HM1]]]]].
  exists N1, g1', terms1. split; auto.
  intros g2 pick2 scope2 sample2 Hl2 [s2 [Hs2 Hf2]] Hb2 Hr2 Hk2. apply later_world in Hl2.
  pose proof (world_trans _ _ _ Hw1 Hl2) as Hw12. pose proof (w_ext _ _ Hw12) as He12.
  destruct (w_ac _ _ Hl2) as [h2 Ha2].
  assert (Hnd2 : NoDup (map fst (sample2 ++ rv_items data)%list)) by (rewrite map_app, Hk2, <- map_app; exact Hnd).
  assert (Hlat2 : incl latents (map fst sample2)) by now rewrite Hk2.
  destruct (log_joint_at g2 h2 pick2 (w_wf _ _ Hl2) Ha2 scope2 s2 latents sample2 data Hs2 Hf2 Hb2 Hr2
    (bindings_ext _ _ _ He12 Hdt) Hnd2 Hlat2 (Hun _ _)) as [N2 [g2' [terms2 [E2 [Hw2 HM2]]]]].
  exists N2, g2', terms2. split; auto. intros V M sem st noise score Hset Hgiv.
  pose proof (world_trans _ _ _ Hw12 Hw2) as HwF.
  destruct (HM1 g2' HwF (extends_trans _ _ _ (w_ext _ _ Hl2) (w_ext _ _ Hw2)) V M sem st noise score)
    as [env1 [[H1 H1'] [[a Sa] I1]]].
  destruct (HM2 g2' Hw2 (extends_refl _) V M sem st noise score) as [env2 [[H2 H2'] [[b Sb] I2]]].
  destruct (w_ac _ _ Hw2) as [hF HaF].
  assert (Hlift : forall g y v, world g g2' -> wf g -> valid g y -> given sem st noise g y v <-> given sem st noise g2' y v).
  { intros g y v Hwg Hwfg Hv. unfold given. rewrite (tensor_extends g g2' y (w_ext _ _ Hwg) Hv). symmetry.
    apply (ev_later g sem st noise g g2' _ v); auto; [|apply (w_ext _ _ Hwg)|now apply valid_lt].
    constructor; auto; [apply extends_refl| |].
    - destruct (w_ac _ _ Hw2) as [h' H']. exists h'. intros o d Hd. apply H'. now apply (w_ext _ _ Hwg).
    - intros r d Hr Hd. apply nth_lt in Hd. lia. }
  assert (Hdet : forall y v w, given sem st noise g2' y v -> given sem st noise g2' y w -> v = w).
  { intros y v w A B. eapply ev_det; eauto. }
  assert (Hin : forall (samp : swap) k y, In (k, y) (samp ++ rv_items data)%list -> In (k, y) samp \/ In (k, y) (rv_items data)).
  { intros samp k y Hi. now apply in_app_or in Hi. }
  assert (Hkey : forall k, In k (map fst (sample1 ++ rv_items data)%list) -> valid g1 k /\ is_rv k = true /\
            exists v, env1 (tensor_of g1 k) = Some v /\ env2 (tensor_of g1 k) = Some v).
  { intros k Hk. assert (Hbk : bindings g1 (sample1 ++ rv_items data)%list) by (apply Forall_app; auto).
    destruct (bindings_keys g1 _ k Hbk Hk) as [Rk Vk]. split; auto. split; auto.
    pose proof (tensor_extends g1 g2 k He12 Vk) as Et. rewrite map_app in Hk. apply in_app_or in Hk. destruct Hk as [Hk|Hk].
    - destruct (in_key _ _ Hk) as [y1 Hy1]. rewrite <- Hk2 in Hk. destruct (in_key _ _ Hk) as [y2 Hy2].
      destruct (H1 k y1 (in_or_app _ _ _ (or_introl Hy1))) as [v1 [A1 B1]].
      destruct (H2 k y2 (in_or_app _ _ _ (or_introl Hy2))) as [v2 [A2 B2]].
      rewrite Forall_forall in Hr1, Hr2. unfold sampled in B1, B2.
      pose proof (Hr1 _ Hy1) as R1. pose proof (Hr2 _ Hy2) as R2. simpl in R1, R2. rewrite R1 in B1. rewrite R2 in B2.
      unfold bindings in Hb1, Hb2. rewrite Forall_forall in Hb1, Hb2. destruct (Hb1 _ Hy1) as [_ [V1 _]]. destruct (Hb2 _ Hy2) as [_ [V2 _]].
      apply (Hlift g1 y1 v1 HwF Hw V1) in B1. apply (Hlift g2 y2 v2 Hw2 (w_wf _ _ Hl2) V2) in B2.
      pose proof (Hdet _ _ _ (Hgiv _ _ _ _ Hy1 Hy2 B1) B2). subst v2. exists v1. split; auto. now rewrite <- Et.
    - destruct (in_key _ _ Hk) as [y Hy].
      destruct (H1 k y (in_or_app _ _ _ (or_intror Hy))) as [v1 [A1 B1]].
      destruct (H2 k y (in_or_app _ _ _ (or_intror Hy))) as [v2 [A2 B2]].
      rewrite Forall_forall in Hdr. unfold sampled in B1, B2. pose proof (Hdr _ Hy) as R1. simpl in R1. rewrite R1 in B1, B2.
      unfold bindings in Hdt. rewrite Forall_forall in Hdt. destruct (Hdt _ Hy) as [_ [V1 _]].
      pose proof (valid_extends g1 g2 _ He12 V1) as V2.
      apply (Hlift g1 y v1 HwF Hw V1) in B1. apply (Hlift g2 y v2 Hw2 (w_wf _ _ Hl2) V2) in B2.
      pose proof (Hdet _ _ _ B1 B2). subst v2. exists v1. split; auto. now rewrite <- Et. }
  assert (Henv : forall t, t < length (ops g1) -> env1 t = env2 t).
  { intros t Ht. destruct (env1 t) as [v|] eqn:Ee.
    - destruct (H1' t) as [k [y [Hi ->]]]; [congruence|].
      destruct (Hkey k) as [_ [_ [w [A B]]]]; [apply (in_map fst) in Hi; exact Hi|]. congruence.
    - symmetry. apply env_none. intros Hn. destruct (H2' t Hn) as [k [y [Hi ->]]].
      assert (Hk : In k (map fst (sample1 ++ rv_items data)%list)).
      { rewrite map_app, <- Hk2, <- map_app. apply (in_map fst) in Hi. exact Hi. }
      destruct (Hkey k Hk) as [Vk [_ [w [A B]]]]. rewrite (tensor_extends g1 g2 k He12 Vk) in Ee. congruence. }
  assert (Hall : Forall (fun z => is_rv z = true /\ valid g1 z) (latents ++ observed data)%list).
  { rewrite Forall_forall. intros z Hz. destruct (Hkey z) as [A [B _]]; auto. rewrite map_app. apply in_or_app.
    apply in_app_or in Hz. destruct Hz as [Hz|Hz]; [left; auto|right]. now rewrite <- observed_items. }
  assert (Hsame : forall x y, sum_is (term_is sem st score noise g2') terms1 x -> sum_is (term_is sem st score noise g2') terms2 y -> x = y).
  { intros x y Hx Hy. apply I1 in Hx. apply I2 in Hy.
    refine (sums_same g1 g2 h Hw Ha He12 sem st _ _ env1 env2 (latents ++ observed data)%list (map fst (sample1 ++ rv_items data)%list)
      Henv _ Hset score (latents ++ observed data)%list x y (incl_refl _) Hall Hx Hy).
    intros k Hk. destruct (Hkey k Hk) as [_ [_ [v [A _]]]]. congruence. }
  exists a. split; intros c; split.
  - intros Hc. transitivity b; [|symmetry]; eauto.
  - intros ->. exact Sa.
  - intros Hc. symmetry. eauto.
  - intros ->. rewrite (Hsame a b Sa Sb). exact Sb.
Qed.

(** ** A model to try it on

    [x] depends on [z] and [b]; [qz] and [qb] approximate [z] and [b], [pz] is a
    proposal given [z], and [qa] is computed from the random variable [x]. *)
Definition study : graph := mkgraph
  [mkop "loc" (KOp 0) []; mkop "z/sample" (KOp 10) [0]; mkop "b/sample" (KOp 16) [0]; mkop "x/sample" (KOp 11) [1; 2];
   mkop "x_data" KPlace []; mkop "lambda" KVar []; mkop "qz/sample" (KOp 12) [5]; mkop "z_old" (KOp 20) [];
   mkop "pz/sample" (KOp 13) [1]; mkop "qb/sample" (KOp 14) [5]; mkop "qa/sample" (KOp 15) [3]]
  [mkrv "z/" 10 [XT 0] 1; mkrv "b/" 16 [XT 0] 2; mkrv "x/" 11 [XRV 0; XRV 1] 3; mkrv "qz/" 12 [XVar 5] 6;
   mkrv "pz/" 13 [XRV 0] 8; mkrv "qb/" 14 [XVar 5] 9; mkrv "qa/" 15 [XRV 2] 10].

Lemma study_wf : wf study.
Proof.
  constructor.
  - intros o d H. do 11 (destruct o as [|o]; [inversion H; subst; simpl; repeat constructor; fail|]).
    destruct o; discriminate.
  - simpl. repeat constructor; simpl; intuition discriminate.
  - simpl. repeat constructor; simpl; intuition discriminate.
  - simpl. repeat constructor; simpl; intuition discriminate.
  - repeat constructor; simpl; eauto.
Qed.
Lemma study_acyclic : acyclic study (fun o => o).
Proof.
  intros o d H. do 11 (destruct o as [|o]; [inversion H; subst; simpl; repeat constructor; fail|]).
  destruct o; discriminate.
Qed.
Lemma study_fresh : forall s, In s ["conditional/"; "inference/"; "inference/old/"; "inference/new/"; "inference/sample/";
    "inference/sample_1/"; "inference/_0/"; "inference_1/_1/"] -> fresh_scope study s.
Proof.
  intros s H. split; intros d n Hd E; repeat (destruct H as [<-|H]; [|]); try destruct H;
    simpl in Hd; repeat (destruct Hd as [<-|Hd]; [simpl in E; discriminate|]); destruct Hd.
Qed.
Lemma study_scope : forall scope, In scope ["inference"; "inference/sample"; "inference/sample_1"] -> new_scope study scope.
Proof.
  intros scope H. repeat (destruct H as [<-|H]; [eexists; split; [reflexivity|apply study_fresh; simpl; tauto]|]). destruct H.
Qed.
Lemma study_bindings : forall d, Forall (fun kv => In (fst kv) [XRV 0; XRV 1; XRV 2] /\
    In (snd kv) [XT 0; XT 4; XT 7; XRV 3; XRV 4; XRV 5; XRV 6]) d -> bindings study d.
Proof.
  intros d H. eapply Forall_impl; [|exact H]. intros [k y] [H1 H2]. simpl in *.
  repeat (destruct H1 as [<-|H1]; [|]); try destruct H1; repeat (destruct H2 as [<-|H2]; [|]); try destruct H2;
    repeat split; simpl; lia.
Qed.
Lemma study_depends : forall q k, In q [6; 9] -> In k [1; 2; 3] -> ~ depends study q k.
Proof.
  intros q k Hq Hk E.
  assert (H5 : forall l, depends study 5 l -> l = 5).
  { intros l D. inversion D as [|? d i ? A B C]; subst; auto. simpl in A. injection A as <-. destruct B. }
  inversion E as [|? d i ? A B C]; subst.
  - simpl in *. intuition congruence.
  - simpl in Hq. destruct Hq as [<-|[<-|[]]]; simpl in A; injection A as <-; simpl in B; destruct B as [<-|[]];
      apply H5 in C; subst; simpl in Hk; intuition congruence.
Qed.

(** Values that are the type of the operation; the score of [x] is its first
    argument. *)
Definition type_sem (ty : nat) (noise : unit) (vs : list nat) : nat := ty.
Definition x_score (i c : nat) (vs : list nat) (v : nat) : R := if Nat.eqb c 11 then INR (hd 0 vs) else 0%R.

Lemma type_ev : forall st noise g o d ty v, nth_error (ops g) o = Some d -> okind d = KOp ty ->
  ev type_sem st noise g o v -> v = ty.
Proof.
  intros st noise g o d ty v Hd Hk E. inversion E as [? d' A B|? d' ty' vs A B C]; subst.
  - rewrite Hd in A. injection A as <-. rewrite Hk in B. discriminate.
  - rewrite Hd in A. injection A as <-. rewrite Hk in B. injection B as <-. reflexivity.
Qed.
Lemma type_held : forall st noise env g o d ty v, nth_error (ops g) o = Some d -> okind d = KOp ty ->
  held type_sem st noise env g o v -> v = ty \/ env o = Some v.
Proof.
  intros st noise env g o d ty v Hd Hk E. inversion E as [? ? A|? d' A0 A B|? d' ty' vs A0 A B C]; subst; auto.
  - rewrite Hd in A. injection A as <-. rewrite Hk in B. discriminate.
  - rewrite Hd in A. injection A as <-. rewrite Hk in B. injection B as <-. auto.
Qed.

(** The density of [x] when [z] is held at a value. *)
Lemma study_x : forall st noise env v a, env 1 = Some v -> density type_sem st x_score noise env study (XRV 2) a -> a = INR v.
Proof.
  intros st noise env v a He [i [dz [j [dx [vs [w [E1 [E2 [E3 [E4 [E5 [E6 ->]]]]]]]]]]]].
  injection E1 as <-. injection E3 as <-. simpl in E2, E4. injection E2 as <-. injection E4 as <-.
  simpl in E5. inversion E5 as [|? u ? us A B]; subst. unfold x_score. simpl.
  inversion A as [? ? C|? d2 A0 C D|? d2 ty2 ws A0 C D F]; subst; [f_equal|exfalso|exfalso]; congruence.
Qed.
Lemma study_other : forall st noise env z a, z = XRV 0 \/ z = XRV 1 ->
  density type_sem st x_score noise env study z a -> a = 0%R.
Proof.
  intros st noise env z a Hz [i [dz [j [dx [vs [w [E1 [E2 [E3 [E4 [E5 [E6 ->]]]]]]]]]]]].
  destruct Hz as [-> | ->]; injection E3 as <-; simpl in E4; injection E4 as <-; reflexivity.
Qed.

(** The value of a term of a graph, the arguments of its copy being
    operations. *)
Lemma term_x : forall st noise g i c y d t dt ty a, nth_error (rvs g) c = Some d ->
  rclass d = 11 -> map (tensor_of g) (firstn 1 (rargs d)) = [t] -> nth_error (ops g) t = Some dt -> okind dt = KOp ty ->
  term_is type_sem st x_score noise g (mkterm (XRV i) c y) a -> a = INR ty.
Proof.
  intros st noise g i c y d t dt ty a Hd Hc Ha Ht Hk [i' [d' [vs [v [E1 [E2 [E3 [E4 ->]]]]]]]].
  simpl in E2. rewrite Hd in E2. injection E2 as <-. destruct (rargs d) as [|x l]; [discriminate|]. simpl in Ha. injection Ha as Ha.
  simpl in E3. rewrite Ha in E3. inversion E3 as [|? u ? us A B]; subst. unfold x_score. rewrite Hc. simpl. f_equal. eapply type_ev; eauto.
Qed.
Lemma term_other : forall st noise g i c y d a, nth_error (rvs g) c = Some d -> rclass d <> 11 ->
  term_is type_sem st x_score noise g (mkterm (XRV i) c y) a -> a = 0%R.
Proof.
  intros st noise g i c y d a Hd Hc [i' [d' [vs [v [E1 [E2 [E3 [E4 ->]]]]]]]]. simpl in E2. rewrite Hd in E2. injection E2 as <-.
  unfold x_score. destruct (Nat.eqb_spec (rclass d) 11); [contradiction|reflexivity].
Qed.

Theorem log_joint_refuted : exists g h scope latents z_sample data fuel pick g' terms,
  wf g /\ acyclic g h /\ new_scope g scope /\ bindings g z_sample /\ Forall (fun kv => is_rv (snd kv) = false) z_sample /\
  bindings g (rv_items data) /\ NoDup (map fst (z_sample ++ rv_items data)%list) /\ incl latents (map fst z_sample) /\
  log_joint fuel pick scope latents z_sample data g = (g', Ok terms) /\
  exists (sem : nat -> unit -> list nat -> nat) st score, forall noise noise' env,
    holds g (sampled sem st noise noise' g) (z_sample ++ rv_items data)%list env ->
    (exists a, sum_is (term_is sem st score noise g') terms a) /\
    forall a b, sum_is (term_is sem st score noise g') terms a ->
      sum_is (density sem st score noise' env g) (latents ++ observed data)%list b -> a <> b.
Proof.
  set (zs := [(XRV 0, XT 7)]). set (data := [(XRV 2, XT 4); (XRV 1, XRV 6)]).
  destruct (log_joint 30 first_pick "inference/sample" [XRV 0] zs data study) as [g' r] eqn:E.
  exists study, (fun o => o), "inference/sample", [XRV 0], zs, data, 30, first_pick, g'.
  pose proof E as E'. vm_compute in E'. injection E' as Eg Er.
  destruct r as [terms| |]; try discriminate. injection Er as Et. exists terms.
  split; [exact study_wf|]. split; [exact study_acyclic|]. split; [apply study_scope; simpl; tauto|].
  split; [apply study_bindings; repeat constructor; simpl; tauto|]. split; [repeat constructor|].
  split; [apply study_bindings; repeat constructor; simpl; tauto|].
  split; [simpl; repeat constructor; simpl; intuition discriminate|]. split; [intros z; simpl; tauto|].
  split; [exact E|]. exists type_sem, (fun _ => 0), x_score. intros noise noise' env [Hh _]. subst g' terms. split.
  - apply sum_total. repeat apply Forall_cons; try apply Forall_nil;
      eexists; do 4 eexists; (split; [reflexivity|]); (split; [reflexivity|]); (split; [|split; [|reflexivity]]); simpl;
      repeat (first [eapply evs_nil|eapply evs_cons|(eapply ev_op; [reflexivity|reflexivity|simpl])|(eapply ev_leaf; [reflexivity|reflexivity])]).
  - intros a b Ha Hb.
    assert (Hz : env 1 = Some 20).
    { destruct (Hh (XRV 0) (XT 7)) as [v [A B]]; [left; reflexivity|]. simpl in A, B. rewrite A. f_equal.
      exact (type_ev _ _ study 7 _ 20 v eq_refl eq_refl B). }
    inversion Ha as [|? ? a1 a2 A1 A2]; subst. inversion A2 as [|? ? a3 a4 A3 A4]; subst. inversion A4 as [|? ? a5 a6 A5 A6]; subst. inversion A6; subst.
    inversion Hb as [|? ? b1 b2 B1 B2]; subst. inversion B2 as [|? ? b3 b4 B3 B4]; subst. inversion B4 as [|? ? b5 b6 B5 B6]; subst. inversion B6; subst.
    apply study_other in B1; [|auto]. apply study_other in B5; [|auto]. apply (study_x _ _ _ 20) in B3; [|exact Hz].
    eapply term_other in A1; [|reflexivity|discriminate]. eapply term_other in A5; [|reflexivity|discriminate].
    eapply term_x in A3; [|reflexivity|reflexivity|reflexivity|reflexivity|reflexivity]. subst. simpl. intros H.
    rewrite !Rplus_0_l, !Rplus_0_r in H. apply (INR_eq 10 20) in H. discriminate.
Qed.

Ltac evaluate := simpl;
  repeat (first [eapply evs_nil|eapply evs_cons|(eapply ev_op; [reflexivity|reflexivity|simpl])|(eapply ev_leaf; [reflexivity|reflexivity])]).
Ltac terms_total := apply sum_total; repeat apply Forall_cons; try apply Forall_nil;
  eexists; do 4 eexists; (split; [reflexivity|]); (split; [reflexivity|]); (split; [|split; [|reflexivity]]); evaluate.

Theorem vi_refuted : exists g h scope latents data fuel pick g' qs ps,
  wf g /\ acyclic g h /\ new_scope g scope /\ bindings g latents /\ Forall (fun kv => is_rv (snd kv) = true) latents /\
  bindings g (rv_items data) /\ NoDup (map fst (latents ++ rv_items data)%list) /\
  vi_samples fuel pick [scope] latents data g = (g', Ok [(qs, ps)]) /\
  exists (sem : nat -> unit -> list nat -> nat) st score, forall noise noise' env,
    holds g (sampled sem st noise noise' g) (latents ++ rv_items data)%list env ->
    (exists a, sum_is (term_is sem st score noise g') ps a) /\
    forall a b, sum_is (term_is sem st score noise g') ps a ->
      sum_is (density sem st score noise' env g) (map fst latents ++ observed data)%list b -> a <> b.
Proof.
  set (zs := [(XRV 0, XRV 6)]). set (data := [(XRV 2, XT 4)]).
  destruct (vi_samples 30 first_pick ["inference/sample"] zs data study) as [g' r] eqn:E.
  exists study, (fun o => o), "inference/sample", zs, data, 30, first_pick, g'.
  pose proof E as E'. vm_compute in E'. injection E' as Eg Er. subst r. eexists. eexists.
  split; [exact study_wf|]. split; [exact study_acyclic|]. split; [apply study_scope; simpl; tauto|].
  split; [apply study_bindings; repeat constructor; simpl; tauto|]. split; [repeat constructor|].
  split; [apply study_bindings; repeat constructor; simpl; tauto|].
  split; [simpl; repeat constructor; simpl; intuition discriminate|].
  split; [exact E|]. exists type_sem, (fun _ => 0), x_score. intros noise noise' env [Hh _]. subst g'. split.
  - terms_total.
  - intros a b Ha Hb.
    assert (Hz : env 1 = Some 15).
    { destruct (Hh (XRV 0) (XRV 6)) as [v [A B]]; [left; reflexivity|]. simpl in A, B. rewrite A. f_equal.
      exact (type_ev _ _ study 10 _ 15 v eq_refl eq_refl B). }
    inversion Ha as [|? ? a1 a2 A1 A2]; subst. inversion A2 as [|? ? a3 a4 A3 A4]; subst. inversion A4; subst.
    inversion Hb as [|? ? b1 b2 B1 B2]; subst. inversion B2 as [|? ? b3 b4 B3 B4]; subst. inversion B4; subst.
    apply study_other in B1; [|auto]. apply (study_x _ _ _ 15) in B3; [|exact Hz].
    eapply term_other in A1; [|reflexivity|discriminate].
    eapply term_x in A3; [|reflexivity|reflexivity|reflexivity|reflexivity|reflexivity]. subst. simpl. intros H.
    rewrite !Rplus_0_l, !Rplus_0_r in H. apply (INR_eq 10 15) in H. discriminate.
Qed.

(** Draws of [qb] are its noise; the score of [b] is its value. *)
Definition draw_sem (ty : nat) (noise : nat) (vs : list nat) : nat := if Nat.eqb ty 14 then noise else 0.
Definition b_score (i c : nat) (vs : list nat) (v : nat) : R := if Nat.eqb c 16 then INR v else 0%R.

Lemma term_b : forall st noise g i c y d t dt a, nth_error (rvs g) c = Some d -> rclass d = 16 -> tensor_of g y = t ->
  nth_error (ops g) t = Some dt -> okind dt = KOp 14 ->
  term_is draw_sem st b_score noise g (mkterm (XRV i) c y) a -> a = INR (noise t).
Proof.
  intros st noise g i c y d t dt a Hd Hc Hy Ht Hk [i' [d' [vs [v [E1 [E2 [E3 [E4 ->]]]]]]]].
  simpl in E2, E4. rewrite Hd in E2. injection E2 as <-. unfold b_score. rewrite Hc. simpl. f_equal. rewrite Hy in E4.
  inversion E4 as [? d' A B|? d' ty' ws A B C]; subst; rewrite Ht in A; injection A as <-; rewrite Hk in B; [discriminate|].
  injection B as <-. reflexivity.
Qed.
Lemma term_not_b : forall st noise g i c y d a, nth_error (rvs g) c = Some d -> rclass d <> 16 ->
  term_is draw_sem st b_score noise g (mkterm (XRV i) c y) a -> a = 0%R.
Proof.
  intros st noise g i c y d a Hd Hc [i' [d' [vs [v [E1 [E2 [E3 [E4 ->]]]]]]]]. simpl in E2. rewrite Hd in E2. injection E2 as <-.
  unfold b_score. destruct (Nat.eqb_spec (rclass d) 16); [contradiction|reflexivity].
Qed.

Lemma study_settled : forall V M (sem : nat -> M -> list V -> V), (forall n n' vs, sem 0 n vs = sem 0 n' vs) ->
  settled sem study [XRV 0; XRV 2; XRV 1] [XRV 0; XRV 2; XRV 1].
Proof.
  intros V M sem Hs i d x t dt ty Hi Hd Hx Hdep Ht Hk.
  assert (D0 : forall t, depends study 0 t -> t = 0).
  { intros t' D. inversion D as [|? d0 j ? A B C]; subst; auto. simpl in A. injection A as <-. destruct B. }
  assert (D1 : forall s t, s = 1 \/ s = 2 -> depends study s t -> t = 0 \/ t = 1 \/ t = 2).
  { intros s t' Hss D. inversion D as [|? d0 j ? A B C]; subst; [lia|].
    destruct Hss as [-> | ->]; simpl in A; injection A as <-; destruct B as [<-|[]]; apply D0 in C; auto. }
  assert (Hx' : tensor_of study x = 0 \/ tensor_of study x = 1 \/ tensor_of study x = 2).
  { simpl in Hi. destruct Hi as [Hi|[Hi|[Hi|[]]]]; injection Hi as <-; simpl in Hd; injection Hd as <-; simpl in Hx;
      repeat (destruct Hx as [<-|Hx]; [simpl; auto|]); destruct Hx. }
  assert (Ht' : t = 0 \/ t = 1 \/ t = 2).
  { destruct Hx' as [E|E]; [rewrite E in Hdep; left; now apply D0|]. apply (D1 (tensor_of study x)); auto. }
  destruct Ht' as [->|[->| ->]]; [right|left; simpl; auto|left; simpl; auto].
  simpl in Ht. injection Ht as <-. simpl in Hk. injection Hk as <-. exact Hs.
Qed.

Theorem two_calls_refuted : exists g h scope1 scope2 latents sample data fuel pick g1 terms1 g2 terms2,
  wf g /\ acyclic g h /\ new_scope g scope1 /\ bindings g sample /\ Forall (fun kv => is_rv (snd kv) = false) sample /\
  bindings g (rv_items data) /\ NoDup (map fst (sample ++ rv_items data)%list) /\ incl latents (map fst sample) /\
  unrelated g (map fst (sample ++ rv_items data)%list) (map snd (rv_items data)) /\
  log_joint fuel pick scope1 latents sample data g = (g1, Ok terms1) /\ new_scope g1 scope2 /\
  log_joint fuel pick scope2 latents sample data g1 = (g2, Ok terms2) /\
  exists (sem : nat -> nat -> list nat -> nat) st noise score,
    settled sem g (latents ++ observed data)%list (map fst (sample ++ rv_items data)%list) /\
    exists a b, (forall c, sum_is (term_is sem st score noise g2) terms1 c <-> c = a) /\
                (forall c, sum_is (term_is sem st score noise g2) terms2 c <-> c = b) /\ a <> b.
Proof.
  set (zs := [(XRV 0, XT 7)]). set (data := [(XRV 2, XT 4); (XRV 1, XRV 5)]).
  destruct (log_joint 30 first_pick "inference/sample" [XRV 0] zs data study) as [g1 r1] eqn:E1.
  destruct (log_joint 30 first_pick "inference/sample_1" [XRV 0] zs data g1) as [g2 r2] eqn:E2.
  exists study, (fun o => o), "inference/sample", "inference/sample_1", [XRV 0], zs, data, 30, first_pick, g1.
  pose proof E1 as E1'. vm_compute in E1'. injection E1' as Eg1 Er1. subst r1. eexists. exists g2.
  pose proof E2 as E2'. rewrite <- Eg1 in E2'. vm_compute in E2'. injection E2' as Eg2 Er2. subst r2. eexists.
  split; [exact study_wf|]. split; [exact study_acyclic|]. split; [apply study_scope; simpl; tauto|].
  split; [apply study_bindings; repeat constructor; simpl; tauto|]. split; [repeat constructor|].
  split; [apply study_bindings; repeat constructor; simpl; tauto|].
  split; [simpl; repeat constructor; simpl; intuition discriminate|]. split; [intros z; simpl; tauto|].
  split.
  { intros k q Hk Hq Rq. simpl in Hq. destruct Hq as [<-|[<-|[]]]; [discriminate|]. apply study_depends; [simpl; tauto|].
    simpl in Hk. repeat (destruct Hk as [<-|Hk]; [simpl; tauto|]). destruct Hk. }
  split; [exact E1|]. split.
  { eexists. split; [reflexivity|]. subst g1. split; intros d n Hd E; simpl in Hd;
      repeat (destruct Hd as [<-|Hd]; [simpl in E; discriminate|]); destruct Hd. }
  split; [exact E2|].
  exists draw_sem, (fun _ => 0), (fun o => o), b_score. split; [apply study_settled; reflexivity|].
  exists (INR 11), (INR 16). clear E1 E2. subst g1 g2. split; [|split].
  - match goal with |- forall c, sum_is ?P ?l c <-> _ =>
      assert (Hex : exists x, sum_is P l x) by terms_total; assert (Hone : forall c, sum_is P l c -> c = INR 11) end.
    2:{ destruct Hex as [x Hx]. intros c; split; [apply Hone|]. intros ->. rewrite <- (Hone x Hx). exact Hx. }
    clear Hex.
    intros c Ha. inversion Ha as [|? ? a1 a2 A1 A2]; subst. inversion A2 as [|? ? a3 a4 A3 A4]; subst. inversion A4 as [|? ? a5 a6 A5 A6]; subst. inversion A6; subst.
    eapply term_not_b in A1; [|reflexivity|discriminate]. eapply term_not_b in A3; [|reflexivity|discriminate].
    eapply term_b in A5; [|reflexivity|reflexivity|reflexivity|reflexivity|reflexivity]. subst. rewrite !Rplus_0_l, Rplus_0_r. reflexivity.
  - match goal with |- forall c, sum_is ?P ?l c <-> _ =>
      assert (Hex : exists x, sum_is P l x) by terms_total; assert (Hone : forall c, sum_is P l c -> c = INR 16) end.
    2:{ destruct Hex as [x Hx]. intros c; split; [apply Hone|]. intros ->. rewrite <- (Hone x Hx). exact Hx. }
    clear Hex.
    intros c Ha. inversion Ha as [|? ? a1 a2 A1 A2]; subst. inversion A2 as [|? ? a3 a4 A3 A4]; subst. inversion A4 as [|? ? a5 a6 A5 A6]; subst. inversion A6; subst.
    eapply term_not_b in A1; [|reflexivity|discriminate]. eapply term_not_b in A3; [|reflexivity|discriminate].
    eapply term_b in A5; [|reflexivity|reflexivity|reflexivity|reflexivity|reflexivity]. subst. rewrite !Rplus_0_l, Rplus_0_r. reflexivity.
  - intros H. apply (INR_eq 11 16) in H. discriminate.
Qed.

Lemma study_second : exists g1 terms1,
  log_joint 30 first_pick "inference/sample" [XRV 0] [(XRV 0, XT 7)] [(XRV 2, XT 4); (XRV 1, XT 0)] study = (g1, Ok terms1) /\
  length terms1 = 3 /\ later g1 g1 /\ new_scope g1 "inference/sample_1".
Proof.
  set (zs := [(XRV 0, XT 7)]). set (data := [(XRV 2, XT 4); (XRV 1, XT 0)]).
  destruct (log_joint 30 first_pick "inference/sample" [XRV 0] zs data study) as [g1 r1] eqn:E1.
  exists g1. pose proof E1 as E1'. vm_compute in E1'. injection E1' as Eg1 Er1. subst r1. eexists. split; [reflexivity|].
  split; [reflexivity|]. clear E1. subst g1. split.
  - split; [apply extends_refl|]. split; [|split].
    + constructor.
      * intros o d H. do 20 (destruct o as [|o]; [first [discriminate H|injection H as <-; simpl; repeat constructor; fail]|]).
        destruct o; discriminate.
      * simpl. repeat constructor; simpl; intuition discriminate.
      * simpl. repeat constructor; simpl; intuition discriminate.
      * simpl. repeat constructor; simpl; intuition discriminate.
      * repeat constructor; simpl; eauto.
    + exists (fun o => o). intros o d H.
      do 20 (destruct o as [|o]; [first [discriminate H|injection H as <-; simpl; repeat constructor; fail]|]).
      destruct o; discriminate.
    + intros r d Hr Hd. apply nth_lt in Hd. lia.
  - eexists. split; [reflexivity|]. split; intros d n Hd E; simpl in Hd;
      repeat (destruct Hd as [<-|Hd]; [simpl in E; discriminate|]); destruct Hd.
Qed.

(** ** A program that has names in the scope [conditional]

    [q] is to be the datum of [x]; the program has another random variable of
    the same name in its own scope [conditional]. *)
Definition crowded : graph := mkgraph
  [mkop "loc" (KOp 0) []; mkop "z/sample" (KOp 10) [0]; mkop "x/sample" (KOp 11) [1]; mkop "q/sample" (KOp 14) [0];
   mkop "conditional/q/sample" (KOp 15) [0]; mkop "z_old" (KOp 20) []; mkop "pz/sample" (KOp 13) [1]]
  [mkrv "z/" 10 [XT 0] 1; mkrv "x/" 11 [XRV 0] 2; mkrv "q/" 14 [XT 0] 3; mkrv "conditional/q/" 15 [XT 0] 4; mkrv "pz/" 13 [XRV 0] 6].

(** The score of [x] is the product of its argument and its value. *)
Definition prod_score (i c : nat) (vs : list nat) (v : nat) : R := if Nat.eqb c 11 then (INR (hd 0%nat vs) * INR v)%R else 0%R.

Lemma crowded_wf : wf crowded.
Proof.
  constructor.
  - intros o d H. do 7 (destruct o as [|o]; [inversion H; subst; simpl; repeat constructor; fail|]). destruct o; discriminate.
  - simpl. repeat constructor; simpl; intuition discriminate.
  - simpl. repeat constructor; simpl; intuition discriminate.
  - simpl. repeat constructor; simpl; intuition discriminate.
  - repeat constructor; simpl; eauto.
Qed.
Lemma crowded_acyclic : acyclic crowded (fun o => o).
Proof. intros o d H. do 7 (destruct o as [|o]; [inversion H; subst; simpl; repeat constructor; fail|]). destruct o; discriminate. Qed.

Lemma term_prod : forall st noise g i c y d t dt ty o dt' ty' a, nth_error (rvs g) c = Some d ->
  rclass d = 11 -> map (tensor_of g) (firstn 1 (rargs d)) = [t] -> nth_error (ops g) t = Some dt -> okind dt = KOp ty ->
  tensor_of g y = o -> nth_error (ops g) o = Some dt' -> okind dt' = KOp ty' ->
  term_is type_sem st prod_score noise g (mkterm (XRV i) c y) a -> a = (INR ty * INR ty')%R.
Proof.
  intros st noise g i c y d t dt ty o dt' ty' a Hd Hc Ha Ht Hk Ho Ho1 Ho2 [i' [d' [vs [v [E1 [E2 [E3 [E4 ->]]]]]]]].
  simpl in E2. rewrite Hd in E2. injection E2 as <-. destruct (rargs d) as [|x l]; [discriminate|]. simpl in Ha. injection Ha as Ha.
  simpl in E3. rewrite Ha in E3. inversion E3 as [|? u ? us A B]; subst. unfold prod_score. rewrite Hc. simpl. f_equal; f_equal.
  - exact (type_ev _ _ _ _ _ _ _ Ht Hk A).
  - exact (type_ev _ _ _ _ _ _ _ Ho1 Ho2 E4).
Qed.
Lemma term_zero : forall st noise g i c y d a, nth_error (rvs g) c = Some d -> rclass d <> 11 ->
  term_is type_sem st prod_score noise g (mkterm (XRV i) c y) a -> a = 0%R.
Proof.
  intros st noise g i c y d a Hd Hc [i' [d' [vs [v [E1 [E2 [E3 [E4 ->]]]]]]]]. simpl in E2. rewrite Hd in E2. injection E2 as <-.
  unfold prod_score. destruct (Nat.eqb_spec (rclass d) 11); [contradiction|reflexivity].
Qed.
Lemma crowded_x : forall st noise env v w a, env 1 = Some v -> env 2 = Some w ->
  density type_sem st prod_score noise env crowded (XRV 1) a -> a = (INR v * INR w)%R.
Proof.
  intros st noise env v w a He Hw [i [dz [j [dx [vs [u [E1 [E2 [E3 [E4 [E5 [E6 ->]]]]]]]]]]]].
  injection E1 as <-. injection E3 as <-. simpl in E2, E4. injection E2 as <-. injection E4 as <-.
  simpl in E5, E6. inversion E5 as [|? u0 ? us A B]; subst. unfold prod_score. simpl.
  assert (u = w) by congruence. subst u. f_equal.
  inversion A as [? ? C|? d2 A0 C D|? d2 ty2 ws A0 C D F]; subst; [f_equal|exfalso|exfalso]; congruence.
Qed.
Lemma crowded_other : forall st noise env env' z x a, x = XRV 0 \/ x = XRV 4 ->
  density_at type_sem st prod_score noise env env' crowded z x a -> a = 0%R.
Proof.
  intros st noise env env' z x a Hz [i [dz [j [dx [vs [w [E1 [E2 [E3 [E4 [E5 [E6 ->]]]]]]]]]]]].
  destruct Hz as [-> | ->]; injection E3 as <-; simpl in E4; injection E4 as <-; reflexivity.
Qed.

Theorem mh_scope_refuted : exists g h base so sn latents old proposals data fuel pick g' r,
  wf g /\ acyclic g h /\ with_slash (base ++ "old") = Some so /\ with_slash (base ++ "new") = Some sn /\
  fresh_scope g so /\ fresh_scope g sn /\ apart so sn /\
  bindings g old /\ bindings g (rv_items data) /\ NoDup (map fst (old ++ rv_items data)%list) /\
  bindings g proposals /\ Forall (fun kv => is_rv (snd kv) = true) proposals /\ NoDup (map fst proposals) /\
  incl (map fst proposals) (map fst old) /\ incl latents (map fst old) /\
  mh_ratio fuel pick base latents old proposals data g = (g', Ok r) /\
  exists (sem : nat -> unit -> list nat -> nat) st score, forall noise noise_c noise_o noise_n env_old env_new,
    mh_states sem st noise noise_c noise_o g old proposals data env_old env_new ->
    (exists a, ratio_is sem st score noise g' r a) /\
    forall a pn po qf qr, ratio_is sem st score noise g' r a ->
      sum_is (density sem st score noise_n env_new g) (latents ++ observed data)%list pn ->
      sum_is (density sem st score noise_o env_old g) (latents ++ observed data)%list po ->
      sum_is (fun kv => density_at sem st score noise_o env_old env_new g (fst kv) (snd kv)) proposals qf ->
      sum_is (fun kv => density_at sem st score noise_n env_new env_old g (fst kv) (snd kv)) proposals qr ->
      a <> (pn - po - qf + qr)%R.
Proof.
  set (old := [(XRV 0, XT 5)]). set (props := [(XRV 0, XRV 4)]). set (data := [(XRV 1, XRV 2)]).
  destruct (mh_ratio 30 first_pick "inference/" [XRV 0] old props data crowded) as [g' r] eqn:E.
  pose proof E as E'. vm_compute in E'. injection E' as Eg Er. destruct r as [r| |]; try discriminate. injection Er as Er.
  exists crowded, (fun o => o), "inference/", "inference/old/", "inference/new/", [XRV 0], old, props, data, 30, first_pick, g', r.
  split; [exact crowded_wf|]. split; [exact crowded_acyclic|]. split; [reflexivity|]. split; [reflexivity|].
  split; [split; intros d n Hd En; simpl in Hd; repeat (destruct Hd as [<-|Hd]; [simpl in En; discriminate|]); destruct Hd|].
  split; [split; intros d n Hd En; simpl in Hd; repeat (destruct Hd as [<-|Hd]; [simpl in En; discriminate|]); destruct Hd|].
  split; [intros n n' En; discriminate|].
  split; [repeat constructor; simpl; lia|]. split; [repeat constructor; simpl; lia|].
  split; [simpl; repeat constructor; simpl; intuition discriminate|].
  split; [repeat constructor; simpl; lia|]. split; [repeat constructor|]. split; [simpl; repeat constructor; simpl; tauto|].
  split; [intros z; simpl; tauto|]. split; [intros z; simpl; tauto|]. split; [exact E|].
  exists type_sem, (fun _ => 0), prod_score. intros noise nc no nn eo en (H1 & H2 & H3 & _). subst g' r. split.
  - unfold ratio_is. cbn [r_propose r_reverse r_latent r_data].
    match goal with |- exists a f b l d, sum_is ?P ?l1 f /\ sum_is _ ?l2 b /\ sum_is ?Q ?l3 l /\ sum_is _ ?l4 d /\ _ =>
      assert (T1 : exists f, sum_is P l1 f) by terms_total; assert (T2 : exists f, sum_is P l2 f) by terms_total;
      assert (T3 : exists f, sum_is Q l3 f); [|assert (T4 : exists f, sum_is Q l4 f)] end.
    + apply sum_total. repeat apply Forall_cons; try apply Forall_nil. eexists. eexists. eexists. split; [|split; [|reflexivity]];
      do 4 eexists; (split; [reflexivity|]); (split; [reflexivity|]); (split; [|split; [|reflexivity]]); evaluate.
    + apply sum_total. repeat apply Forall_cons; try apply Forall_nil. eexists. eexists. eexists. split; [|split; [|reflexivity]];
      do 4 eexists; (split; [reflexivity|]); (split; [reflexivity|]); (split; [|split; [|reflexivity]]); evaluate.
    + destruct T1 as [f Tf], T2 as [b Tb], T3 as [l Tl], T4 as [d Td]. exists (- f + b + l + d)%R, f, b, l, d. auto.
  - intros a pn po qf qr (f & b & l & d & Hf & Hb & Hl & Hd & ->) Hpn Hpo Hqf Hqr. cbn [r_propose r_reverse r_latent r_data] in *.
    assert (Zo : eo 1 = Some 20).
    { destruct (H1 (XRV 0) (XT 5)) as [v [A B]]; [left; reflexivity|]. simpl in A, B. rewrite A. f_equal.
      exact (type_ev _ _ crowded 5 _ 20 v eq_refl eq_refl B). }
    assert (X : eo 2 = Some 14 /\ en 2 = Some 14).
    { destruct (H2 (XRV 1) (XRV 2)) as [v [A [B C]]]; [left; reflexivity|]. simpl in A, B, C.
      assert (v = 14) by exact (type_ev _ _ crowded 3 _ 14 v eq_refl eq_refl C). subst v. auto. }
    assert (Zn : en 1 = Some 13).
    { destruct (H3 (XRV 0) (XRV 4)) as [v [A B]]; [left; reflexivity|]. simpl in A. rewrite A. f_equal.
      destruct B as (j & dx & vs & B1 & B2 & _ & ->). injection B1 as <-. simpl in B2. injection B2 as <-. reflexivity. }
    destruct X as [Xo Xn].
    inversion Hf as [|? ? f1 f2 F1 F2]; subst. inversion F2; subst. eapply term_zero in F1; [|reflexivity|discriminate].
    inversion Hb as [|? ? b1 b2 B1 B2]; subst. inversion B2; subst. eapply term_zero in B1; [|reflexivity|discriminate].
    inversion Hl as [|? ? l1 l2 L1 L2]; subst. inversion L2; subst. destruct L1 as (x & y & L3 & L4 & ->).
    eapply term_zero in L3; [|reflexivity|discriminate]. eapply term_zero in L4; [|reflexivity|discriminate].
    inversion Hd as [|? ? d1 d2 D1 D2]; subst. inversion D2; subst. destruct D1 as (x' & y' & D3 & D4 & ->).
    cbn [fst snd] in D3, D4.
    eapply term_prod in D3; [|reflexivity..]. eapply term_prod in D4; [|reflexivity..].
    inversion Hpn as [|? ? p1 p2 P1 P2]; subst. inversion P2 as [|? ? p3 p4 P3 P4]; subst. inversion P4; subst.
    inversion Hpo as [|? ? o1 o2 O1 O2]; subst. inversion O2 as [|? ? o3 o4 O3 O4]; subst. inversion O4; subst.
    inversion Hqf as [|? ? q1 q2 Q1 Q2]; subst. inversion Q2; subst. inversion Hqr as [|? ? r1 r2 R1 R2]; subst. inversion R2; subst.
    apply crowded_other in P1; [|auto]. apply crowded_other in O1; [|auto]. cbn [fst snd] in Q1, R1.
    apply crowded_other in Q1; [|auto]. apply crowded_other in R1; [|auto].
    apply (crowded_x _ _ _ 13 14) in P3; auto. apply (crowded_x _ _ _ 20 14) in O3; auto. subst. intros Heq.
    rewrite !INR_IZR_INZ in Heq. simpl in Heq. lra.
Qed.
