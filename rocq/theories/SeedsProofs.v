(** * Proofs for C73 *)
From Coq Require Import List Arith Bool NArith Lia.
From Verif Require Import Seeds SeedsSpec.
Import ListNotations.
Open Scope N_scope.

Lemma get_seed_graph : forall w s, gseed w = Some s ->
  get_seed w None = Some (if (s =? 0) && (last_id w =? 0) then (0, 2147483647) else (s, last_id w)).
Proof.
  intros w s H. unfold get_seed. rewrite H. destruct s as [|s], (last_id w) as [|o]; reflexivity.
Qed.

Lemma get_seed_nonzero : forall w own p, get_seed w own = Some p -> p <> (0, 0).
Proof.
  intros w own p H. unfold get_seed in H. destruct (gseed w) as [s|], own as [o|]; try discriminate.
  - destruct s as [|s], o as [|o]; injection H as <-; discriminate.
  - destruct s as [|s], (last_id w) as [|o]; injection H as <-; discriminate.
  - injection H as <-. discriminate.
Qed.

Lemma get_seed_some : forall w own, gseed w <> None -> exists p, get_seed w own = Some p.
Proof.
  intros w own H. unfold get_seed. destruct (gseed w) as [s|]; [|congruence].
  destruct own as [o|]; [destruct s, o|destruct s, (last_id w)]; eexists; reflexivity.
Qed.

(** ** Reproducible after set_seed *)
Definition seeded (w : world) : Prop :=
  gseed w <> None /\ np_seed w <> None /\ Forall (fun p => p <> (0, 0)) (rops w) /\ (rops w <> [] -> last_id w <> 0).

Lemma copied_nonzero : forall w p, gseed w <> None -> last_id w <> 0 -> copied_seeds w p <> (0, 0).
Proof.
  intros w [a b] Hg Hl. unfold copied_seeds. destruct (gseed w) as [s|] eqn:E; [|congruence].
  rewrite (get_seed_graph w s E). destruct (last_id w =? 0) eqn:Z; [apply N.eqb_eq in Z; congruence|].
  rewrite andb_false_r. cbn. congruence.
Qed.

Section Step.
Context {V : Type}.
Variable stream : N * N -> nat -> V.
Variable np_stream : N -> nat -> V.

Lemma step_same : forall w e python os python' os', seeded w -> e <> Scan true ->
  step stream np_stream python os w e = step stream np_stream python' os' w e.
Proof.
  intros w e py os py' os' (Hg & Hn & Hr & Hl) He. destruct e; cbn; try reflexivity.
  - destruct (nth_error (rops w) r) as [[a b]|] eqn:E; [|reflexivity].
    assert (H : (a, b) <> (0, 0)) by (apply (proj1 (Forall_forall _ _) Hr); eapply nth_error_In; exact E).
    destruct a as [|a]; [destruct b as [|b]; [congruence|]|]; reflexivity.
  - destruct random; [congruence|reflexivity].
  - destruct (np_seed w); [reflexivity|congruence].
Qed.

Lemma step_seeded : forall w e python os, seeded w -> seeded (fst (step stream np_stream python os w e)).
Proof.
  intros w e py os (Hg & Hn & Hr & Hl). destruct e; cbn.
  - destruct (last_id w =? 0); [|repeat split; assumption]. repeat split; cbn; try congruence; assumption.
  - repeat split; cbn; [assumption| assumption | rewrite app_nil_r; assumption | lia].
  - repeat split; cbn; [assumption| assumption | | lia]. apply Forall_app. split; [assumption|].
    constructor; [|constructor]. destruct (get_seed_some w own Hg) as [p E]. rewrite E. cbn. apply (get_seed_nonzero _ _ _ E).
  - destruct (nth_error (rops w) r) as [p|] eqn:E; [|repeat split; assumption].
    repeat split; cbn; [assumption| assumption | | lia]. apply Forall_app. split; [assumption|].
    constructor; [|constructor]. apply copied_nonzero; [assumption|]. apply Hl. intros Z. rewrite Z in E. destruct r; discriminate.
  - destruct (nth_error (rops w) r) as [[[|a] [|b]]|]; repeat split; assumption.
  - destruct random; repeat split; assumption.
  - destruct (np_seed w) eqn:E; repeat split; cbn; try congruence; assumption.
Qed.

Lemma run_same : forall p w python os python' os', seeded w -> ~ In (Scan true) p ->
  run stream np_stream python os w p = run stream np_stream python' os' w p.
Proof.
  induction p as [|e p IH]; intros w py os py' os' Hw Hp; [reflexivity|]. cbn.
  rewrite (step_same w e py os py' os' Hw) by (intros ->; apply Hp; left; reflexivity).
  pose proof (step_seeded w e py' os' Hw) as H.
  destruct (step stream np_stream py' os' w e) as [w1 a]. cbn in H.
  rewrite (IH w1 py os py' os' H) by (intros Q; apply Hp; right; exact Q). reflexivity.
Qed.
End Step.

Lemma reproducible : forall (V : Type) (stream : N * N -> nat -> V) np_stream x p python os python' os',
  no_random_scan p ->
  snd (run stream np_stream python os fresh (SetSeed x :: p)) = snd (run stream np_stream python' os' fresh (SetSeed x :: p)).
Proof.
  intros V stream np_stream x p py os py' os' Hp. cbn.
  rewrite (run_same stream np_stream p _ py os py' os'); [reflexivity| |exact Hp].
  repeat split; cbn; try congruence. constructor.
Qed.

(** ** Every random operation has its own stream *)
(** What is true of the seeds of the operations made so far. *)
Definition own_streams (w : world) : Prop :=
  match gseed w with
  | None => Forall (fun p => p = (0, 0)) (rops w)
  | Some s => NoDup (rops w) /\
              Forall (fun p => fst p = s /\ p <> (0, 0) /\ (snd p < last_id w \/ (s = 0 /\ snd p = 2147483647 /\ 0 < last_id w))) (rops w)
  end /\ (last_id w = 0 -> rops w = [] /\ ran w = []).

Lemma nodup_snoc : forall (A : Type) (l : list A) x, NoDup l -> ~ In x l -> NoDup (l ++ [x]).
Proof.
  intros A l x Hl Hx. rewrite <- (rev_involutive l). change [x] with (rev [x]). rewrite <- rev_app_distr.
  apply NoDup_rev. cbn. constructor; [rewrite <- in_rev; exact Hx|apply NoDup_rev; exact Hl].
Qed.

Section Own.
Context {V : Type}.
Variable stream : N * N -> nat -> V.
Variable np_stream : N -> nat -> V.
Variables python os : nat -> V.

Lemma new_own : forall w q, own_streams w -> last_id w < 2147483647 ->
  (gseed w = None -> q = (0, 0)) ->
  (forall s, gseed w = Some s -> q = (if (s =? 0) && (last_id w =? 0) then (0, 2147483647) else (s, last_id w))) ->
  own_streams (new_op w [q]).
Proof.
  intros w q [Hw Hz] Hlt Hn Hs. split; [|cbn; lia]. cbn [gseed new_op rops last_id].
  destruct (gseed w) as [s|].
  - destruct Hw as [Hd Hf]. specialize (Hs s eq_refl).
    assert (Hq : ~ In q (rops w)).
    { intros Q. pose proof (proj1 (Forall_forall _ _) Hf _ Q) as (H1 & H2 & H3). subst q.
      destruct (N.eqb_spec s 0) as [->|Ns], (N.eqb_spec (last_id w) 0) as [Z|Z]; cbn [andb fst snd] in *;
        try (destruct (Hz Z) as [E _]; rewrite E in Q; destruct Q); lia. }
    split; [apply nodup_snoc; assumption|]. apply Forall_app. split.
    + apply Forall_forall. intros p P. destruct (proj1 (Forall_forall _ _) Hf _ P) as (H1 & H2 & H3).
      split; [exact H1|]. split; [exact H2|]. lia.
    + constructor; [|constructor]. subst q.
      destruct (N.eqb_spec s 0) as [->|Ns], (N.eqb_spec (last_id w) 0) as [Z|Z]; cbn [andb fst snd];
        (split; [reflexivity|split; [|lia]]); intros Q; injection Q as Q1; congruence || (subst; lia) || discriminate || idtac.
  - apply Forall_app. split; [exact Hw|]. constructor; [apply Hn; reflexivity|constructor].
Qed.

Lemma step_own : forall w e, own_streams w -> (forall s, e <> Random (Some s)) -> last_id w < 2147483647 ->
  own_streams (fst (step stream np_stream python os w e)) /\
  last_id (fst (step stream np_stream python os w e)) <= last_id w + 1.
Proof.
  intros w e Hw He Hlt. pose proof Hw as [Ho Hz]. destruct e; cbn.
  - destruct (N.eqb_spec (last_id w) 0) as [Z|Z]; cbn; [|split; [exact Hw|lia]].
    split; [|lia]. split; cbn; [|exact Hz]. destruct (Hz Z) as [-> _]. split; constructor.
  - split; [|lia]. split; [|cbn; lia]. cbn. destruct (gseed w); rewrite app_nil_r; [|exact Ho].
    destruct Ho as [H1 H2]. split; [exact H1|]. apply Forall_forall. intros p P.
    destruct (proj1 (Forall_forall _ _) H2 _ P) as (H4 & H5 & H6). split; [exact H4|]. split; [exact H5|]. lia.
  - split; [|lia]. destruct own as [o|]; [destruct (He o); reflexivity|]. apply new_own; [exact Hw|exact Hlt| |].
    + intros E. unfold get_seed. rewrite E. reflexivity.
    + intros s E. rewrite (get_seed_graph w s E). reflexivity.
  - destruct (nth_error (rops w) r) as [p|] eqn:E; cbn; [|split; [exact Hw|lia]]. split; [|lia].
    apply nth_error_In in E.
    apply new_own; [exact Hw|exact Hlt| |].
    + intros G. rewrite G in Ho. rewrite (proj1 (Forall_forall _ _) Ho _ E). unfold copied_seeds, get_seed. rewrite G. reflexivity.
    + intros s G. rewrite G in Ho. destruct Ho as [_ Ho]. destruct (proj1 (Forall_forall _ _) Ho _ E) as (H1 & _).
      unfold copied_seeds. rewrite (get_seed_graph w s G). rewrite H1.
      destruct (N.eqb_spec s 0) as [->|], (N.eqb_spec (last_id w) 0); reflexivity.
  - destruct (nth_error (rops w) r) as [[[|a] [|b]]|] eqn:E; cbn; (split; [|lia]); try exact Hw; (split; cbn; [exact Ho|]);
      intros Z; destruct (Hz Z) as [Q _]; rewrite Q in E; destruct r; discriminate.
  - destruct random; (split; [exact Hw|cbn; lia]).
  - destruct (np_seed w); (split; [exact Hw|cbn; lia]).
Qed.

Lemma run_own : forall p w, own_streams w -> no_own_seed p -> last_id w + size p < 2147483648 ->
  own_streams (fst (run stream np_stream python os w p)).
Proof.
  induction p as [|e p IH]; intros w Hw Hp Hlt; [exact Hw|]. cbn.
  unfold size in *. cbn [length] in Hlt.
  destruct (step_own w e Hw) as [H1 H2]; [intros s ->; apply (Hp s); left; reflexivity|lia|].
  destruct (step stream np_stream python os w e) as [w1 a]. cbn [fst] in *.
  specialize (IH w1 H1). destruct (run stream np_stream python os w1 p) as [w2 b]. cbn [fst] in *. apply IH.
  - intros s Q. apply (Hp s). right. exact Q.
  - lia.
Qed.

(** What has been drawn so far. *)
Definition drawn (w : world) (v : V) : Prop :=
  (exists r q n, nth_error (rops w) r = Some q /\ q <> (0, 0) /\ v = stream q n /\ (n < count_occ Nat.eq_dec (ran w) r)%nat) \/
  (exists n, v = python n /\ (n < py_drawn w)%nat) \/ (exists n, v = os n /\ (n < os_drawn w)%nat).

Lemma own_inj : forall w i j q, own_streams w -> nth_error (rops w) i = Some q -> nth_error (rops w) j = Some q -> q <> (0, 0) -> i = j.
Proof.
  intros w i j q [Hw _] Hi Hj Hq. destruct (gseed w) as [s|].
  - destruct Hw as [Hd _]. apply (proj1 (NoDup_nth_error _) Hd); [apply nth_error_Some; congruence|congruence].
  - exfalso. apply Hq. apply (proj1 (Forall_forall _ _) Hw). eapply nth_error_In. exact Hi.
Qed.

Lemma count_snoc : forall r r' l, count_occ Nat.eq_dec (l ++ [r']) r = (count_occ Nat.eq_dec l r + if Nat.eq_dec r' r then 1 else 0)%nat.
Proof. intros r r' l. rewrite count_occ_app. cbn. destruct (Nat.eq_dec r' r); reflexivity. Qed.

(** A step draws at most one number, a new one. *)
Lemma step_drawn : forall w e, ideal stream python os -> own_streams w -> e <> Numpy ->
  (forall v, drawn w v -> drawn (fst (step stream np_stream python os w e)) v) /\
  (snd (step stream np_stream python os w e) = [] \/
   exists v, snd (step stream np_stream python os w e) = [v] /\ ~ drawn w v /\ drawn (fst (step stream np_stream python os w e)) v).
Proof.
  intros w e I Hw He. assert (Hgrow : forall l v, drawn w v -> drawn (new_op w l) v).
  { intros l v [(r & q & n & H1 & H2 & H3 & H4)|H]; [left|right; exact H]. exists r, q, n. repeat split; try assumption.
    cbn. rewrite nth_error_app1; [exact H1|]. apply nth_error_Some. congruence. }
  assert (Hos : forall rn py v, (forall r, (count_occ Nat.eq_dec (ran w) r <= count_occ Nat.eq_dec rn r)%nat) -> drawn w v -> (py_drawn w <= py)%nat ->
            forall o, (os_drawn w <= o)%nat -> forall ns nd, drawn (mkworld (gseed w) (last_id w) (rops w) rn ns nd py o) v).
  { intros rn py v Hrn Hv Hpy o Ho ns nd. destruct Hv as [(r & q & n & H1 & H2 & H3 & H4)|[(n & H1 & H2)|(n & H1 & H2)]].
    - left. exists r, q, n. repeat split; try assumption. cbn. specialize (Hrn r). lia.
    - right; left. exists n. split; [assumption|cbn; lia].
    - right; right. exists n. split; [assumption|cbn; lia]. }
  assert (Hrun : forall r k, (count_occ Nat.eq_dec (ran w) k <= count_occ Nat.eq_dec (ran w ++ [r]) k)%nat) by (intros; rewrite count_snoc; lia).
  destruct e; cbn.
  - destruct (N.eqb_spec (last_id w) 0) as [Z|Z]; cbn; (split; [|left; reflexivity]); [|tauto].
    intros v Hv. exact Hv.
  - split; [apply Hgrow|left; reflexivity].
  - split; [apply Hgrow|left; reflexivity].
  - destruct (nth_error (rops w) r); cbn; (split; [|left; reflexivity]); [apply Hgrow|tauto].
  - destruct (nth_error (rops w) r) as [q|] eqn:E; [|cbn; split; [tauto|left; reflexivity]].
    assert (HS : forall n1 n2, (n1, n2) = q -> q <> (0, 0) ->
       (forall v, drawn w v -> drawn (mkworld (gseed w) (last_id w) (rops w) (ran w ++ [r]) (np_seed w) (np_drawn w) (py_drawn w) (os_drawn w)) v) /\
       ([stream (n1, n2) (count_occ Nat.eq_dec (ran w) r)] = [] \/
        exists v, [stream (n1, n2) (count_occ Nat.eq_dec (ran w) r)] = [v] /\ ~ drawn w v /\
          drawn (mkworld (gseed w) (last_id w) (rops w) (ran w ++ [r]) (np_seed w) (np_drawn w) (py_drawn w) (os_drawn w)) v)).
    { intros n1 n2 Q Nz. rewrite Q. split.
      - intros v Hv. apply Hos; try lia; auto.
      - right. eexists. split; [reflexivity|]. split.
        + intros [(r' & q' & n & H1 & H2 & H3 & H4)|[(n & H1 & _)|(n & H1 & _)]].
          * destruct (i_stream _ _ _ I _ _ _ _ H3) as [<- <-]. rewrite (own_inj w r' r q Hw H1 E Nz) in H4. lia.
          * exact (i_stream_python _ _ _ I _ _ _ H1).
          * exact (i_stream_os _ _ _ I _ _ _ H1).
        + left. exists r, q, (count_occ Nat.eq_dec (ran w) r). repeat split; try assumption. cbn. rewrite count_snoc.
          destruct (Nat.eq_dec r r); [lia|congruence]. }
    destruct q as [[|a] [|b]]; cbn; try (apply HS; [reflexivity|discriminate]).
    split; [intros v Hv; apply Hos; try lia; auto|]. right. eexists. split; [reflexivity|]. split.
    + intros [(r' & q' & n & _ & _ & H3 & _)|[(n & H1 & _)|(n & H1 & H2)]].
      * symmetry in H3. exact (i_stream_os _ _ _ I _ _ _ H3).
      * symmetry in H1. exact (i_python_os _ _ _ I _ _ H1).
      * apply (i_os _ _ _ I) in H1. lia.
    + right; right. exists (os_drawn w). split; [reflexivity|cbn; lia].
  - destruct random; cbn; [|split; [tauto|left; reflexivity]]. split; [intros v Hv; apply Hos; try lia; auto|].
    right. eexists. split; [reflexivity|]. split.
    + intros [(r' & q' & n & _ & _ & H3 & _)|[(n & H1 & H2)|(n & H1 & _)]].
      * symmetry in H3. exact (i_stream_python _ _ _ I _ _ _ H3).
      * apply (i_python _ _ _ I) in H1. lia.
      * exact (i_python_os _ _ _ I _ _ H1).
    + right; left. exists (py_drawn w). split; [reflexivity|cbn; lia].
  - congruence.
Qed.

Lemma run_nodup : forall p w, ideal stream python os -> own_streams w -> no_own_seed p -> no_numpy p ->
  last_id w + size p < 2147483648 ->
  NoDup (snd (run stream np_stream python os w p)) /\ (forall v, In v (snd (run stream np_stream python os w p)) -> ~ drawn w v).
Proof.
  induction p as [|e p IH]; intros w I Hw Hp Hn Hlt; [split; [constructor|intros v []]|]. cbn.
  unfold size in *. cbn [length] in Hlt.
  destruct (step_own w e Hw) as [H1 H2]; [intros s ->; apply (Hp s); left; reflexivity|lia|].
  destruct (step_drawn w e I Hw) as [H3 H4]; [intros ->; apply Hn; left; reflexivity|].
  destruct (step stream np_stream python os w e) as [w1 a]. cbn [fst snd] in *.
  destruct (IH w1 I H1) as [H5 H6]; [intros s Q; apply (Hp s); right; exact Q|intros Q; apply Hn; right; exact Q|lia|].
  destruct (run stream np_stream python os w1 p) as [w2 b]. cbn [fst snd] in *.
  destruct H4 as [->|(v & -> & H7 & H8)]; cbn [app].
  - split; [exact H5|]. intros v Hv Q. exact (H6 v Hv (H3 v Q)).
  - split.
    + constructor; [intros Q; exact (H6 v Q H8)|exact H5].
    + intros u [<-|Hu] Q; [exact (H7 Q)|exact (H6 u Hu (H3 u Q))].
Qed.

Lemma fresh_own : own_streams fresh.
Proof. split; [constructor|intros _; split; reflexivity]. Qed.

Lemma fresh_noise : forall p, ideal stream python os -> no_own_seed p -> no_numpy p -> size p < 2147483648 ->
  NoDup (snd (run stream np_stream python os fresh p)).
Proof. intros p I Hp Hn Hlt. apply run_nodup; try assumption. exact fresh_own. Qed.
End Own.

(** ** The failures *)
Lemma run_app : forall (V : Type) (stream : N * N -> nat -> V) np_stream python os p q w,
  run stream np_stream python os w (p ++ q) =
  let (w1, a) := run stream np_stream python os w p in let (w2, b) := run stream np_stream python os w1 q in (w2, a ++ b).
Proof.
  induction p as [|e p IH]; intros q w; [cbn; destruct (run stream np_stream python os w q); reflexivity|].
  cbn [run app]. destruct (step stream np_stream python os w e) as [w1 a]. rewrite IH.
  destruct (run stream np_stream python os w1 p) as [w2 b]. destruct (run stream np_stream python os w2 q) as [w3 c].
  rewrite app_assoc. reflexivity.
Qed.

Lemma gibbs_refuted : forall (V : Type) (stream : N * N -> nat -> V) np_stream os x p q,
  forall python python' : nat -> V, (forall n, python n <> python' n) ->
  snd (run stream np_stream python os fresh (SetSeed x :: p ++ Scan true :: q)) <>
  snd (run stream np_stream python' os fresh (SetSeed x :: p ++ Scan true :: q)).
Proof.
  intros V stream np_stream os x p q py py' H.
  assert (G : forall p w, seeded w -> snd (run stream np_stream py os w (p ++ Scan true :: q)) <>
                                      snd (run stream np_stream py' os w (p ++ Scan true :: q))).
  { clear p. induction p as [|e p IH]; intros w Hw.
    - cbn [app run step]. intros Q.
      destruct (run stream np_stream py os _ q) as [w2 b], (run stream np_stream py' os _ q) as [w3 c].
      cbn in Q. injection Q as Q _. exact (H _ Q).
    - cbn [app run]. pose proof (step_seeded stream np_stream w e py' os Hw) as Hs.
      assert (D : e = Scan true \/ e <> Scan true) by (destruct e as [| | | | |[|]|]; try (right; discriminate); left; reflexivity).
      destruct D as [->|D].
      + cbn [step]. intros Q. destruct (run stream np_stream py os _ _) as [w2 b], (run stream np_stream py' os _ _) as [w3 c].
        cbn in Q. injection Q as Q _. exact (H _ Q).
      + rewrite (step_same stream np_stream w e py os py' os Hw D).
        destruct (step stream np_stream py' os w e) as [w1 a]. cbn [fst] in Hs. specialize (IH w1 Hs).
        destruct (run stream np_stream py os w1 (p ++ Scan true :: q)) as [w2 b],
                 (run stream np_stream py' os w1 (p ++ Scan true :: q)) as [w3 c].
        cbn [snd] in *. intros Q. apply IH. apply app_inv_head in Q. exact Q. }
  cbn [run step last_id fresh]. cbn [N.eqb]. specialize (G p (mkworld (Some x) 0 [] [] (Some x) 0 0 0)).
  destruct (run stream np_stream py os _ (p ++ Scan true :: q)) as [w2 b],
           (run stream np_stream py' os _ (p ++ Scan true :: q)) as [w3 c].
  cbn [snd app] in *. apply G. repeat split; cbn; try congruence. constructor.
Qed.

Lemma own_copy : forall (V : Type) (stream : N * N -> nat -> V) np_stream python os o,
  exists v, snd (run stream np_stream python os fresh [Random (Some o); Copy 0; Run 0; Run 1]) = [v; v].
Proof. intros. eexists. reflexivity. Qed.

Lemma plain_run : forall (V : Type) (stream : N * N -> nat -> V) np_stream python os n w,
  run stream np_stream python os w (repeat Plain n) =
  (mkworld (gseed w) (last_id w + N.of_nat n) (rops w) (ran w) (np_seed w) (np_drawn w) (py_drawn w) (os_drawn w), []).
Proof.
  induction n as [|n IH]; intros w; [cbn; rewrite N.add_0_r; destruct w; reflexivity|].
  cbn [repeat run step]. rewrite IH. cbn [app new_op last_id gseed rops ran np_seed np_drawn py_drawn os_drawn].
  rewrite app_nil_r. do 2 f_equal. lia.
Qed.

Lemma own_copy_seeded : forall (V : Type) (stream : N * N -> nat -> V) np_stream python os x n,
  exists v, snd (run stream np_stream python os fresh
                   (SetSeed x :: Random (Some (N.of_nat (S n))) :: repeat Plain n ++ [Copy 0; Run 0; Run 1])) = [v; v].
Proof.
  intros. exists (stream (x, N.of_nat (S n)) 0%nat).
  assert (E : forall w y, get_seed (mkworld (Some x) (N.of_nat (S n)) (rops w) (ran w) y 0 0 0) None = Some (x, N.of_nat (S n))).
  { intros w y. rewrite (get_seed_graph _ x) by reflexivity. cbn [last_id]. destruct (N.eqb_spec (N.of_nat (S n)) 0); [lia|].
    rewrite andb_false_r. reflexivity. }
  cbn [run step fresh last_id]. cbn [N.eqb]. rewrite run_app, plain_run.
  assert (P : attributes (get_seed (mkworld (Some x) 0 [] [] (Some x) 0 0 0) (Some (N.of_nat (S n)))) = (x, N.of_nat (S n))).
  { unfold get_seed. cbn [gseed]. destruct x; [destruct (N.of_nat (S n)) eqn:Z; [lia|]|]; reflexivity. }
  cbn [gseed np_seed np_drawn py_drawn os_drawn ran rops fresh last_id] in *. rewrite P.
  unfold new_op. cbn [gseed np_seed np_drawn py_drawn os_drawn ran rops last_id app run step nth_error].
  unfold copied_seeds. replace (0 + 1 + N.of_nat n) with (N.of_nat (S n)) by lia.
  specialize (E (mkworld None 0 [(x, N.of_nat (S n))] [] None 0 0 0) (Some x)). cbn [rops ran] in E. rewrite E.
  unfold new_op. cbn [gseed np_seed np_drawn py_drawn os_drawn ran rops last_id app run step nth_error fst].
  assert (Q : exists k, N.of_nat (S n) = Npos k) by (destruct (N.of_nat (S n)) eqn:Z; [lia|eauto]). destruct Q as [k ->].
  destruct x; reflexivity.
Qed.
