From Coq Require Import List Arith Bool Lia.
From Verif Require Import Feed FeedSpec.
Import ListNotations.

Section P.
Context {V : Type}.
Notation dict := (@dict V).
Notation data := (@data V).

Lemma get_set : forall (d : dict) k v k', dict_get (dict_set d k v) k' = if Nat.eqb k k' then Some v else dict_get d k'.
Proof.
  induction d as [|[a b] d IH]; intros k v k'; simpl; auto.
  destruct (Nat.eqb_spec a k) as [->|H]; simpl.
  - destruct (Nat.eqb k k'); auto.
  - rewrite IH. destruct (Nat.eqb_spec a k') as [->|H']; auto. destruct (Nat.eqb_spec k k'); congruence.
Qed.

Lemma bind_spec : forall (dt : data) fd, distinct dt -> feeds_bound dt fd (bind dt fd).
Proof.
  unfold distinct, feeds_bound, bind, bound, unbound.
  induction dt as [|[[k kd] v] dt IH]; intros fd Hnd; simpl.
  - split; [tauto|auto].
  - inversion Hnd as [|? ? Hni Hnd']; subst. simpl in *.
    set (fd1 := match kd with DPlace => dict_set fd k v | _ => fd end).
    destruct (IH fd1 Hnd') as [H1 H2]. split.
    + intros k0 v0 [E|Hin]; [|apply H1; auto]. inversion E; subst.
      rewrite H2; [unfold fd1; rewrite get_set, Nat.eqb_refl; auto|].
      intros w Hw. apply Hni. apply in_map_iff. exists (k0, DPlace, w). simpl; auto.
    + intros k0 Hu. rewrite H2. 2:{ intros w Hw. apply (Hu w). right; auto. }
      unfold fd1. destruct kd; auto. rewrite get_set. destruct (Nat.eqb_spec k k0); auto. subst.
      destruct (Hu v). left; auto.
Qed.

Lemma feeds_ok : forall a check log (dt : data) fd, distinct dt ->
  (forall runs, fst (feeds a check log dt fd) = Some runs -> forall f, In (Some f) runs -> feeds_bound dt (passed fd) f) /\
  feeds_bound dt (passed fd) (snd (feeds a check log dt fd)).
Proof.
  intros a check log dt fd Hd. pose proof (bind_spec dt (or_new fd) Hd) as Hb.
  assert (Hp : or_new fd = passed fd) by (destruct fd; auto). rewrite Hp in Hb. split.
  - unfold feeds. rewrite Hp. intros runs E f Hin.
    assert (Hf : f = bind dt (passed fd)).
    { destruct a as [| | |[[]|]|[[]|] []|], check, log; simpl in E; inversion E; subst; simpl in Hin; intuition congruence. }
    subst; auto.
  - unfold feeds. rewrite Hp. simpl. auto.
Qed.

(** The algorithm's own session run gets the feed. *)
Lemma feeds_main : forall a check log (dt : data) fd runs, a <> ABase ->
  fst (feeds a check log dt fd) = Some runs -> exists f rest, runs = Some f :: rest.
Proof.
  intros a check log dt fd runs Ha E. unfold feeds in E.
  destruct a as [| | |[[]|]|[[]|] []|]; simpl in E; inversion E; subst; try congruence; eauto.
Qed.

(** ** Gibbs *)
Definition holds (dt : data) (f : dict) : Prop := forall k v, given dt k v -> dict_get f k = Some v.

Lemma holds_set : forall dt f k v, holds dt f -> ungiven dt k -> holds dt (dict_set f k v).
Proof.
  intros dt f k v H Hu k' v' Hb. rewrite get_set. destruct (Nat.eqb_spec k k'); auto. subst. destruct (Hu v'); auto.
Qed.

Lemma holds_update : forall dt d f, holds dt f -> (forall k v, In (k, v) d -> ungiven dt k) -> holds dt (dict_update f d).
Proof.
  intros dt d. unfold dict_update. induction d as [|[k v] d IH]; intros f H Hu; simpl; auto.
  apply IH; [|intros; eapply Hu; right; eauto]. apply holds_set; auto. eapply Hu; left; eauto.
Qed.

Lemma get_update_other : forall d (f : dict) k, (forall v, ~ In (k, v) d) -> dict_get (dict_update f d) k = dict_get f k.
Proof.
  unfold dict_update. induction d as [|[k' v'] d IH]; intros f k H; simpl; auto.
  rewrite IH; [|intros v Hv; apply (H v); right; auto]. rewrite get_set.
  destruct (Nat.eqb_spec k' k); auto. subst. destruct (H v'); left; auto.
Qed.
Lemma get_update : forall d (f : dict) k v, NoDup (map fst d) -> In (k, v) d -> dict_get (dict_update f d) k = Some v.
Proof.
  induction d as [|[k' v'] d IH]; intros f k v Hn Hin; simpl in *; [tauto|]. inversion Hn; subst.
  destruct Hin as [E|Hin].
  - inversion E; subst. change (dict_update f ((k, v) :: d)) with (dict_update (dict_set f k v) d).
    rewrite get_update_other. { rewrite get_set, Nat.eqb_refl; auto. }
    intros w Hw. apply H1. change k with (fst (k, w)). apply in_map; auto.
  - apply IH; auto.
Qed.

Lemma scan_block_get : forall draw (fd : dict) block k, ~ In k block -> dict_get (scan_block draw fd block) k = dict_get fd k.
Proof.
  intros draw fd block k. unfold scan_block. generalize fd at 2 3. intros acc. revert acc.
  induction block as [|z b IH]; intros acc H; simpl in *; auto. rewrite IH by tauto. rewrite get_set.
  destruct (Nat.eqb_spec z k); auto. subst; tauto.
Qed.

Lemma scan_blocks_get : forall draw blocks (fd : dict) k, (forall b, In b blocks -> ~ In k b) ->
  (forall f, In f (fst (scan_blocks draw fd blocks)) -> dict_get f k = dict_get fd k) /\
  dict_get (snd (scan_blocks draw fd blocks)) k = dict_get fd k.
Proof.
  intros draw blocks. induction blocks as [|b bs IH]; intros fd k H; simpl.
  - split; auto. tauto.
  - destruct (IH (scan_block draw fd b) k) as [H1 H2]. { intros; apply H; right; auto. }
    assert (Hb : dict_get (scan_block draw fd b) k = dict_get fd k) by (apply scan_block_get, H; left; auto).
    destruct (scan_blocks draw (scan_block draw fd b) bs) as [runs fd']. simpl in *. split.
    + intros f [<-|Hf]; auto. rewrite H1; auto.
    + congruence.
Qed.

Lemma init_data_holds : forall (dt : data) f, distinct dt -> holds dt (init_data dt f).
Proof.
  assert (Hother : forall (dt : data) f k, ~ In k (map (fun x => fst (fst x)) dt) -> dict_get (init_data dt f) k = dict_get f k).
  { intros dt. unfold init_data. induction dt as [|[[k kd] v] dt IH]; intros f k0 Hn; simpl in *; auto.
    rewrite IH by tauto. destruct kd; auto; rewrite get_set; destruct (Nat.eqb_spec k k0); auto; subst; tauto. }
  intros dt. unfold distinct. induction dt as [|[[k kd] v] dt IH]; intros f Hn k0 v0 Hb.
  - destruct Hb as [[]|[]].
  - simpl in Hn. inversion Hn; subst. destruct Hb as [[E|Hb]|[E|Hb]].
    + inversion E; subst. change (init_data ((k0, DPlace, v0) :: dt) f) with (init_data dt (dict_set f k0 v0)).
      rewrite Hother by auto. rewrite get_set, Nat.eqb_refl; auto.
    + assert (given dt k0 v0) by (left; auto). destruct kd; apply IH; auto.
    + inversion E; subst. change (init_data ((k0, DObserved, v0) :: dt) f) with (init_data dt (dict_set f k0 v0)).
      rewrite Hother by auto. rewrite get_set, Nat.eqb_refl; auto.
    + assert (given dt k0 v0) by (right; auto). destruct kd; apply IH; auto.
Qed.

Lemma gibbs_history : forall (latent : dict) (dt : data) draw calls self, distinct dt ->
  (self = [] \/ holds dt self) ->
  (forall fd blocks check log, In (fd, blocks, check, log) calls ->
     (forall k v, In (k, v) (passed fd) -> ungiven dt k) /\
     (forall b k, In b blocks -> In k b -> ungiven dt k)) ->
  (forall runs f, In runs (fst (gibbs_run latent dt draw self calls)) -> In f runs -> holds dt f).
Proof.
  intros latent dt draw calls. induction calls as [|[[[fd blocks] check] log] cs IH]; intros self Hd Hs Hc runs f Hr Hf.
  - destruct Hr.
  - simpl in Hr. destruct (Hc fd blocks check log (or_introl eq_refl)) as [Hu Hz].
    unfold gibbs_update in Hr.
    set (self1 := match self with [] => init_data dt (init_latent latent []) | _ => self end) in *.
    assert (H1 : holds dt self1).
    { unfold self1. destruct self; [apply init_data_holds; auto|]. destruct Hs; [discriminate|auto]. }
    assert (H2 : holds dt (dict_update self1 (or_new fd))).
    { apply holds_update; [auto|exact Hu]. }
    assert (H3 : (forall f, In f (fst (scan_blocks draw (dict_update self1 (or_new fd)) blocks)) -> holds dt f) /\
                 holds dt (snd (scan_blocks draw (dict_update self1 (or_new fd)) blocks))).
    { assert (Hk : forall k v, given dt k v -> forall b, In b blocks -> ~ In k b).
      { intros k v Hb b Hin Hkb. apply (Hz b k Hin Hkb v); auto. }
      split.
      - intros f0 Hf0 k v Hb. destruct (scan_blocks_get draw blocks (dict_update self1 (or_new fd)) k) as [A _].
        { eapply Hk; eauto. } rewrite A; auto.
      - intros k v Hb. destruct (scan_blocks_get draw blocks (dict_update self1 (or_new fd)) k) as [_ A].
        { eapply Hk; eauto. } rewrite A; auto. }
    destruct (scan_blocks draw (dict_update self1 (or_new fd)) blocks) as [rs self3]. simpl in H3. destruct H3 as [H3 H4].
    destruct (gibbs_run latent dt draw self3 cs) as [rss s] eqn:Eg. simpl in Hr. destruct Hr as [<-|Hr].
    + apply in_app_iff in Hf. destruct Hf as [Hf|[<-|Hf]]; auto.
      apply in_app_iff in Hf. destruct check, log; simpl in Hf; intuition (subst; auto).
    + eapply (IH self3); eauto. { intros; eapply Hc; right; eauto. } rewrite Eg; auto.
Qed.

Lemma gibbs_passes : forall (latent : dict) (dt : data) draw blocks check log self fd runs self',
  gibbs_update latent dt draw blocks check log self (Some fd) = (runs, self') -> NoDup (map fst fd) ->
  forall k v, In (k, v) fd -> (forall b, In b blocks -> ~ In k b) -> forall f, In f runs -> dict_get f k = Some v.
Proof.
  intros latent dt draw blocks check log self fd runs self' E Hn k v Hk Hb f Hf. unfold gibbs_update in E. simpl or_new in E.
  set (self1 := match self with [] => init_data dt (init_latent latent []) | _ => self end) in *.
  destruct (scan_blocks_get draw blocks (dict_update self1 fd) k Hb) as [A B].
  rewrite (get_update fd self1 k v Hn Hk) in A, B.
  destruct (scan_blocks draw (dict_update self1 fd) blocks) as [rs s3]. simpl in A, B. injection E as <- _.
  apply in_app_iff in Hf. destruct Hf as [Hf|[<-|Hf]]; auto.
  apply in_app_iff in Hf. destruct check, log; simpl in Hf; intuition (subst; auto).
Qed.
End P.

Lemma gibbs_refuted : exists (latent : dict) (dt : data) draw (k : nat) (v : nat), distinct dt /\ bound dt k v /\
  (exists fd runs self, gibbs_update latent dt draw [[0]] false false [] (Some fd) = (runs, self) /\
     exists f, In f runs /\ dict_get f k <> Some v /\
     (* the next update, without a dictionary, still feeds the other value *)
     exists runs' self', gibbs_update latent dt draw [[0]] false false self None = (runs', self') /\
       exists f', In f' runs' /\ dict_get f' k <> Some v).
Proof.
  exists [(0, 7)], [(1, DPlace, 5)], (fun _ _ => 8), 1, 5. split; [repeat constructor; simpl; tauto|].
  split; [left; auto|]. exists [(1, 6)]. do 2 eexists. split; [reflexivity|].
  eexists. split; [left; reflexivity|]. split; [discriminate|].
  do 2 eexists. split; [reflexivity|]. eexists. split; [left; reflexivity|]. discriminate.
Qed.
