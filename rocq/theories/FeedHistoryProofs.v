(** * Proofs for C94. *)
From Coq Require Import List Arith Bool Lia.
From Verif Require Import Feed FeedSpec FeedProofs.
From Verif Require Import FeedHistory FeedHistorySpec.
Import ListNotations.

Section P.
Context {V : Type}.
Notation event := (@event V).
Notation heap := (@heap V).

Lemma bound_dec : forall (dt : @data V) k, (exists v, bound dt k v) \/ unbound dt k.
Proof.
  unfold bound, unbound. induction dt as [|[[j kd] w] dt IH]; intros k; [right; intros v []|].
  destruct (IH k) as [(v & H)|H]; [left; exists v; right; exact H|].
  destruct (Nat.eq_dec j k) as [->|N]; [destruct kd; [left; exists w; left; reflexivity| |]|]; right; intros v [E|K]; try (inversion E; congruence); exact (H v K).
Qed.
Lemma feed_is : forall a check log (dt : @data V) fd f, snd (feeds a check log dt fd) = f -> f = bind dt (passed fd).
Proof. intros a check log dt fd f <-. unfold feeds. destruct fd; reflexivity. Qed.

(** What one event leaves in a dictionary of the program. *)
Lemma happen_writes : forall (h : heap) ev r k v, data_ok ev -> writes r k v ev -> dict_get (h_dict (snd (happen h ev)) r) k = Some v.
Proof.
  intros h ev r k v Ok W. destruct W as [|a check log dt B].
  - cbn. unfold put. rewrite Nat.eqb_refl, get_set, Nat.eqb_refl. reflexivity.
  - cbn [happen argument]. destruct (feeds a check log dt (Some (h_dict h r))) as [runs d] eqn:E. cbn. unfold put. rewrite Nat.eqb_refl.
    assert (D : d = bind dt (h_dict h r)) by (apply (feed_is a check log dt (Some (h_dict h r))); rewrite E; reflexivity). subst d.
    apply (bind_spec dt (h_dict h r) Ok). exact B.
Qed.
Lemma happen_keeps : forall (h : heap) ev r k, data_ok ev -> (forall v, ~ writes r k v ev) -> dict_get (h_dict (snd (happen h ev)) r) k = dict_get (h_dict h r) k.
Proof.
  intros h ev r k Ok W. destruct ev as [r' k' v'|a check log dt r'|i latent dt draw blocks check log r'].
  - cbn. unfold put. destruct (Nat.eqb_spec r' r) as [->|N]; [|reflexivity]. rewrite get_set. destruct (Nat.eqb_spec k' k) as [->|N]; [|reflexivity]. destruct (W v'). constructor.
  - cbn [happen]. destruct (feeds a check log dt (argument h r')) as [runs d] eqn:E. cbn [snd]. destruct r' as [r'|]; [|reflexivity].
    cbn. unfold put. destruct (Nat.eqb_spec r' r) as [->|N]; [|reflexivity].
    assert (D : d = bind dt (h_dict h r)) by (apply (feed_is a check log dt (Some (h_dict h r))); cbn [argument] in E; rewrite E; reflexivity). subst d.
    apply (bind_spec dt (h_dict h r) Ok). intros v B. apply (W v). constructor. exact B.
  - cbn [happen]. destruct (gibbs_update latent dt draw blocks check log (h_gibbs h i) (argument h r')) as [runs self]. reflexivity.
Qed.

Lemma history_app : forall evs evs' (h : heap), history (evs ++ evs') h = history evs' (history evs h).
Proof. intros. apply fold_left_app. Qed.
Lemma history_keeps : forall evs (h : heap) r k, Forall data_ok evs -> (forall ev v, In ev evs -> ~ writes r k v ev) ->
  dict_get (h_dict (history evs h) r) k = dict_get (h_dict h r) k.
Proof.
  induction evs as [|ev evs IH]; intros h r k Ok W; [reflexivity|]. inversion Ok; subst.
  change (dict_get (h_dict (history evs (snd (happen h ev))) r) k = dict_get (h_dict h r) k).
  rewrite IH; [apply happen_keeps; [assumption|intros v; apply W; left; reflexivity]|assumption|intros e v I; apply W; right; exact I].
Qed.
Theorem dictionary_holds : forall evs (h : heap) r k o, Forall data_ok evs -> latest (writes r k) (dict_get (h_dict h r) k) evs o ->
  dict_get (h_dict (history evs h) r) k = o.
Proof.
  intros evs h r k o Ok L. destruct L as [evs W|evs ev evs' v W L].
  - apply history_keeps; assumption.
  - apply Forall_app in Ok. destruct Ok as [_ Ok]. inversion Ok; subst. rewrite history_app.
    change (dict_get (h_dict (history evs' (snd (happen (history evs h) ev))) r) k = Some v). rewrite history_keeps by assumption. apply happen_writes; assumption.
Qed.

(** Every feed of an update. *)
Lemma update_feeds : forall (h : heap) a check log dt r f, distinct dt -> In f (fst (happen h (Update a check log dt r))) ->
  feeds_bound dt (passed (argument h r)) f.
Proof.
  intros h a check log dt r f D I. cbn [happen] in I. pose proof (feeds_ok a check log dt (argument h r) D) as [F _].
  destruct (feeds a check log dt (argument h r)) as [[runs|] d] eqn:E; cbn in I; [|contradiction].
  apply in_flat_map in I. destruct I as ([g|] & I & J); [|contradiction]. destruct J as [->|[]]. apply (F runs); [reflexivity|exact I].
Qed.

Theorem shared_feed : forall evs (h : heap) a check log dt r f k o, Forall data_ok evs -> distinct dt ->
  In f (fst (happen (history evs h) (Update a check log dt (Some r)))) ->
  (forall v, bound dt k v -> dict_get f k = Some v) /\
  (unbound dt k -> latest (writes r k) (dict_get (h_dict h r) k) evs o -> dict_get f k = o).
Proof.
  intros evs h a check log dt r f k o Ok D I. destruct (update_feeds _ _ _ _ _ _ _ D I) as [F1 F2]. split; [intros v B; exact (F1 k v B)|].
  intros U L. rewrite (F2 k U). cbn. exact (dictionary_holds evs h r k o Ok L).
Qed.

Lemma latest_iff : forall (p q : V -> event -> Prop) old evs o, (forall ev v, In ev evs -> (p v ev <-> q v ev)) -> latest p old evs o -> latest q old evs o.
Proof.
  intros p q old evs o H L. destruct L as [evs W|evs ev evs' v W L].
  - constructor 1. intros ev v I K. apply (W ev v I). apply H; assumption.
  - constructor 2; [apply H; [apply in_or_app; right; left; reflexivity|exact W]|]. intros ev' v' I K. apply (L ev' v' I). apply H; [apply in_or_app; right; right; exact I|exact K].
Qed.
Theorem own_feed : forall evs (h : heap) a check log dt r f k o, Forall data_ok evs -> distinct dt ->
  (forall a' c' l' dt', In (Update a' c' l' dt' (Some r)) evs -> unbound dt' k) ->
  In f (fst (happen (history evs h) (Update a check log dt (Some r)))) -> unbound dt k ->
  latest (assigns r k) (dict_get (h_dict h r) k) evs o -> dict_get f k = o.
Proof.
  intros evs h a check log dt r f k o Ok D N I U L. apply (shared_feed evs h a check log dt r f k o Ok D I); [exact U|].
  apply (latest_iff (assigns r k)); [|exact L]. intros ev v J. split.
  - intros [ ]. constructor.
  - intros W. destruct W as [|a' c' l' dt' B]; [constructor|]. destruct (N a' c' l' dt' J v B).
Qed.

Theorem none_feed : forall evs (h : heap) a check log dt f k, distinct dt ->
  In f (fst (happen (history evs h) (Update a check log dt None))) ->
  (forall v, bound dt k v -> dict_get f k = Some v) /\ (unbound dt k -> dict_get f k = None).
Proof. intros evs h a check log dt f k D I. destruct (update_feeds _ _ _ _ _ _ _ D I) as [F1 F2]. split; [intros v B; exact (F1 k v B)|]. intros U. rewrite (F2 k U). reflexivity. Qed.

(** ** Gibbs *)
Lemma gibbs_caller : forall (h : heap) i latent dt draw blocks check log r r', h_dict (snd (happen h (GibbsUpdate i latent dt draw blocks check log r))) r' = h_dict h r'.
Proof. intros. cbn [happen]. destruct (gibbs_update latent dt draw blocks check log (h_gibbs h i) (argument h r)) as [runs self]. reflexivity. Qed.

Lemma block_keeps : forall draw blk (f0 : @dict V) k, ~ In k blk -> dict_get (scan_block draw f0 blk) k = dict_get f0 k.
Proof.
  intros draw blk f0 k H. unfold scan_block. assert (G : forall l acc, ~ In k l -> dict_get (fold_left (fun acc z => dict_set acc z (draw z f0)) l acc) k = dict_get acc k).
  { induction l as [|z l IH]; intros acc N; [reflexivity|]. cbn. rewrite IH by (intros I; apply N; right; exact I). rewrite get_set. destruct (Nat.eqb_spec z k) as [->|Z]; [destruct N; left; reflexivity|reflexivity]. }
  apply G, H.
Qed.
Lemma scan_keeps : forall draw blocks (f0 : @dict V) k, (forall b, In b blocks -> ~ In k b) ->
  dict_get (snd (scan_blocks draw f0 blocks)) k = dict_get f0 k /\ forall f, In f (fst (scan_blocks draw f0 blocks)) -> dict_get f k = dict_get f0 k.
Proof.
  induction blocks as [|b bs IH]; intros f0 k H; [cbn; split; [reflexivity|intros f []]|].
  cbn [scan_blocks]. destruct (IH (scan_block draw f0 b) k ltac:(intros b' I; apply H; right; exact I)) as [A B].
  destruct (scan_blocks draw (scan_block draw f0 b) bs) as [runs fd']. cbn [fst snd] in *.
  assert (E : dict_get (scan_block draw f0 b) k = dict_get f0 k) by (apply block_keeps, H; left; reflexivity).
  split; [congruence|]. intros f [<-|I]; [reflexivity|]. rewrite (B f I). exact E.
Qed.
Lemma get_some_nonempty : forall (d : @dict V) k v, dict_get d k = Some v -> d <> [].
Proof. intros [|x d] k v E; [discriminate|discriminate]. Qed.
Lemma update_get : forall d (f : @dict V) k, dict_get (dict_update f d) k = match dict_get (rev d) k with Some v => Some v | None => dict_get f k end.
Proof.
  intros d f k. unfold dict_update. rewrite <- (rev_involutive d) at 1. generalize (rev d) as l. induction l as [|[j w] l IH]; [reflexivity|].
  cbn [rev]. rewrite fold_left_app. cbn [fold_left fst snd]. rewrite get_set, IH. cbn [dict_get]. destruct (Nat.eqb j k); reflexivity.
Qed.
Lemma update_none : forall d (f : @dict V) k, dict_get d k = None -> dict_get (dict_update f d) k = dict_get f k.
Proof.
  intros d f k E. apply get_update_other. intros v I. induction d as [|[j w] d IH]; [contradiction|]. cbn in E. destruct (Nat.eqb_spec j k) as [->|N]; [discriminate|]. destruct I as [I|I]; [inversion I; congruence|exact (IH E I)].
Qed.
Lemma update_distinct : forall d (f : @dict V) k v, NoDup (map fst d) -> dict_get d k = Some v -> dict_get (dict_update f d) k = Some v.
Proof.
  unfold dict_update. induction d as [|[j w] d IH]; intros f k v N E; [discriminate|]. inversion N as [|? ? N1 N2]; subst. cbn in E |- *.
  destruct (Nat.eqb_spec j k) as [->|Z].
  - inversion E; subst. change (dict_get (dict_update (dict_set f k v) d) k = Some v). rewrite (get_update_other d (dict_set f k v) k); [rewrite get_set, Nat.eqb_refl; reflexivity|].
    intros u I. apply N1. apply in_map_iff. exists (k, u). split; [reflexivity|exact I].
  - apply IH; assumption.
Qed.

Lemma gibbs_value : forall latent (dt : @data V) draw blocks check log self fd k v, (forall b, In b blocks -> ~ In k b) ->
  dict_get (dict_update (match self with [] => init_data dt (init_latent latent []) | _ => self end) (or_new fd)) k = Some v ->
  (forall f, In f (fst (gibbs_update latent dt draw blocks check log self fd)) -> dict_get f k = Some v) /\
  dict_get (snd (gibbs_update latent dt draw blocks check log self fd)) k = Some v.
Proof.
  intros latent dt draw blocks check log self fd k v H E. unfold gibbs_update.
  set (s := dict_update _ _) in *. destruct (scan_keeps draw blocks s k H) as [A B]. destruct (scan_blocks draw s blocks) as [runs s']. cbn [fst snd] in *.
  split; [|congruence]. intros f I. apply in_app_or in I. destruct I as [I|[<-|I]]; [rewrite (B f I); exact E|congruence|].
  apply in_app_or in I. destruct check, log; cbn in I; intuition congruence.
Qed.

Theorem gibbs_keeps : forall evs (h : heap) i k v, dict_get (h_gibbs h i) k = Some v -> Forall (leaves i k) evs ->
  (forall evs1 latent dt draw blocks check log r evs2, evs = evs1 ++ GibbsUpdate i latent dt draw blocks check log (Some r) :: evs2 ->
     dict_get (h_dict (history evs1 h) r) k = None) ->
  dict_get (h_gibbs (history evs h) i) k = Some v.
Proof.
  induction evs as [|ev evs IH]; intros h i k v G Lv N; [exact G|]. inversion Lv as [|? ? L1 L2]; subst.
  change (dict_get (h_gibbs (history evs (snd (happen h ev))) i) k = Some v). apply IH; [|exact L2|].
  - destruct ev as [r' k' v'|a check log dt r'|j latent dt draw blocks check log r']; [exact G| |].
    + cbn [happen]. destruct (feeds a check log dt (argument h r')) as [runs d]. destruct r'; exact G.
    + cbn [happen]. pose proof (gibbs_value latent dt draw blocks check log (h_gibbs h j) (argument h r') k v) as GV.
      destruct (gibbs_update latent dt draw blocks check log (h_gibbs h j) (argument h r')) as [runs self] eqn:E. cbn [snd h_gibbs]. unfold put.
      destruct (Nat.eqb_spec j i) as [->|Z]; [|exact G]. apply GV; [exact (L1 eq_refl)|].
      assert (S' : match h_gibbs h i with [] => init_data dt (init_latent latent []) | _ => h_gibbs h i end = h_gibbs h i) by (destruct (h_gibbs h i); [discriminate|reflexivity]).
      rewrite S'. destruct r' as [r'|]; [|exact G]. cbn [argument or_new]. rewrite update_none; [exact G|]. exact (N [] latent dt draw blocks check log r' evs eq_refl).
  - intros evs1 latent dt draw blocks check log r evs2 E. exact (N (ev :: evs1) latent dt draw blocks check log r evs2 (f_equal (cons ev) E)).
Qed.

Theorem gibbs_sticky : forall evs (h : heap) i k v latent dt draw blocks check log r latent' dt' draw' blocks' check' log' f,
  NoDup (map fst (h_dict h r)) -> dict_get (h_dict h r) k = Some v ->
  let first := GibbsUpdate i latent dt draw blocks check log (Some r) in
  let later := GibbsUpdate i latent' dt' draw' blocks' check' log' None in
  Forall (leaves i k) (first :: evs ++ [later]) ->
  (forall evs1 latent dt draw blocks check log r evs2, evs = evs1 ++ GibbsUpdate i latent dt draw blocks check log (Some r) :: evs2 ->
     dict_get (h_dict (history (first :: evs1) h) r) k = None) ->
  In f (fst (happen (history (first :: evs) h) later)) -> dict_get f k = Some v.
Proof.
  intros evs h i k v latent dt draw blocks check log r latent' dt' draw' blocks' check' log' f ND E first later Lv N I.
  inversion Lv as [|? ? L1 L2]; subst. apply Forall_app in L2. destruct L2 as [L2 L3]. inversion L3 as [|? ? L4 _]; subst.
  assert (G1 : dict_get (h_gibbs (snd (happen h first)) i) k = Some v).
  { unfold first. cbn [happen argument]. pose proof (gibbs_value latent dt draw blocks check log (h_gibbs h i) (Some (h_dict h r)) k v (L1 eq_refl)) as GV.
    destruct (gibbs_update latent dt draw blocks check log (h_gibbs h i) (Some (h_dict h r))) as [runs self]. cbn [snd h_gibbs]. unfold put. rewrite Nat.eqb_refl. apply GV.
    cbn [or_new]. apply update_distinct; assumption. }
  assert (G2 : dict_get (h_gibbs (history (first :: evs) h) i) k = Some v).
  { change (dict_get (h_gibbs (history evs (snd (happen h first))) i) k = Some v). apply gibbs_keeps; [exact G1|exact L2|]. exact N. }
  set (h' := history (first :: evs) h) in *. unfold later in I. cbn [happen argument] in I.
  pose proof (gibbs_value latent' dt' draw' blocks' check' log' (h_gibbs h' i) None k v (L4 eq_refl)) as GV.
  destruct (gibbs_update latent' dt' draw' blocks' check' log' (h_gibbs h' i) None) as [runs self]. cbn [fst] in *. apply GV; [|exact I].
  cbn [or_new]. unfold dict_update. cbn [fold_left]. destruct (h_gibbs h' i); [discriminate|exact G2].
Qed.
End P.

Theorem caller_refuted : exists (h : @heap nat) dt dt' r k f, distinct dt /\ distinct dt' /\ unbound dt' k /\
  dict_get (h_dict h r) k = Some 5 /\
  fst (happen (history [Update AVariational false false dt (Some r)] h) (Update AVariational false false dt' (Some r))) = [f] /\
  dict_get f k = Some 10 /\
  (exists g, fst (happen h (Update AVariational false false dt' (Some r))) = [g] /\ dict_get g k = Some 5).
Proof.
  exists (mkheap (fun _ => [(1, 5)]) (fun _ => [])), [(1, DPlace, 10)], [(2, DPlace, 20)], 0, 1, [(1, 10); (2, 20)].
  split; [repeat constructor; cbn; lia|]. split; [repeat constructor; cbn; lia|].
  split; [intros v [E|[]]; inversion E|]. split; [reflexivity|]. split; [reflexivity|]. split; [reflexivity|].
  exists [(1, 5); (2, 20)]. split; reflexivity.
Qed.
