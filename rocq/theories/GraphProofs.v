(** Proofs about the graph queries. *)
From Coq Require Import List Arith Bool Lia Permutation.
From Coq Require Import Relations.
From Verif Require Import Graph GraphSpec.
Import ListNotations.

(** ** Basic facts *)

Lemma memb_iff : forall x l, memb x l = true <-> In x l.
Proof.
  intros x l. unfold memb. rewrite existsb_exists. split.
  - intros [y [H1 H2]]. apply Nat.eqb_eq in H2. now subst.
  - intros H. exists x. split; auto. apply Nat.eqb_refl.
Qed.

Lemma node_eqb_iff : forall a b, node_eqb a b = true <-> a = b.
Proof.
  intros [r|t] [s|u]; simpl; try (split; [discriminate|congruence]);
  rewrite Nat.eqb_eq; split; congruence.
Qed.

Lemma node_mem_iff : forall x l, node_mem x l = true <-> In x l.
Proof.
  intros x l. unfold node_mem. rewrite existsb_exists. split.
  - intros [y [H1 H2]]. apply node_eqb_iff in H2. now subst.
  - intros H. exists x. split; auto. now apply node_eqb_iff.
Qed.

Lemma node_mem_false : forall x l, node_mem x l = false <-> ~ In x l.
Proof.
  intros x l. rewrite <- node_mem_iff. destruct (node_mem x l); split; congruence.
Qed.

Lemma add_nat_In : forall s n m, In m (add_nat s n) <-> In m s \/ m = n.
Proof.
  intros s n m. unfold add_nat. destruct (memb n s) eqn:E.
  - apply memb_iff in E. split; [tauto|]. intros [H|H]; subst; auto.
  - simpl. split; intros [H|H]; subst; auto.
Qed.

Lemma add_nat_NoDup : forall s n, NoDup s -> NoDup (add_nat s n).
Proof.
  intros s n H. unfold add_nat. destruct (memb n s) eqn:E; auto.
  constructor; auto. intros Hi. apply memb_iff in Hi. congruence.
Qed.

Lemma add_nats_In : forall ns s m, In m (add_nats s ns) <-> In m s \/ In m ns.
Proof.
  induction ns as [|n ns IH]; intros s m; simpl.
  - tauto.
  - rewrite IH, add_nat_In. split; intuition.
Qed.

Lemma add_nats_NoDup : forall ns s, NoDup s -> NoDup (add_nats s ns).
Proof.
  induction ns as [|n ns IH]; intros s H; simpl; auto.
  apply IH. now apply add_nat_NoDup.
Qed.

Lemma add_node_In : forall s n m, In m (add_node s n) <-> In m s \/ m = n.
Proof.
  intros s n m. unfold add_node. destruct (node_mem n s) eqn:E.
  - apply node_mem_iff in E. split; [tauto|]. intros [H|H]; subst; auto.
  - simpl. split; intros [H|H]; subst; auto.
Qed.

Lemma add_node_NoDup : forall s n, NoDup s -> NoDup (add_node s n).
Proof.
  intros s n H. unfold add_node. destruct (node_mem n s) eqn:E; auto.
  constructor; auto. now apply node_mem_false.
Qed.

Lemma add_nodes_In : forall ts s m,
  In m (add_nodes s ts) <-> In m s \/ exists t, In t ts /\ m = NT t.
Proof.
  unfold add_nodes.
  induction ts as [|n ns IH]; intros s m; simpl.
  - split; [tauto|]. intros [H|[t [[] _]]]; auto.
  - rewrite IH, add_node_In. split.
    + intros [[H|H]|[t [H1 H2]]]; eauto.
    + intros [H|[t [[H1|H1] H2]]]; subst; eauto.
Qed.

Lemma add_nodes_NoDup : forall ts s, NoDup s -> NoDup (add_nodes s ts).
Proof.
  unfold add_nodes.
  induction ts as [|n ns IH]; intros s H; simpl; auto.
  apply IH. now apply add_node_NoDup.
Qed.

Lemma remove_at_split : forall {A} (l : list A) i d, i < length l ->
  Permutation l (nth i l d :: remove_at i l).
Proof.
  induction l as [|a l IH]; intros i d H; simpl in H; [lia|].
  destruct i as [|i]; simpl; auto.
  eapply perm_trans; [apply perm_skip; apply (IH i d); lia|].
  apply perm_swap.
Qed.

Lemma find_rev_in : forall (f : nat -> bool) l r,
  find f (rev l) = Some r -> In r l /\ f r = true.
Proof.
  intros f l r H. apply find_some in H. rewrite <- in_rev in H. tauto.
Qed.

Lemma dict_get_some : forall key coll t r,
  dict_get key coll t = Some r -> In r coll /\ key r = t.
Proof.
  intros key coll t r H. apply find_rev_in in H.
  rewrite Nat.eqb_eq in H. tauto.
Qed.

Lemma dict_get_none : forall key coll t,
  dict_get key coll t = None -> forall r, In r coll -> key r <> t.
Proof.
  intros key coll t H r Hr Ht.
  apply (find_none _ _ H) in Hr || (apply in_rev in Hr; pose proof (find_none _ _ H _ Hr) as F).
  simpl in F. apply Nat.eqb_neq in F. congruence.
Qed.

Lemma dict_get_complete : forall key coll r,
  (forall a b, In a coll -> In b coll -> key a = key b -> a = b) ->
  In r coll -> dict_get key coll (key r) = Some r.
Proof.
  intros key coll r Hd Hr.
  destruct (dict_get key coll (key r)) as [s|] eqn:E.
  - apply dict_get_some in E. f_equal. apply Hd; tauto.
  - exfalso. eapply dict_get_none; eauto.
Qed.

(** ** The generic loop *)

Section Loop.
Variable g : graph.
Variable cand : nat -> option nat.
Variable next : nat -> list nat.
Variable stop : bool.
Variable pick : nat -> nat.
Variable x : node.

(** Tensors reached from the query: every tensor left behind was allowed to
    be expanded. *)
Inductive reach : nat -> nat -> Prop :=
| reach_refl : forall t, reach t t
| reach_step : forall t u v,
    (stop = true -> cand t = None) -> In u (next t) -> reach u v -> reach t v.

Lemma reach_snoc : forall t u v,
  reach t u -> (stop = true -> cand u = None) -> In v (next u) -> reach t v.
Proof.
  intros t u v H. induction H; intros Hs Hi.
  - econstructor; eauto. constructor.
  - econstructor; eauto.
Qed.

Definition tx := tensor_of g x.

Record inv (nodes visited : list node) (out : list nat) : Prop := {
  inv_nodup : NoDup nodes;
  inv_nodup_out : NoDup out;
  inv_start : In x nodes \/ In x visited;
  inv_reach : forall n, In n nodes \/ In n visited -> reach tx (tensor_of g n);
  inv_out : forall r, In r out <->
     exists n, In n visited /\ cand (tensor_of g n) = Some r;
  inv_closed : forall n u, In n visited ->
     (stop = true -> cand (tensor_of g n) = None) ->
     In u (next (tensor_of g n)) -> In (NT u) nodes \/ In (NT u) visited
}.

Lemma inv_init : inv [x] [] [].
Proof.
  constructor; simpl.
  - constructor; [simpl; tauto|constructor].
  - constructor.
  - auto.
  - intros n [[H|[]]|[]]. subst. constructor.
  - intros r. split; [intros []|intros [n [[] _]]].
  - intros n u [].
Qed.

(** The final state of a finished loop satisfies the invariant with no
    pending node. *)
Lemma loop_inv : forall fuel step nodes visited out res,
  inv nodes visited out ->
  loop g cand next stop pick fuel step nodes visited out = Some res ->
  exists visited', inv [] visited' res.
Proof.
  induction fuel as [|fuel IH]; intros step nodes visited out res Hinv H;
    simpl in H; [discriminate|].
  destruct nodes as [|n0 nodes0] eqn:En.
  - injection H as <-. eauto.
  - assert (Hlen : length nodes <> 0) by (rewrite En; simpl; lia).
    rewrite <- En in *. clear nodes0 En.
    set (i := pick step mod length nodes) in *.
    assert (Hi : i < length nodes) by (apply Nat.mod_upper_bound; auto).
    pose proof (remove_at_split nodes i n0 Hi) as HP.
    set (n := nth i nodes n0) in *.
    set (rest := remove_at i nodes) in *.
    assert (Hin : forall m, In m nodes <-> m = n \/ In m rest).
    { intros m. split; intros Hm.
      - apply (Permutation_in _ HP) in Hm. destruct Hm; auto.
      - apply (Permutation_in _ (Permutation_sym HP)). simpl. destruct Hm; auto. }
    assert (Hnd : NoDup (n :: rest)).
    { eapply Permutation_NoDup; [exact HP|]. apply (inv_nodup _ _ _ Hinv). }
    inversion Hnd as [|? ? Hn1 Hn2]; subst.
    destruct Hinv as [I1 I2 I3 I4 I5 I6].
    destruct (node_mem n visited) eqn:Ev.
    + apply node_mem_iff in Ev.
      eapply IH; [|exact H]. constructor; auto.
      * destruct I3 as [I3|I3]; auto. apply Hin in I3.
        destruct I3 as [I3|I3]; auto. rewrite I3; auto.
      * intros m [Hm|Hm]; apply I4; auto. left. apply Hin; auto.
      * intros m u Hm Hs Hu. destruct (I6 m u Hm Hs Hu) as [Hd|Hd]; auto.
        apply Hin in Hd. destruct Hd as [Hd|Hd]; auto. rewrite Hd. auto.
    + assert (Hrn : reach tx (tensor_of g n)).
      { apply I4. left. apply Hin; auto. }
      assert (Hgen : forall pend out',
        NoDup pend -> NoDup out' ->
        (forall m, In m rest -> In m pend) ->
        (forall m, In m pend -> In m rest \/
            ((stop = true -> cand (tensor_of g n) = None) /\
             exists t, In t (next (tensor_of g n)) /\ m = NT t)) ->
        ((stop = true -> cand (tensor_of g n) = None) ->
            forall t, In t (next (tensor_of g n)) -> In (NT t) pend) ->
        (forall r, In r out' <-> In r out \/ cand (tensor_of g n) = Some r) ->
        inv pend (n :: visited) out').
      { intros pend out' P1 P2 P3 P4 P5 P6. constructor; auto.
        - destruct I3 as [I3|I3]; simpl; auto. apply Hin in I3.
          destruct I3 as [I3|I3]; auto.
        - intros m [Hm|[Hm|Hm]].
          + apply P4 in Hm. destruct Hm as [Hm|[Hs [t [Ht Hm]]]].
            * apply I4. left. apply Hin; auto.
            * subst m. simpl. eapply reach_snoc; eauto.
          + subst m. exact Hrn.
          + apply I4. auto.
        - intros r. rewrite P6, I5. simpl. split.
          + intros [[m [Hm1 Hm2]]|Hc]; eauto.
          + intros [m [[Hm|Hm] Hc]]; [subst m; auto|]. left; eauto.
        - intros m u [Hm|Hm] Hs Hu.
          + subst m. left. eapply P5; eauto.
          + destruct (I6 m u Hm Hs Hu) as [Hd|Hd]; simpl; auto.
            apply Hin in Hd. destruct Hd as [Hd|Hd]; auto. }
      destruct (cand (tensor_of g n)) as [r|] eqn:Ec.
      * destruct stop eqn:Es.
        -- eapply IH; [|exact H]. apply Hgen; auto.
           ++ now apply add_nat_NoDup.
           ++ intros Hs. discriminate (Hs eq_refl).
           ++ intros q. rewrite add_nat_In. split; intros [Hq|Hq]; auto; right; congruence.
        -- eapply IH; [|exact H]. apply Hgen.
           ++ now apply add_nodes_NoDup.
           ++ now apply add_nat_NoDup.
           ++ intros m Hm. apply add_nodes_In; auto.
           ++ intros m Hm. apply add_nodes_In in Hm. destruct Hm as [Hm|Hm]; auto.
              right. split; auto. discriminate.
           ++ intros _ t Ht. apply add_nodes_In. right. eauto.
           ++ intros q. rewrite add_nat_In. split; intros [Hq|Hq]; auto; right; congruence.
      * eapply IH; [|exact H]. apply Hgen; auto.
        -- now apply add_nodes_NoDup.
        -- intros m Hm. apply add_nodes_In; auto.
        -- intros m Hm. apply add_nodes_In in Hm. destruct Hm as [Hm|Hm]; auto.
        -- intros _ t Ht. apply add_nodes_In. right. eauto.
        -- intros q. split; [tauto|]. intros [Hq|Hq]; [auto|discriminate].
Qed.

Lemma loop_correct : forall fuel step res,
  loop g cand next stop pick fuel step [x] [] [] = Some res ->
  NoDup res /\
  forall r, In r res <-> exists t, reach tx t /\ cand t = Some r.
Proof.
  intros fuel step res H.
  destruct (loop_inv _ _ _ _ _ _ inv_init H) as [V [I1 I2 I3 I4 I5 I6]].
  split; auto. intros r. rewrite I5. split.
  - intros [n [Hn Hc]]. exists (tensor_of g n). split; auto.
  - intros [t [Hr Hc]].
    assert (G : forall t1 t2, reach t1 t2 -> (exists n, In n V /\ tensor_of g n = t1) ->
              exists n, In n V /\ tensor_of g n = t2).
    { intros t1 t2 Hr'. induction Hr' as [|t1 u v Hs Hi Hr' IH]; auto.
      intros [n [Hn Et]]. apply IH. exists (NT u). simpl. split; auto.
      subst t1. destruct (I6 n u Hn Hs Hi) as [[]|Hd]; auto. }
    destruct (G _ _ Hr) as [n [Hn Et]].
    + exists x. destruct I3 as [[]|I3]; auto.
    + exists n. rewrite Et. auto.
Qed.

(** ** Termination *)

Variable U : list node.
Hypothesis U_x : In x U.
Hypothesis U_next : forall t u, In u (next t) -> In (NT u) U.

Fixpoint fresh (l : list node) (visited : list node) : nat :=
  match l with
  | [] => 0
  | n :: l' => (if node_mem n visited then 0 else 1) + fresh l' visited
  end.

Lemma fresh_mono : forall l v n, fresh l (n :: v) <= fresh l v.
Proof.
  induction l as [|m l IH]; intros v n; simpl; auto.
  specialize (IH v n). unfold node_mem in *. simpl.
  destruct (node_eqb m n); simpl; [|lia].
  destruct (existsb (node_eqb m) v); lia.
Qed.

Lemma fresh_dec : forall l v n, In n l -> ~ In n v ->
  S (fresh l (n :: v)) <= fresh l v.
Proof.
  induction l as [|m l IH]; intros v n Hi Hn; [destruct Hi|].
  cbn [fresh]. destruct Hi as [Hi|Hi].
  - subst m.
    assert (E1 : node_mem n (n :: v) = true) by (apply node_mem_iff; simpl; auto).
    assert (E2 : node_mem n v = false) by (apply node_mem_false; auto).
    rewrite E1, E2. pose proof (fresh_mono l v n). lia.
  - specialize (IH v n Hi Hn).
    unfold node_mem in *. simpl.
    destruct (node_eqb m n); simpl; [|lia].
    destruct (existsb (node_eqb m) v); lia.
Qed.

Lemma fresh_le : forall l v, fresh l v <= length l.
Proof.
  induction l as [|m l IH]; intros v; simpl; auto.
  specialize (IH v). destruct (node_mem m v); lia.
Qed.

Lemma loop_terminates : forall fuel step nodes visited out,
  NoDup nodes -> incl nodes U ->
  fresh U visited * S (length U) + length nodes < fuel ->
  exists res, loop g cand next stop pick fuel step nodes visited out = Some res.
Proof.
  induction fuel as [|fuel IH]; intros step nodes visited out Hnd Hincl Hf; [lia|].
  simpl. destruct nodes as [|n0 nodes0] eqn:En; [eauto|].
  rewrite <- En in *.
  set (i := pick step mod length nodes) in *.
  assert (Hi : i < length nodes).
  { apply Nat.mod_upper_bound. rewrite En; simpl; lia. }
  pose proof (remove_at_split nodes i n0 Hi) as HP.
  clear En nodes0.
  set (n := nth i nodes n0) in *.
  set (rest := remove_at i nodes) in *.
  assert (Hlen : length nodes = S (length rest)).
  { apply Permutation_length in HP. simpl in HP. exact HP. }
  assert (HnU : In n U).
  { apply Hincl. eapply Permutation_in; [apply Permutation_sym; exact HP|]. simpl; auto. }
  assert (HrU : incl rest U).
  { intros m Hm. apply Hincl. eapply Permutation_in; [apply Permutation_sym; exact HP|]. simpl; auto. }
  assert (Hnd' : NoDup rest).
  { assert (Hx : NoDup (n :: rest)) by (eapply Permutation_NoDup; eauto).
    inversion Hx; auto. }
  destruct (node_mem n visited) eqn:Ev.
  - apply IH; auto. lia.
  - apply node_mem_false in Ev.
    pose proof (fresh_dec U visited n HnU Ev) as Hd.
    assert (Hb : forall pend, NoDup pend -> incl pend U ->
      fresh U (n :: visited) * S (length U) + length pend < fuel).
    { intros pend Hp1 Hp2. pose proof (NoDup_incl_length Hp1 Hp2).
      nia. }
    assert (HA : NoDup (add_nodes rest (next (tensor_of g n)))).
    { now apply add_nodes_NoDup. }
    assert (HB : incl (add_nodes rest (next (tensor_of g n))) U).
    { intros m Hm. apply add_nodes_In in Hm. destruct Hm as [Hm|[t [Ht Em]]]; auto.
      subst m. eauto. }
    destruct (cand (tensor_of g n)) as [r|]; [destruct stop|]; apply IH; auto.
Qed.

Lemma loop_total : forall fuel step,
  length U * S (length U) + 1 < fuel ->
  exists res, loop g cand next stop pick fuel step [x] [] [] = Some res.
Proof.
  intros fuel step Hf. apply loop_terminates.
  - constructor; [simpl; tauto|constructor].
  - intros m [Hm|[]]. now subst.
  - pose proof (fresh_le U []). simpl length. nia.
Qed.

End Loop.

(** ** Instances *)

Section Instances.
Variable g : graph.

Lemma op_inputs_edge : single_producer g ->
  forall t u, In u (op_inputs g t) <-> edge g u t.
Proof.
  intros Hsp t u. unfold op_inputs, edge.
  destruct (find _ (ops g)) as [o|] eqn:E.
  - apply find_some in E. destruct E as [Ho Ht]. apply memb_iff in Ht. split.
    + intros Hu. eauto.
    + intros [o' [Ho' [Hi Hu]]]. now rewrite (Hsp o o' t).
  - split; [intros []|]. intros [o [Ho [Hi Hu]]].
    pose proof (find_none _ _ E o Ho) as F. simpl in F.
    apply memb_iff in Hu. congruence.
Qed.

Lemma consumer_outputs_edge : forall t u, In u (consumer_outputs g t) <-> edge g t u.
Proof.
  intros t u. unfold consumer_outputs, edge. rewrite in_flat_map. split.
  - intros [o [Ho Hu]]. apply filter_In in Ho. destruct Ho as [Ho Ht].
    apply memb_iff in Ht. eauto.
  - intros [o [Ho [Ht Hu]]]. exists o. split; auto.
    apply filter_In. split; auto. now apply memb_iff.
Qed.

Lemma cand_rv_clear : forall coll x t, distinct_values g coll ->
  (cand_rv g coll x t = None <-> clear g coll x t).
Proof.
  intros coll x t Hd. unfold cand_rv, clear.
  destruct (dict_get (value g) coll t) as [r|] eqn:E.
  - apply dict_get_some in E. destruct E as [Hr Ht].
    destruct (node_eqb (NRV r) x) eqn:Ex.
    + apply node_eqb_iff in Ex. split; auto. intros _ s Hs Es.
      assert (s = r) by (apply Hd; auto; congruence). congruence.
    + split; [discriminate|]. intros H. specialize (H r Hr Ht).
      apply node_eqb_iff in H. congruence.
  - split; auto. intros _ s Hs Es. exfalso. eapply dict_get_none; eauto.
Qed.

Lemma cand_rv_some : forall coll x t r, distinct_values g coll ->
  (cand_rv g coll x t = Some r <-> In r coll /\ NRV r <> x /\ value g r = t).
Proof.
  intros coll x t r Hd. unfold cand_rv. split.
  - destruct (dict_get (value g) coll t) as [s|] eqn:E; [|discriminate].
    apply dict_get_some in E. destruct (node_eqb (NRV s) x) eqn:Ex; [discriminate|].
    intros H. injection H as <-. repeat split; try tauto.
    intros H. apply node_eqb_iff in H. congruence.
  - intros [Hr [Hx Ht]]. subst t. rewrite (dict_get_complete (value g)); auto.
    destruct (node_eqb (NRV r) x) eqn:Ex; auto.
    apply node_eqb_iff in Ex. contradiction.
Qed.

Lemma reach_up_stop : single_producer g -> forall coll x, distinct_values g coll ->
  forall t u, reach (cand_rv g coll x) (op_inputs g) true t u <-> up g (clear g coll x) t u.
Proof.
  intros Hsp coll x Hd t u. split; intros H; induction H.
  - constructor.
  - econstructor; eauto.
    + apply cand_rv_clear; auto.
    + now apply op_inputs_edge.
  - constructor.
  - econstructor; eauto.
    + intros _. apply cand_rv_clear; auto.
    + now apply op_inputs_edge.
Qed.

Lemma reach_up_all : single_producer g -> forall cand t u,
  reach cand (op_inputs g) false t u <-> up g anything t u.
Proof.
  intros Hsp cand t u. split; intros H; induction H.
  - constructor.
  - econstructor; eauto.
    + exact I.
    + now apply op_inputs_edge.
  - constructor.
  - econstructor; eauto.
    + discriminate.
    + now apply op_inputs_edge.
Qed.

Lemma reach_down_stop : forall coll x, distinct_values g coll ->
  forall t u, reach (cand_rv g coll x) (consumer_outputs g) true t u
              <-> down g (clear g coll x) t u.
Proof.
  intros coll x Hd t u. split; intros H; induction H.
  - constructor.
  - econstructor; eauto.
    + apply cand_rv_clear; auto.
    + now apply consumer_outputs_edge.
  - constructor.
  - econstructor; eauto.
    + intros _. apply cand_rv_clear; auto.
    + now apply consumer_outputs_edge.
Qed.

Lemma reach_down_all : forall cand t u,
  reach cand (consumer_outputs g) false t u <-> down g anything t u.
Proof.
  intros cand t u. split; intros H; induction H.
  - constructor.
  - econstructor; eauto.
    + exact I.
    + now apply consumer_outputs_edge.
  - constructor.
  - econstructor; eauto.
    + discriminate.
    + now apply consumer_outputs_edge.
Qed.

Definition universe (x : node) : list node := x :: map NT (tensors g).

Lemma universe_in : forall x t, In t (tensors g) -> In (NT t) (universe x).
Proof. intros x t H. right. now apply in_map. Qed.

Lemma op_inputs_tensors : forall t u, In u (op_inputs g t) -> In u (tensors g).
Proof.
  intros t u. unfold op_inputs, tensors.
  destruct (find _ (ops g)) as [o|] eqn:E; [|intros []].
  apply find_some in E. intros Hu. apply in_flat_map. exists o.
  split; [tauto|]. apply in_or_app; auto.
Qed.

Lemma consumer_outputs_tensors : forall t u,
  In u (consumer_outputs g t) -> In u (tensors g).
Proof.
  intros t u H. apply consumer_outputs_edge in H. destruct H as [o [Ho [_ Hu]]].
  apply in_flat_map. exists o. split; auto. apply in_or_app; auto.
Qed.

Lemma loop_enough : forall cand next stop pick x fuel step,
  (forall t u, In u (next t) -> In u (tensors g)) ->
  enough g <= fuel ->
  exists res, loop g cand next stop pick fuel step [x] [] [] = Some res.
Proof.
  intros cand next stop pick x fuel step Hn Hf.
  apply loop_total with (U := universe x).
  - simpl; auto.
  - intros t u Hu. apply universe_in. eauto.
  - unfold universe. simpl length. rewrite map_length.
    unfold enough in Hf. set (m := length (tensors g)) in *.
    cbv zeta in Hf. nia.
Qed.

End Instances.

(** ** Main correctness statements *)

Lemma get_parents_correct : forall g coll pick fuel x res,
  single_producer g -> distinct_values g coll ->
  get_parents g coll pick fuel x = Some res ->
  NoDup res /\
  forall r, In r res <->
    In r coll /\ NRV r <> x /\
    up g (clear g coll x) (tensor_of g x) (value g r).
Proof.
  intros g coll pick fuel x res Hsp Hd H.
  apply loop_correct in H. destruct H as [H1 H2]. split; auto.
  intros r. rewrite H2. split.
  - intros [t [Hr Hc]]. apply cand_rv_some in Hc; auto.
    apply reach_up_stop in Hr; auto. destruct Hc as [Hc1 [Hc2 Hc3]]. now subst t.
  - intros [Hc1 [Hc2 Hr]]. exists (value g r). split.
    + apply reach_up_stop; auto.
    + apply cand_rv_some; auto.
Qed.

Lemma get_children_correct : forall g coll pick fuel x res,
  distinct_values g coll ->
  get_children g coll pick fuel x = Some res ->
  NoDup res /\
  forall r, In r res <->
    In r coll /\ NRV r <> x /\
    down g (clear g coll x) (tensor_of g x) (value g r).
Proof.
  intros g coll pick fuel x res Hd H.
  apply loop_correct in H. destruct H as [H1 H2]. split; auto.
  intros r. rewrite H2. split.
  - intros [t [Hr Hc]]. apply cand_rv_some in Hc; auto.
    apply reach_down_stop in Hr; auto. destruct Hc as [Hc1 [Hc2 Hc3]]. now subst t.
  - intros [Hc1 [Hc2 Hr]]. exists (value g r). split.
    + apply reach_down_stop; auto.
    + apply cand_rv_some; auto.
Qed.

Lemma get_ancestors_correct : forall g coll pick fuel x res,
  single_producer g -> distinct_values g coll ->
  get_ancestors g coll pick fuel x = Some res ->
  NoDup res /\
  forall r, In r res <->
    In r coll /\ NRV r <> x /\ up g anything (tensor_of g x) (value g r).
Proof.
  intros g coll pick fuel x res Hsp Hd H.
  apply loop_correct in H. destruct H as [H1 H2]. split; auto.
  intros r. rewrite H2. split.
  - intros [t [Hr Hc]]. apply cand_rv_some in Hc; auto.
    apply reach_up_all in Hr; auto. destruct Hc as [Hc1 [Hc2 Hc3]]. now subst t.
  - intros [Hc1 [Hc2 Hr]]. exists (value g r). split.
    + apply reach_up_all; auto.
    + apply cand_rv_some; auto.
Qed.

Lemma get_descendants_correct : forall g coll pick fuel x res,
  distinct_values g coll ->
  get_descendants g coll pick fuel x = Some res ->
  NoDup res /\
  forall r, In r res <->
    In r coll /\ NRV r <> x /\ down g anything (tensor_of g x) (value g r).
Proof.
  intros g coll pick fuel x res Hd H.
  apply loop_correct in H. destruct H as [H1 H2]. split; auto.
  intros r. rewrite H2. split.
  - intros [t [Hr Hc]]. apply cand_rv_some in Hc; auto.
    apply reach_down_all in Hr; auto. destruct Hc as [Hc1 [Hc2 Hc3]]. now subst t.
  - intros [Hc1 [Hc2 Hr]]. exists (value g r). split.
    + apply reach_down_all; auto.
    + apply cand_rv_some; auto.
Qed.

Lemma get_variables_correct : forall g coll pick fuel x res,
  single_producer g ->
  (forall v w, In v coll -> In w coll -> vref g v = vref g w -> v = w) ->
  get_variables g coll pick fuel x = Some res ->
  NoDup res /\
  forall v, In v res <->
    In v coll /\ up g anything (tensor_of g x) (vref g v).
Proof.
  intros g coll pick fuel x res Hsp Hd H.
  apply loop_correct in H. destruct H as [H1 H2]. split; auto.
  intros r. rewrite H2. unfold cand_var. split.
  - intros [t [Hr Hc]]. apply dict_get_some in Hc.
    apply reach_up_all in Hr; auto. destruct Hc as [Hc1 Hc2]. now subst t.
  - intros [Hc1 Hr]. exists (vref g r). split.
    + apply reach_up_all; auto.
    + apply dict_get_complete; auto.
Qed.

Lemma queries_terminate : forall g coll pick fuel x, enough g <= fuel ->
  (exists res, get_parents g coll pick fuel x = Some res) /\
  (exists res, get_children g coll pick fuel x = Some res) /\
  (exists res, get_ancestors g coll pick fuel x = Some res) /\
  (exists res, get_descendants g coll pick fuel x = Some res) /\
  (exists res, get_variables g coll pick fuel x = Some res).
Proof.
  intros g coll pick fuel x Hf.
  repeat split; apply loop_enough; auto;
    first [apply op_inputs_tensors | apply consumer_outputs_tensors].
Qed.

(** ** Paths *)

Lemma up_trans : forall g T a b c, up g T a b -> up g T b c -> up g T a c.
Proof. intros g T a b c H. induction H; auto. intros. econstructor; eauto. Qed.

Lemma up_mono : forall g (T T' : nat -> Prop) a b,
  (forall t, T t -> T' t) -> up g T a b -> up g T' a b.
Proof. intros g T T' a b HT H. induction H; econstructor; eauto. Qed.

Lemma down_snoc : forall g T a b c, down g T a b -> T b -> edge g b c -> down g T a c.
Proof.
  intros g T a b c H. induction H; intros.
  - econstructor; eauto. constructor.
  - econstructor; eauto.
Qed.

Lemma up_snoc : forall g T a b c, up g T a b -> T b -> edge g c b -> up g T a c.
Proof.
  intros g T a b c H. induction H; intros.
  - econstructor; eauto. constructor.
  - econstructor; eauto.
Qed.

Lemma up_down_anything : forall g a b, up g anything b a <-> down g anything a b.
Proof.
  intros g a b. split; intros H; induction H.
  - constructor.
  - eapply down_snoc; eauto; exact I.
  - constructor.
  - eapply up_snoc; eauto; exact I.
Qed.

(** A path whose interior avoids all collection values, from the value of
    [a] to the value of [b]. *)
Lemma up_down_clear : forall g coll a b, distinct_values g coll ->
  In a coll -> In b coll -> a <> b ->
  up g (clear g coll (NRV b)) (value g b) (value g a) ->
  down g (clear g coll (NRV a)) (value g a) (value g b).
Proof.
  intros g coll a b Hd Ha Hb Hab H.
  remember (value g b) as vb eqn:Evb.
  remember (value g a) as va eqn:Eva.
  (* along the upward walk keep a downward path from the current tensor *)
  assert (G : forall t u, up g (clear g coll (NRV b)) t u -> u = va ->
     down g (clear g coll (NRV a)) t vb -> down g (clear g coll (NRV a)) va vb).
  { intros t u Hu. induction Hu as [t|t c u HT He Hu IH]; intros E1 Hdn.
    - now subst.
    - apply IH; auto. 
      destruct (Nat.eq_dec c va) as [Ec|Ec].
      + subst c. econstructor; [|exact He|].
        * intros r Hr Er. f_equal. apply Hd; auto. congruence.
        * exact Hdn.
      + destruct Hu as [c|c d u HT' He' Hu].
        * congruence.
        * destruct (Nat.eq_dec c vb) as [Ecb|Ecb].
          -- rewrite Ecb. constructor.
          -- econstructor; [|exact He|exact Hdn].
             intros r Hr Er. specialize (HT' r Hr Er).
             injection HT' as ->. congruence. }
  eapply G; eauto. constructor.
Qed.

Lemma down_up_clear : forall g coll a b, distinct_values g coll ->
  In a coll -> In b coll -> a <> b ->
  down g (clear g coll (NRV a)) (value g a) (value g b) ->
  up g (clear g coll (NRV b)) (value g b) (value g a).
Proof.
  intros g coll a b Hd Ha Hb Hab H.
  remember (value g b) as vb eqn:Evb.
  remember (value g a) as va eqn:Eva.
  assert (G : forall t u, down g (clear g coll (NRV a)) t u -> u = vb ->
     up g (clear g coll (NRV b)) t va -> up g (clear g coll (NRV b)) vb va).
  { intros t u Hu. induction Hu as [t|t c u HT He Hu IH]; intros E1 Hup.
    - now subst.
    - apply IH; auto.
      destruct (Nat.eq_dec c vb) as [Ec|Ec].
      + subst c. econstructor; [|exact He|].
        * intros r Hr Er. f_equal. apply Hd; auto. congruence.
        * exact Hup.
      + destruct Hu as [c|c d u HT' He' Hu].
        * congruence.
        * destruct (Nat.eq_dec c va) as [Ecb|Ecb].
          -- rewrite Ecb. constructor.
          -- econstructor; [|exact He|exact Hup].
             intros r Hr Er. specialize (HT' r Hr Er).
             injection HT' as ->. congruence. }
  eapply G; eauto. constructor.
Qed.

Lemma parents_children_dual : forall g coll p1 f1 p2 f2 a b ps cs,
  single_producer g -> distinct_values g coll ->
  In a coll -> In b coll ->
  get_parents g coll p1 f1 (NRV b) = Some ps ->
  get_children g coll p2 f2 (NRV a) = Some cs ->
  (In a ps <-> In b cs).
Proof.
  intros g coll p1 f1 p2 f2 a b ps cs Hsp Hd Ha Hb Hp Hc.
  apply get_parents_correct in Hp; auto. apply get_children_correct in Hc; auto.
  destruct Hp as [_ Hp]. destruct Hc as [_ Hc]. rewrite Hp, Hc. simpl. split.
  - intros [_ [Hn Hu]]. assert (a <> b) by congruence.
    repeat split; auto; try congruence. apply up_down_clear; auto.
  - intros [_ [Hn Hu]]. assert (a <> b) by congruence.
    repeat split; auto; try congruence. apply down_up_clear; auto.
Qed.

Lemma ancestors_descendants_dual : forall g coll p1 f1 p2 f2 a b ps cs,
  single_producer g -> distinct_values g coll ->
  In a coll -> In b coll ->
  get_ancestors g coll p1 f1 (NRV b) = Some ps ->
  get_descendants g coll p2 f2 (NRV a) = Some cs ->
  (In a ps <-> In b cs).
Proof.
  intros g coll p1 f1 p2 f2 a b ps cs Hsp Hd Ha Hb Hp Hc.
  apply get_ancestors_correct in Hp; auto. apply get_descendants_correct in Hc; auto.
  destruct Hp as [_ Hp]. destruct Hc as [_ Hc]. rewrite Hp, Hc. simpl.
  rewrite up_down_anything. split; intros [_ [Hn Hu]]; repeat split; auto; congruence.
Qed.

(** ** Ancestors as transitive closure of parents *)

Inductive upn (g : graph) : nat -> nat -> nat -> Prop :=
| upn_0 : forall a, upn g 0 a a
| upn_S : forall n b c a, edge g c b -> upn g n c a -> upn g (S n) b a.

Lemma up_upn : forall g T a b, up g T a b -> exists n, upn g n a b.
Proof.
  intros g T a b H. induction H as [|b c a HT He Hu [n IH]].
  - exists 0. constructor.
  - exists (S n). econstructor; eauto.
Qed.

(* Follow a path upwards from tensor [t], reached from [b] through clear
   tensors, until the first hit. *)
Lemma first_hit : forall g coll b r, distinct_values g coll ->
  In b coll -> In r coll -> r <> b ->
  forall n t, upn g n t (value g r) ->
  up g (clear g coll (NRV b)) (value g b) t ->
  exists c m, parent_rel g coll c b /\ m <= n /\ upn g m (value g c) (value g r).
Proof.
  intros g coll b r Hd Hb Hr Hrb n.
  induction n as [|n IH]; intros t Hn Hup.
  - inversion Hn; subst. exists r, 0. repeat split; auto; constructor.
  - inversion Hn as [|n' b' c a He Hu]; subst.
    destruct (dict_get (value g) coll t) as [s|] eqn:E.
    + apply dict_get_some in E. destruct E as [Hs Es].
      destruct (Nat.eq_dec s b) as [Esb|Esb].
      * subst s t. destruct (IH c Hu) as [c' [m [H1 [H2 H3]]]].
        { eapply up_snoc; eauto. intros q Hq Eq. f_equal. apply Hd; auto. }
        exists c', m. repeat split; auto; try apply H1. 
      * subst t. exists s, (S n). repeat split; auto.
    + destruct (IH c Hu) as [c' [m [H1 [H2 H3]]]].
      { eapply up_snoc; eauto. intros q Hq Eq. exfalso. eapply dict_get_none; eauto. }
      exists c', m. repeat split; auto; apply H1.
Qed.

Lemma ancestor_chain : forall g coll r, distinct_values g coll ->
  In r coll ->
  forall n b, In b coll -> r <> b -> upn g n (value g b) (value g r) ->
  clos_trans nat (parent_rel g coll) r b.
Proof.
  intros g coll r Hd Hr n.
  induction n as [n IHn] using lt_wf_ind. intros b Hb Hrb Hn.
  (* first step away from [b] so that the remaining path is shorter *)
  inversion Hn as [|n' b' c a He Hu]; subst.
  - exfalso. apply Hrb. symmetry. now apply Hd.
  - destruct (first_hit g coll b r Hd Hb Hr Hrb n' c Hu) as [c' [m [H1 [H2 H3]]]].
    { econstructor; [|exact He|constructor]. intros q Hq Eq. f_equal. now apply Hd. }
    destruct (Nat.eq_dec r c') as [E|E].
    + subst c'. now apply t_step.
    + eapply t_trans; [|apply t_step; exact H1].
      apply IHn with (m := m); auto; [lia|]. apply H1.
Qed.

Lemma ancestors_closure : forall g coll pick fuel x res,
  single_producer g -> distinct_values g coll -> In x coll ->
  get_ancestors g coll pick fuel (NRV x) = Some res ->
  forall r, In r res <-> r <> x /\ clos_trans nat (parent_rel g coll) r x.
Proof.
  intros g coll pick fuel x res Hsp Hd Hx H r.
  apply get_ancestors_correct in H; auto. destruct H as [_ H]. rewrite H. simpl.
  split.
  - intros [Hr [Hn Hu]]. assert (r <> x) by congruence. split; auto.
    apply up_upn in Hu. destruct Hu as [n Hu]. eapply ancestor_chain; eauto.
  - intros [Hn Hc].
    assert (G : In r coll /\ up g anything (value g x) (value g r)).
    { clear Hn H Hx. induction Hc as [a b Hab|a b c H1 IH1 H2 IH2].
      - destruct Hab as [H1 [H2 H3]]. split; auto.
        eapply up_mono; [intros; exact I|exact H3].
      - split; [apply IH1|]. eapply up_trans; [apply IH2|apply IH1]. }
    destruct G. repeat split; auto. congruence.
Qed.

Lemma parent_child_rel : forall g coll a b, distinct_values g coll ->
  In a coll -> In b coll -> (parent_rel g coll a b <-> child_rel g coll b a).
Proof.
  intros g coll a b Hd Ha Hb. unfold parent_rel, child_rel. split.
  - intros [_ [Hn Hu]]. repeat split; auto. apply up_down_clear; auto.
  - intros [_ [Hn Hu]]. repeat split; auto. apply down_up_clear; auto.
Qed.

Lemma clos_flip : forall g coll a b, distinct_values g coll -> In b coll -> In a coll ->
  clos_trans nat (parent_rel g coll) a b -> clos_trans nat (child_rel g coll) b a.
Proof.
  intros g coll a b Hd Hb Ha H.
  induction H as [a b Hab|a c b H1 IH1 H2 IH2].
  - apply t_step. apply parent_child_rel; auto.
  - assert (Hc : In c coll).
    { clear -H2. induction H2 as [c b H|c d b H1 IH1 H2 IH2]; [apply H|auto]. }
    eapply t_trans; eauto.
Qed.

Lemma clos_flip' : forall g coll a b, distinct_values g coll -> In b coll -> In a coll ->
  clos_trans nat (child_rel g coll) b a -> clos_trans nat (parent_rel g coll) a b.
Proof.
  intros g coll a b Hd Hb Ha H.
  induction H as [b a Hab|b c a H1 IH1 H2 IH2].
  - apply t_step. apply parent_child_rel; auto.
  - assert (Hc : In c coll).
    { clear -H2. induction H2 as [c b H|c d b H1 IH1 H2 IH2]; [apply H|auto]. }
    eapply t_trans; eauto.
Qed.

Lemma descendants_closure : forall g coll pick fuel x res,
  single_producer g -> distinct_values g coll -> In x coll ->
  get_descendants g coll pick fuel (NRV x) = Some res ->
  forall r, In r res <-> r <> x /\ clos_trans nat (child_rel g coll) r x.
Proof.
  intros g coll pick fuel x res Hsp Hd Hx H r.
  apply get_descendants_correct in H; auto. destruct H as [_ H]. rewrite H. simpl.
  split.
  - intros [Hr [Hn Hu]]. assert (r <> x) by congruence. split; auto.
    apply up_down_anything in Hu.
    apply up_upn in Hu. destruct Hu as [n Hu].
    apply clos_flip; auto. eapply ancestor_chain; eauto.
  - intros [Hn Hc].
    assert (Hr : In r coll).
    { clear -Hc. induction Hc as [c b H|c d b H1 IH1 H2 IH2]; [apply H|auto]. }
    assert (G : up g anything (value g r) (value g x)).
    { apply clos_flip' in Hc; auto.
      clear Hn H Hx Hr. induction Hc as [a b Hab|a b c H1 IH1 H2 IH2].
      - destruct Hab as [H1 [H2 H3]].
        eapply up_mono; [intros; exact I|exact H3].
      - eapply up_trans; eauto. }
    repeat split; auto; [congruence|]. now apply up_down_anything.
Qed.

(** ** Blanket and siblings *)

Lemma update_all_spec : forall f ms out res,
  update_all f ms out = Some res ->
  (NoDup out -> NoDup res) /\
  forall r, In r res <-> In r out \/ exists m l, In m ms /\ f m = Some l /\ In r l.
Proof.
  intros f. induction ms as [|m ms IH]; intros out res H; simpl in H.
  - injection H as <-. split; auto. intros r. split; auto.
    intros [Hr|[m [l [[] _]]]]; auto.
  - destruct (f m) as [l|] eqn:E; [|discriminate].
    apply IH in H. destruct H as [H1 H2]. split.
    + intros Hn. apply H1. now apply add_nats_NoDup.
    + intros r. rewrite H2, add_nats_In. split.
      * intros [[Hr|Hr]|[m' [l' [Hm [Hf Hr]]]]]; auto.
        -- right. exists m, l. simpl; auto.
        -- right. exists m', l'. simpl; auto.
      * intros [Hr|[m' [l' [[Hm|Hm] [Hf Hr]]]]]; auto.
        -- subst m'. rewrite E in Hf. injection Hf as <-. auto.
        -- right. eauto.
Qed.

Lemma update_all_total : forall f ms out,
  (forall m, exists l, f m = Some l) -> exists res, update_all f ms out = Some res.
Proof.
  intros f. induction ms as [|m ms IH]; intros out Hf; simpl; eauto.
  destruct (Hf m) as [l E]. rewrite E. auto.
Qed.

Lemma discard_In : forall x l r, In r (discard x l) <-> In r l /\ NRV r <> x.
Proof.
  intros x l r. unfold discard. rewrite filter_In.
  destruct (node_eqb (NRV r) x) eqn:E; simpl.
  - apply node_eqb_iff in E. split; [intros [_ H]; discriminate|tauto].
  - split; intros [H1 H2]; split; auto.
    intros H. apply node_eqb_iff in H. congruence.
Qed.

Lemma discard_NoDup : forall x l, NoDup l -> NoDup (discard x l).
Proof. intros x l H. unfold discard. now apply NoDup_filter. Qed.

Lemma get_blanket_correct : forall g coll pick fuel x res,
  get_blanket g coll pick fuel x = Some res ->
  exists ps cs,
    get_parents g coll pick fuel x = Some ps /\
    get_children g coll pick fuel x = Some cs /\
    NoDup res /\
    forall r, In r res <->
      NRV r <> x /\
      (In r ps \/ In r cs \/
       exists c qs, In c cs /\ get_parents g coll pick fuel (NRV c) = Some qs /\ In r qs).
Proof.
  intros g coll pick fuel x res H. unfold get_blanket in H.
  destruct (get_parents g coll pick fuel x) as [ps|]; [|discriminate].
  destruct (get_children g coll pick fuel x) as [cs|]; [|discriminate].
  destruct (update_all _ cs _) as [out|] eqn:E; [|discriminate].
  injection H as <-. exists ps, cs. apply update_all_spec in E.
  destruct E as [E1 E2]. repeat split; auto.
  - apply discard_NoDup. apply E1. apply add_nats_NoDup. apply add_nats_NoDup. constructor.
  - apply discard_In in H. tauto.
  - apply discard_In in H. destruct H as [H _]. apply E2 in H.
    rewrite !add_nats_In in H. simpl in H.
    destruct H as [[[[]|H]|H]|[m [l [H1 [H2 H3]]]]]; auto.
    right. right. eauto.
  - intros [Hn H]. apply discard_In. split; auto. apply E2. rewrite !add_nats_In.
    destruct H as [H|[H|[c [qs [H1 [H2 H3]]]]]]; auto. right. eauto.
Qed.

Lemma get_siblings_correct : forall g coll pick fuel x res,
  get_siblings g coll pick fuel x = Some res ->
  exists ps,
    get_parents g coll pick fuel x = Some ps /\
    NoDup res /\
    forall r, In r res <->
      NRV r <> x /\
      exists p cs, In p ps /\ get_children g coll pick fuel (NRV p) = Some cs /\ In r cs.
Proof.
  intros g coll pick fuel x res H. unfold get_siblings in H.
  destruct (get_parents g coll pick fuel x) as [ps|]; [|discriminate].
  destruct (update_all _ ps _) as [out|] eqn:E; [|discriminate].
  injection H as <-. exists ps. apply update_all_spec in E.
  destruct E as [E1 E2]. repeat split; auto.
  - apply discard_NoDup. apply E1. constructor.
  - apply discard_In in H. tauto.
  - apply discard_In in H. destruct H as [H _]. apply E2 in H. destruct H as [[]|H].
    exact H.
  - intros [Hn H]. apply discard_In. split; auto. apply E2. auto.
Qed.

Lemma blanket_siblings_total : forall g coll pick fuel x, enough g <= fuel ->
  (exists res, get_blanket g coll pick fuel x = Some res) /\
  (exists res, get_siblings g coll pick fuel x = Some res).
Proof.
  intros g coll pick fuel x Hf.
  assert (HP : forall y, exists l, get_parents g coll pick fuel y = Some l)
    by (intros y; now apply queries_terminate).
  assert (HC : forall y, exists l, get_children g coll pick fuel y = Some l)
    by (intros y; now apply queries_terminate).
  unfold get_blanket, get_siblings.
  destruct (HP x) as [ps ->]. destruct (HC x) as [cs ->]. split.
  - destruct (update_all_total (fun c => get_parents g coll pick fuel (NRV c)) cs
      (add_nats (add_nats [] ps) cs)) as [o ->]; eauto.
  - destruct (update_all_total (fun c => get_children g coll pick fuel (NRV c)) ps [])
      as [o ->]; eauto.
Qed.
