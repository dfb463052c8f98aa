(** * get_log_joint (proofs). *)
From Coq Require Import Ascii String List Bool Arith Lia Permutation NArith.
From Verif Require Import CondJoint CondJointSpec.
Import ListNotations.
Local Open Scope string_scope.

(** ** Strings *)

Lemma app_assoc_s : forall a b c : string, (a ++ b) ++ c = a ++ b ++ c.
Proof. induction a; intros; simpl; auto. now rewrite IHa. Qed.
Lemma app_nil_s : forall a : string, a ++ "" = a.
Proof. induction a; simpl; auto. now rewrite IHa. Qed.
Lemma app_len : forall a b : string, String.length (a ++ b) = String.length a + String.length b.
Proof. induction a; intros; simpl; auto. Qed.
Lemma app_cancel_l : forall a b c : string, a ++ b = a ++ c -> b = c.
Proof. induction a; simpl; intros b c H; auto. injection H; auto. Qed.
Lemma app_cancel_r : forall c a b : string, a ++ c = b ++ c -> a = b.
Proof.
  intros c a. induction a as [|x a IH]; intros [|y b] H; simpl in *; auto.
  - apply (f_equal String.length) in H. simpl in H. rewrite app_len in H. lia.
  - apply (f_equal String.length) in H. simpl in H. rewrite app_len in H. lia.
  - injection H as -> H. f_equal. auto.
Qed.

Lemma chop_slash : forall n c, chop (n ++ String c "") = n.
Proof.
  induction n as [|x n IH]; intros c; simpl; auto. specialize (IH c).
  destruct n as [|y n]; simpl in *; [auto|]. now rewrite IH.
Qed.

Lemma no_colons_id : forall n, (forall a b, n <> a ++ ":" ++ b) -> no_colons n = n.
Proof.
  induction n as [|c n IH]; intros H; simpl; auto. destruct (Ascii.eqb c ":") eqn:E.
  - apply Ascii.eqb_eq in E. subst. destruct (H "" n eq_refl).
  - f_equal. apply IH. intros a b ->. apply (H (String c a) b). reflexivity.
Qed.
Lemma no_colons_app : forall a b, no_colons (a ++ b) = no_colons a ++ no_colons b.
Proof. induction a; intros; simpl; auto. now rewrite IHa. Qed.

(** ** The joined name can be taken apart *)

Definition spaced (n : string) : Prop := forall a b, n = a ++ "_" ++ b -> exists d r, b = String d r /\ digit d.
Lemma spaced_tail : forall c n, spaced (String c n) -> spaced n.
Proof. intros c n H a b ->. apply (H (String c a) b). reflexivity. Qed.

Definition next (r : string) : Prop := r = "" \/ exists c q, r = String "_" (String c q) /\ ~ digit c.

Lemma split_names : forall a b r1 r2, spaced a -> spaced b -> next r1 -> next r2 -> a ++ r1 = b ++ r2 -> a = b /\ r1 = r2.
Proof.
  assert (K : forall c b r1 r2, spaced (String c b) -> next r1 -> r1 = String c b ++ r2 -> False).
  { intros c b r1 r2 Hs [->|[d [q [-> Hd]]]] E; [discriminate|]. simpl in E. injection E as <- E.
    destruct (Hs "" b eq_refl) as [d' [r [-> Hd']]]. simpl in E. injection E as <- _. auto. }
  induction a as [|x a IH]; intros [|y b] r1 r2 Ha Hb H1 H2 E; auto.
  - destruct (K y b r1 r2 Hb H1 E).
  - symmetry in E. destruct (K x a r2 r1 Ha H2 E).
  - simpl in E. injection E as -> E. destruct (IH b r1 r2 (spaced_tail _ _ Ha) (spaced_tail _ _ Hb) H1 H2 E) as [-> ->]. auto.
Qed.

Definition tail_name (l : list string) : string := match l with [] => "" | _ => "_" ++ join l end.
Lemma join_cons : forall n l, join (n :: l) = n ++ tail_name l.
Proof. intros n [|m l]; simpl; [now rewrite app_nil_s|reflexivity]. Qed.

Lemma numbered_spaced : forall n, numbered n -> spaced n.
Proof. intros n [_ [H _]]. exact H. Qed.

Lemma tail_next : forall l, Forall numbered l -> next (tail_name l).
Proof.
  intros [|n l] H; [left; reflexivity|right]. inversion H as [|? ? [[c [r [-> Hc]]] _] _]; subst.
  exists c, (r ++ tail_name l). split; auto. change (tail_name (String c r :: l)) with ("_" ++ join (String c r :: l)).
  rewrite join_cons. reflexivity.
Qed.

Lemma join_inj : forall l m, Forall numbered l -> Forall numbered m -> join l = join m -> l = m.
Proof.
  induction l as [|a l IH]; intros [|b m] Hl Hm E; auto.
  - rewrite join_cons in E. inversion Hm as [|? ? [[c [r [-> _]]] _] _]. discriminate.
  - rewrite join_cons in E. inversion Hl as [|? ? [[c [r [-> _]]] _] _]. discriminate.
  - rewrite !join_cons in E. inversion Hl; inversion Hm; subst.
    destruct (split_names a b _ _ (numbered_spaced _ H1) (numbered_spaced _ H5) (tail_next _ H2) (tail_next _ H6) E) as [-> E2].
    f_equal. apply IH; auto. destruct l as [|x l], m as [|y m]; auto; try discriminate. simpl tail_name in E2. now injection E2.
Qed.

(** ** Sorting *)

Lemma insert_perm : forall n l, Permutation (n :: l) (insert n l).
Proof.
  induction l as [|m l IH]; simpl; auto. destruct (String.leb n m); auto.
  eapply perm_trans; [apply perm_swap|]. auto.
Qed.
Lemma sort_perm : forall l, Permutation l (sort_names l).
Proof. induction l as [|n l IH]; simpl; auto. eapply perm_trans; [apply perm_skip, IH|apply insert_perm]. Qed.

Lemma ascii_cmp : forall a b, Ascii.compare a b = N.compare (N_of_ascii a) (N_of_ascii b).
Proof. reflexivity. Qed.
Lemma ascii_eq : forall a b, Ascii.compare a b = Eq -> a = b.
Proof.
  intros a b H. rewrite ascii_cmp in H. apply N.compare_eq in H. rewrite <- (ascii_N_embedding a), <- (ascii_N_embedding b). now rewrite H.
Qed.
Definition le (a b : string) : Prop := String.compare a b <> Gt.
Lemma leb_le : forall a b, String.leb a b = true <-> le a b.
Proof. intros a b. unfold String.leb, le. destruct (String.compare a b); split; intros; auto; congruence. Qed.
Lemma le_total : forall a b, le a b \/ le b a.
Proof.
  induction a as [|x a IH]; intros [|y b]; unfold le; simpl; try (left; discriminate); try (right; discriminate).
  destruct (Ascii.compare x y) eqn:E.
  - apply ascii_eq in E. subst. assert (E' : Ascii.compare y y = Eq) by (rewrite ascii_cmp; apply N.compare_refl).
    rewrite E'. apply IH.
  - left. discriminate.
  - right. rewrite ascii_cmp in *. rewrite N.compare_antisym, E. discriminate.
Qed.
Lemma le_antisym : forall a b, le a b -> le b a -> a = b.
Proof.
  induction a as [|x a IH]; intros [|y b]; unfold le; simpl; intros H1 H2; auto; try congruence.
  destruct (Ascii.compare x y) eqn:E.
  - apply ascii_eq in E. subst. assert (E' : Ascii.compare y y = Eq) by (rewrite ascii_cmp; apply N.compare_refl).
    rewrite E' in H2. f_equal. apply IH; auto.
  - exfalso. apply H2. rewrite ascii_cmp in *. rewrite N.compare_antisym, E. reflexivity.
  - congruence.
Qed.
Lemma le_trans : forall a b c, le a b -> le b c -> le a c.
Proof.
  induction a as [|x a IH]; intros [|y b] [|z c]; unfold le; simpl; intros H1 H2; try congruence.
  destruct (Ascii.compare x y) eqn:E1; [|clear H1|congruence].
  - apply ascii_eq in E1. subst. destruct (Ascii.compare y z) eqn:E2; try congruence. eapply IH; eauto.
  - destruct (Ascii.compare y z) eqn:E2; [|clear H2|congruence].
    + apply ascii_eq in E2. subst. rewrite E1. discriminate.
    + rewrite ascii_cmp in *. apply N.compare_lt_iff in E1. apply N.compare_lt_iff in E2.
      assert (E3 : (N_of_ascii x ?= N_of_ascii z)%N = Lt) by (apply N.compare_lt_iff; eapply N.lt_trans; eauto).
      rewrite E3. discriminate.
Qed.

Inductive sorted : list string -> Prop :=
| sorted_nil : sorted []
| sorted_cons : forall a l, Forall (le a) l -> sorted l -> sorted (a :: l).

Lemma insert_sorted : forall n l, sorted l -> sorted (insert n l).
Proof.
  intros n l H. induction H as [|a l Ha Hl IH]; simpl; [repeat constructor|].
  destruct (String.leb n a) eqn:E.
  - apply leb_le in E. constructor; [|constructor; auto]. constructor; auto.
    eapply Forall_impl; [|exact Ha]. intros b Hb. eapply le_trans; eauto.
  - assert (Hna : le a n).
    { destruct (le_total a n) as [|H]; auto. apply leb_le in H. congruence. }
    constructor; auto. eapply Permutation_Forall; [apply insert_perm|]. constructor; auto.
Qed.
Lemma sort_sorted : forall l, sorted (sort_names l).
Proof. induction l; simpl; [constructor|apply insert_sorted; auto]. Qed.
Lemma sorted_unique : forall l m, sorted l -> sorted m -> Permutation l m -> l = m.
Proof.
  induction l as [|a l IH]; intros m Hl Hm HP; [apply Permutation_nil in HP; auto|].
  destruct m as [|b m]; [apply Permutation_sym, Permutation_nil in HP; discriminate|].
  inversion Hl as [|? ? Ha Hl']; inversion Hm as [|? ? Hb Hm']; subst.
  assert (a = b).
  { assert (Ia : In a (b :: m)) by (eapply Permutation_in; [exact HP|left; auto]).
    assert (Ib : In b (a :: l)) by (eapply Permutation_in; [apply Permutation_sym; exact HP|left; auto]).
    rewrite Forall_forall in *. destruct Ia as [->|Ia]; auto. destruct Ib as [->|Ib]; auto. apply le_antisym; auto. }
  subst b. f_equal. apply IH; auto. eapply Permutation_cons_inv; eauto.
Qed.
Lemma sort_canon : forall l m, Permutation l m -> sort_names l = sort_names m.
Proof.
  intros l m HP. apply sorted_unique; try apply sort_sorted.
  eapply perm_trans; [apply Permutation_sym, sort_perm|]. eapply perm_trans; [exact HP|apply sort_perm].
Qed.
Lemma joint_name_perm : forall l m, Permutation l m -> joint_name l = joint_name m.
Proof. intros l m HP. unfold joint_name. f_equal. f_equal. apply sort_canon. now apply Permutation_map. Qed.

(** ** Names of terms and of joints *)

Section Program.
Variable prog : list crv.
Hypothesis Hnum : numbered_rvs prog.
Hypothesis Hapart : named_apart prog.

Lemma term_name_of : forall b, In b prog -> exists n, numbered n /\ cname b = n ++ "/" /\ term_name b = n ++ "/_conjugate_log_prob".
Proof.
  intros b Hb. destruct (Hnum b Hb) as [n [E Hn]]. exists n. split; auto. split; auto. unfold term_name. rewrite E, no_colons_app.
  rewrite no_colons_id by (apply Hn). rewrite app_assoc_s. reflexivity.
Qed.

Lemma term_inj : forall b b', In b prog -> In b' prog -> term_name b = term_name b' -> b = b'.
Proof.
  intros b b' Hb Hb' E. destruct (term_name_of b Hb) as [n [_ [En Et]]]. destruct (term_name_of b' Hb') as [n' [_ [En' Et']]].
  rewrite Et, Et' in E. apply app_cancel_r in E. subst n'. apply Hapart; auto. congruence.
Qed.

Lemma term_joint : forall b l, In b prog -> term_name b <> joint_name l.
Proof.
  intros b l Hb E. destruct (term_name_of b Hb) as [n [Hn [_ Et]]]. rewrite Et in E. unfold joint_name in E.
  set (J := join _) in E. clearbody J. pose proof (numbered_spaced _ Hn) as Hs. clear - E Hs.
  destruct n as [|c1 n]; [discriminate|]. simpl in E. injection E as -> E.
  destruct n as [|c2 n]; [discriminate|]. simpl in E. injection E as -> E.
  destruct n as [|c3 n]; [discriminate|]. simpl in E. injection E as -> E.
  destruct n as [|c4 n]; [discriminate|]. simpl in E. injection E as -> E.
  destruct (Hs "log" n eq_refl) as [d [r [-> Hd]]]. simpl in E. injection E as -> _.
  destruct Hd as [_ Hd]. vm_compute in Hd. lia.
Qed.

Lemma names_of : forall l, incl l prog -> exists ns, Forall numbered ns /\ map (fun b => chop (cname b)) l = ns /\
  map cname l = map (fun n => n ++ "/") ns.
Proof.
  induction l as [|b l IH]; intros Hl; [exists []; auto|].
  destruct IH as [ns [H1 [H2 H3]]]; [intros x Hx; apply Hl; right; auto|].
  destruct (Hnum b (Hl b (or_introl eq_refl))) as [n [E Hn]]. exists (n :: ns). split; [constructor; auto|].
  simpl. rewrite E, H2, H3. split; auto. f_equal. apply chop_slash.
Qed.

Lemma perm_names : forall l m, incl l prog -> incl m prog -> Permutation (map cname l) (map cname m) -> Permutation l m.
Proof.
  induction l as [|b l IH]; intros m Hl Hm HP.
  - simpl in HP. apply Permutation_nil in HP. destruct m; [auto|discriminate].
  - simpl in HP. assert (Hin : In (cname b) (map cname m)) by (eapply Permutation_in; [exact HP|left; auto]).
    apply in_map_iff in Hin. destruct Hin as [b' [E Hb']].
    assert (b' = b) by (apply Hapart; auto; apply Hl; left; auto). subst b'.
    apply in_split in Hb'. destruct Hb' as [m1 [m2 ->]].
    apply Permutation_cons_app. apply IH.
    + intros x Hx. apply Hl. right; auto.
    + intros x Hx. apply Hm. apply in_app_iff in Hx. apply in_app_iff. simpl. tauto.
    + rewrite map_app in *. simpl in HP. apply Permutation_cons_app_inv in HP. rewrite ?map_app. exact HP.
Qed.

Lemma joint_inj : forall l m, incl l prog -> incl m prog -> joint_name l = joint_name m -> Permutation l m.
Proof.
  intros l m Hl Hm E. unfold joint_name in E. apply app_cancel_l in E.
  destruct (names_of l Hl) as [ns [N1 [N2 N3]]]. destruct (names_of m Hm) as [ms [M1 [M2 M3]]].
  rewrite N2, M2 in E. apply join_inj in E; try (eapply Permutation_Forall; [apply sort_perm|auto]).
  apply perm_names; auto. rewrite N3, M3. apply Permutation_map.
  eapply perm_trans; [apply sort_perm|]. rewrite E. apply Permutation_sym, sort_perm.
Qed.

(** ** The graph *)

Definition entry (e : string * ten) : Prop :=
  (exists b, In b prog /\ conj b = true /\ e = (term_name b, LogProb b)) \/
  (exists l, incl l prog /\ Forall (fun b => conj b = true) l /\ e = (joint_name l, AddN (map LogProb l))).

Lemma by_name_some : forall g n t, by_name g n = Some t -> In (n, t) g.
Proof.
  intros g n t H. unfold by_name in H. destruct (find _ g) as [[m u]|] eqn:E; [|discriminate]. injection H as <-.
  apply find_some in E. destruct E as [Hin E]. simpl in E. apply String.eqb_eq in E. now subst.
Qed.
Lemma by_name_none : forall g n t, by_name g n = None -> ~ In (n, t) g.
Proof.
  intros g n t H Hin. unfold by_name in H. destruct (find _ g) eqn:E; [discriminate|].
  apply (find_none _ _ E) in Hin. simpl in Hin. rewrite String.eqb_refl in Hin. discriminate.
Qed.
Lemma by_name_app : forall g m t n, by_name (g ++ [(m, t)])%list n =
  match by_name g n with Some u => Some u | None => if String.eqb m n then Some t else None end.
Proof.
  intros g m t n. unfold by_name. induction g as [|[m' t'] g IH]; simpl; [destruct (String.eqb m n); auto|].
  destruct (String.eqb m' n); auto.
Qed.

Lemma terms_spec : forall l g, Forall entry g -> incl l prog ->
  Forall entry (fst (terms g l)) /\
  (forall k, by_name g (joint_name k) = None -> by_name (fst (terms g l)) (joint_name k) = None) /\
  (Forall (fun b => conj b = true) l -> snd (terms g l) = Some (map LogProb l)) /\
  (~ Forall (fun b => conj b = true) l -> snd (terms g l) = None).
Proof.
  induction l as [|b l IH]; intros g Hg Hl; simpl.
  { split; auto. split; auto. split; auto. intros H. destruct H. constructor. }
  assert (Hb : In b prog) by (apply Hl; left; auto). assert (Hl' : incl l prog) by (intros x Hx; apply Hl; right; auto).
  destruct (by_name g (term_name b)) as [t|] eqn:E.
  - apply by_name_some in E. rewrite Forall_forall in Hg. pose proof (Hg _ E) as He.
    assert (Ht : t = LogProb b /\ conj b = true).
    { destruct He as [[b' [H1 [H2 H3]]]|[k [_ [_ H3]]]]; injection H3 as H3 ->.
      - apply term_inj in H3; auto. subst. auto.
      - destruct (term_joint b k Hb H3). }
    destruct Ht as [-> Hc]. rewrite <- Forall_forall in Hg. destruct (IH g Hg Hl') as [I1 [I2 [I3 I4]]].
    destruct (terms g l) as [g' [ts|]]; simpl in *; (split; [auto|split; [auto|split]]); intros H.
    + inversion H; subst. specialize (I3 H3). now injection I3 as ->.
    + exfalso. assert (Hn : ~ Forall (fun b => conj b = true) l) by (intros C; apply H; constructor; auto). specialize (I4 Hn). discriminate.
    + inversion H; subst. specialize (I3 H3). discriminate.
    + reflexivity.
  - destruct (conj b) eqn:Hc.
    + assert (Hg' : Forall entry (g ++ [(term_name b, LogProb b)])%list).
      { apply Forall_app. split; auto. constructor; auto. left. exists b. auto. }
      destruct (IH _ Hg' Hl') as [I1 [I2 [I3 I4]]].
      assert (I2' : forall k, by_name g (joint_name k) = None -> by_name (fst (terms (g ++ [(term_name b, LogProb b)])%list l)) (joint_name k) = None).
      { intros k Hk. apply I2. rewrite by_name_app, Hk. destruct (String.eqb (term_name b) (joint_name k)) eqn:Ek; auto.
        apply String.eqb_eq in Ek. destruct (term_joint b k Hb Ek). }
      destruct (terms (g ++ [(term_name b, LogProb b)])%list l) as [g' [ts|]]; simpl in *; (split; [auto|split; [auto|split]]); intros H.
      * inversion H; subst. specialize (I3 H3). now injection I3 as ->.
      * exfalso. assert (Hn : ~ Forall (fun b => conj b = true) l) by (intros C; apply H; constructor; auto). specialize (I4 Hn). discriminate.
      * inversion H; subst. specialize (I3 H3). discriminate.
      * reflexivity.
    + simpl. split; auto. split; auto. split; intros H; auto. inversion H; subst. congruence.
Qed.

Lemma joint_spec : forall g l, Forall entry g -> incl l prog ->
  Forall entry (fst (get_log_joint g l)) /\
  (Forall (fun b => conj b = true) l ->
     exists l', snd (get_log_joint g l) = Some (AddN (map LogProb l')) /\ Permutation l l' /\
       by_name (fst (get_log_joint g l)) (joint_name l) = Some (AddN (map LogProb l'))) /\
  (~ Forall (fun b => conj b = true) l -> snd (get_log_joint g l) = None).
Proof.
  intros g l Hg Hl. unfold get_log_joint. destruct (by_name g (joint_name l)) as [t|] eqn:E; simpl.
  - pose proof (by_name_some _ _ _ E) as Hin. pose proof Hg as Hg0. rewrite Forall_forall in Hg.
    assert (Ht : exists l', t = AddN (map LogProb l') /\ Permutation l l' /\ Forall (fun b => conj b = true) l').
    { destruct (Hg _ Hin) as [[b [H1 [H2 H3]]]|[k [H1 [H2 H3]]]]; injection H3 as H3 ->.
      - symmetry in H3. destruct (term_joint b l H1 H3).
      - exists k. split; auto. split; auto. apply joint_inj; auto. unfold joint_name. now rewrite H3. }
    destruct Ht as [l' [-> [HP HF]]]. split; auto. split; [intros _; exists l'; auto|].
    intros H. destruct H. eapply Permutation_Forall; [apply Permutation_sym; exact HP|auto].
  - destruct (terms_spec l g Hg Hl) as [I1 [I2 [I3 I4]]]. pose proof (I2 l E) as I2l.
    destruct (terms g l) as [g' [ts|]]; simpl in *.
    + assert (HF : Forall (fun b => conj b = true) l).
      { destruct (Forall_dec (fun b => conj b = true) (fun b => bool_dec (conj b) true) l) as [|n]; auto. specialize (I4 n). discriminate. }
      specialize (I3 HF). injection I3 as ->. split.
      * apply Forall_app. split; auto. constructor; auto. right. exists l. auto.
      * split; [|tauto]. intros _. exists l. split; auto. split; auto. rewrite by_name_app, I2l, String.eqb_refl. reflexivity.
    + split; auto. split; auto. intros H. specialize (I3 H). discriminate.
Qed.

Lemma history_entries : forall hist g, Forall entry g -> incl (concat hist) prog ->
  Forall entry (fold_left (fun g l => fst (get_log_joint g l)) hist g).
Proof.
  induction hist as [|l hist IH]; intros g Hg Hp; simpl; auto. apply IH.
  - apply joint_spec; auto. intros x Hx. apply Hp. simpl. apply in_app_iff. auto.
  - intros x Hx. apply Hp. simpl. apply in_app_iff. auto.
Qed.
End Program.

Lemma log_joint_of_set : forall hist l, numbered_rvs (concat (l :: hist)) -> named_apart (concat (l :: hist)) ->
  (Forall (fun b => conj b = true) l ->
     exists l', snd (get_log_joint (after hist) l) = Some (AddN (map LogProb l')) /\ Permutation l l') /\
  (~ Forall (fun b => conj b = true) l -> snd (get_log_joint (after hist) l) = None).
Proof.
  intros hist l H1 H2. assert (Hl : incl l (concat (l :: hist))) by (intros x Hx; simpl; apply in_app_iff; auto).
  assert (Hh : incl (concat hist) (concat (l :: hist))) by (intros x Hx; simpl; apply in_app_iff; auto).
  destruct (joint_spec _ H1 H2 (after hist) l (history_entries _ H1 H2 hist [] (Forall_nil _) Hh) Hl) as [_ [A B]].
  split; auto. intros HF. destruct (A HF) as [l' [E [HP _]]]. eauto.
Qed.

Lemma log_joint_shared : forall hist l l2, numbered_rvs (concat (l :: hist)) -> named_apart (concat (l :: hist)) ->
  Permutation l l2 -> Forall (fun b => conj b = true) l ->
  get_log_joint (fst (get_log_joint (after hist) l)) l2 = get_log_joint (fst (get_log_joint (after hist) l)) l /\
  fst (get_log_joint (fst (get_log_joint (after hist) l)) l2) = fst (get_log_joint (after hist) l) /\
  snd (get_log_joint (fst (get_log_joint (after hist) l)) l2) = snd (get_log_joint (after hist) l).
Proof.
  intros hist l l2 H1 H2 HP HF. assert (Hl : incl l (concat (l :: hist))) by (intros x Hx; simpl; apply in_app_iff; auto).
  assert (Hh : incl (concat hist) (concat (l :: hist))) by (intros x Hx; simpl; apply in_app_iff; auto).
  destruct (joint_spec _ H1 H2 (after hist) l (history_entries _ H1 H2 hist [] (Forall_nil _) Hh) Hl) as [_ [A _]].
  destruct (A HF) as [l' [E [_ Eb]]]. set (G := fst (get_log_joint (after hist) l)) in *.
  assert (E2 : forall k, joint_name k = joint_name l -> get_log_joint G k = (G, Some (AddN (map LogProb l')))).
  { intros k Hk. unfold get_log_joint. now rewrite Hk, Eb. }
  rewrite (E2 l eq_refl), (E2 l2 (eq_sym (joint_name_perm _ _ HP))), E. auto.
Qed.

Lemma joint_collision : exists hist l,
  named_apart (concat (l :: hist)) /\ (forall b, In b (concat (l :: hist)) -> conj b = true /\ exists n, cname b = n ++ "/") /\
  exists l', snd (get_log_joint (after hist) l) = Some (AddN (map LogProb l')) /\ ~ Permutation l l'.
Proof.
  exists [[mkcrv "a/" true; mkcrv "b/" true]], [mkcrv "a_b/" true]. split; [|split].
  - intros b b' H H' E. simpl in H, H'. destruct H as [<-|[<-|[<-|[]]]]; destruct H' as [<-|[<-|[<-|[]]]]; auto; discriminate.
  - intros b H. simpl in H. destruct H as [<-|[<-|[<-|[]]]]; (split; [reflexivity|]);
      [exists "a_b"|exists "a"|exists "b"]; reflexivity.
  - exists [mkcrv "a/" true; mkcrv "b/" true]. split; [vm_compute; reflexivity|]. intros C. apply Permutation_length in C. discriminate.
Qed.

(** ** The default conditioning set *)

Lemma prefix_app : forall s n, prefix s n = true <-> exists b, n = s ++ b.
Proof.
  induction s as [|c s IH]; intros n.
  - split; intros _; [exists n; reflexivity|destruct n; reflexivity].
  - destruct n as [|x n]; [split; [discriminate|intros [b H]; discriminate]|]. cbn [prefix append].
    destruct (ascii_dec c x) as [->|Hne].
    + rewrite IH. split; intros [b H]; exists b; [now rewrite H|now injection H].
    + split; [discriminate|]. intros [b H]. injection H as H _. congruence.
Qed.

Lemma within_occurs : forall s n, within s n = true <-> occurs s n.
Proof.
  intros s n. induction n as [|c n IH].
  - cbn [within]. rewrite orb_false_r. rewrite prefix_app. split.
    + intros [b H]. exists "", b. exact H.
    + intros [a [b H]]. destruct a; [exists b; exact H|discriminate].
  - cbn [within]. rewrite orb_true_iff, prefix_app, IH. split.
    + intros [[b H]|[a [b ->]]]; [exists "", b; exact H|exists (String c a), b; reflexivity].
    + intros [[|x a] [b H]]; [left; exists b; exact H|right]. simpl in H. injection H as <- ->. exists a, b. reflexivity.
Qed.

Lemma default_cond_spec : forall blanket i,
  In i (default_cond blanket) <->
  In i blanket /\ ~ (occurs "complete_conditional" (cname i) /\ occurs "cond_dist" (cname i)).
Proof.
  intros blanket i. unfold default_cond. rewrite filter_In. rewrite negb_true_iff, andb_false_iff.
  rewrite <- !within_occurs. destruct (within "complete_conditional" (cname i)), (within "cond_dist" (cname i)); intuition discriminate.
Qed.

Lemma results_left_out : forall blanket rv k c, In c blanket -> cname c = result_name rv k -> ~ In c (default_cond blanket).
Proof.
  intros blanket rv k c _ E H. apply default_cond_spec in H. destruct H as [_ H]. apply H. rewrite E. unfold result_name. split.
  - exists "", ("_" ++ cname rv ++ "cond_dist" ++ k ++ "/"). reflexivity.
  - exists ("complete_conditional_" ++ cname rv), (k ++ "/"). rewrite app_assoc_s. reflexivity.
Qed.

Lemma default_set : forall blanket,
  (forall i, In i (default_cond blanket) <->
     In i blanket /\ ~ (occurs "complete_conditional" (cname i) /\ occurs "cond_dist" (cname i))) /\
  (forall rv k c, In c blanket -> cname c = result_name rv k -> ~ In c (default_cond blanket)).
Proof. intros blanket. split; [apply default_cond_spec|apply results_left_out]. Qed.

Lemma term_valid : forall b x y, term_name b <> x ++ ":" ++ y.
Proof.
  assert (G : forall n x y, no_colons n ++ "_conjugate_log_prob" <> x ++ ":" ++ y).
  { induction n as [|c n IH]; intros x y E.
    - simpl in E. do 19 (destruct x as [|? x]; simpl in E; [discriminate|injection E as _ E]).
      destruct x; discriminate.
    - destruct x as [|d x]; simpl in E.
      + injection E as E _. destruct (Ascii.eqb_spec c ":"); [discriminate|congruence].
      + injection E as _ E. exact (IH x y E). }
  intros b. apply G.
Qed.
