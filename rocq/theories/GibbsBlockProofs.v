(** * Proofs for C77: scans of blocks of variables. *)
From Coquelicot Require Import Coquelicot.
From Coq Require Import Reals List Arith Bool Lia Lra.
From Verif Require Import Transform Feed Gibbs GibbsSpec GibbsProofs GibbsLawProofs MHProofs VIIntegralSpec InvariantProofs.
From Verif Require Import GibbsBlockSpec.
Import ListNotations.
Local Open Scope R_scope.

Section Blocks.
Context {V : Type} (latent : list nat) (D : nat -> V -> Prop) (I : nat -> (V -> R) -> R -> Prop)
  (p : list V -> R) (c : nat -> list V -> R) (J : (list V -> R) -> R -> Prop).
Hypothesis Hlat : NoDup latent.
Notation key := (key latent).
Notation inside := (inside latent D).
Notation cdens := (conditional_density p c).

Lemma key_nth : forall i, (i < length latent)%nat -> nth_error latent i = Some (key i).
Proof. intros i Hi. apply nth_error_nth'. auto. Qed.
Lemma key_inj : forall i j, (i < length latent)%nat -> (j < length latent)%nat -> key i = key j -> i = j.
Proof.
  intros i j Hi Hj E. apply (proj1 (NoDup_nth_error latent) Hlat); auto. rewrite !key_nth by auto. congruence.
Qed.

Lemma inside_replaced : forall i v s, inside s -> (i < length latent)%nat -> D i v -> inside (replaced i v s).
Proof.
  intros i v s [L H] Hi Hv. split; [rewrite replaced_length; lia|].
  intros j u Hj. rewrite replaced_nth in Hj by lia. destruct (Nat.eqb_spec j i); [inversion Hj; subst; auto|eauto].
Qed.

(** The state with the values [w] for the variables [b]. *)
Definition put (w : nat -> V) (b : list nat) (s : list V) : list V :=
  fold_left (fun s j => replaced j (w (key j)) s) b s.
Lemma put_length : forall w b s, length s = length latent -> (forall i, In i b -> (i < length latent)%nat) ->
  length (put w b s) = length latent.
Proof.
  intros w b. unfold put. induction b as [|j b IH]; intros s L H; simpl; auto.
  apply IH; [|intros; apply H; simpl; auto]. rewrite replaced_length; auto. rewrite L. apply H; simpl; auto.
Qed.
Lemma put_nth : forall w b s j, length s = length latent -> (forall i, In i b -> (i < length latent)%nat) ->
  nth_error (put w b s) j = if in_dec Nat.eq_dec j b then Some (w (key j)) else nth_error s j.
Proof.
  intros w b. unfold put. induction b as [|i b IH]; intros s j L H; simpl; auto.
  assert (Hi : (i < length latent)%nat) by (apply H; simpl; auto).
  rewrite IH; [|rewrite replaced_length; lia|intros; apply H; simpl; auto].
  rewrite replaced_nth by lia.
  destruct (in_dec Nat.eq_dec j b), (Nat.eq_dec i j) as [->|Hn]; auto.
  - rewrite Nat.eqb_refl. auto.
  - destruct (Nat.eqb_spec j i); [congruence|auto].
Qed.
Lemma nth_map_w : forall (w : nat -> V) i, (i < length latent)%nat -> nth_error (map w latent) i = Some (w (key i)).
Proof. intros w i Hi. apply map_nth_error. apply key_nth; auto. Qed.
Lemma put_inside : forall w b s, inside s -> inside (map w latent) -> (forall i, In i b -> (i < length latent)%nat) -> inside (put w b s).
Proof.
  intros w b s [L H] [_ Hw] Hb. split; [apply put_length; auto|].
  intros i v E. rewrite put_nth in E by auto. destruct (in_dec Nat.eq_dec i b); [|eauto].
  apply Hw. rewrite nth_map_w; auto.
Qed.

Lemma scanned_put : forall b w s, length s = length latent -> (forall i, In i b -> (i < length latent)%nat) ->
  scanned_block latent b w s (put w b s).
Proof.
  intros b w s L Hb. unfold scanned_block, gibbs_scan. cbn [fold_left fst snd].
  assert (E : forall j k, nth_error latent j = Some k ->
    dict_get (scan_block (fun k _ => w k) (combine latent s) (map key b)) k = nth_error (put w b s) j).
  { intros j k Hj. rewrite scan_block_get, put_nth by auto.
    assert (Hjl : (j < length latent)%nat) by (apply nth_error_Some; congruence).
    assert (Hk : k = key j) by (rewrite key_nth in Hj by auto; congruence).
    destruct (in_dec Nat.eq_dec k (map key b)) as [Hin|Hin], (in_dec Nat.eq_dec j b) as [Hi|Hi]; auto.
    - congruence.
    - exfalso. apply in_map_iff in Hin. destruct Hin as (i & Ei & Hib). apply Hi. rewrite (key_inj j i); auto. congruence.
    - exfalso. apply Hin. rewrite Hk. apply in_map; auto.
    - destruct (nth_error s j) as [u|] eqn:Eu; [|apply nth_error_None in Eu; lia].
      apply get_in; [rewrite fst_combine; auto|]. apply (nth_error_In (combine latent s) j). apply nth_combine; auto. }
  assert (G : forall (ks : list nat) (r : list V) (f : nat -> option V), length r = length ks ->
    (forall j k, nth_error ks j = Some k -> f k = nth_error r j) -> map f ks = map Some r).
  { clear. induction ks as [|k ks IH]; intros [|x r] f Hl H; simpl in *; try lia; auto.
    rewrite (H 0%nat k eq_refl). simpl. f_equal. apply IH; [lia|]. intros j k' Hj. exact (H (S j) k' Hj). }
  apply G; auto. apply put_length; auto.
Qed.
Lemma map_Some_inj : forall a b : list V, map Some a = map Some b -> a = b.
Proof. induction a; intros [|y b] E; simpl in *; try congruence. inversion E. f_equal; auto. Qed.

Variable rest : nat -> (list V -> R) -> R -> Prop.
Variable G : (list V -> R) -> Prop.
Hypothesis Hint : integration latent D I p c J rest G.
Let HI i (Hi : (i < length latent)%nat) := one_variable _ _ _ _ _ _ _ _ Hint i Hi.

Lemma cdens_replaced : forall i s w v, inside s -> (i < length latent)%nat -> D i w -> cdens i (replaced i w s) v = cdens i s v.
Proof.
  intros i s w v Hs Hi Hw. assert (L : (i < length s)%nat) by (destruct Hs; lia).
  assert (E : c i (replaced i w s) = c i s).
  { apply (int_unique _ _ (HI i Hi) (fun v => p (replaced i v s))).
    - apply (int_ext _ _ (HI i Hi)) with (2 := proj1 (normalised _ _ _ _ _ _ _ _ Hint i _ Hi (inside_replaced i w s Hs Hi Hw))).
      intros u _. rewrite replaced_twice; auto.
    - apply (normalised _ _ _ _ _ _ _ _ Hint); auto. }
  unfold conditional_density. rewrite E, replaced_twice by auto. auto.
Qed.

(** One variable. *)
Lemma redrawn_invariant : forall i f g a, (i < length latent)%nat -> G f -> redrawn latent D I p c i f g ->
  J (fun s => p s * f s) a -> J (fun s => p s * g s) a.
Proof.
  intros i f g a Hi Hf Hg HJ.
  assert (Gg : G g) by (eapply (kept _ _ _ _ _ _ _ _ Hint); eauto).
  pose proof (in_turn _ _ _ _ _ _ _ _ Hint i f Hi Hf (fun s => c i s * g s)) as Ff.
  pose proof (in_turn _ _ _ _ _ _ _ _ Hint i g Hi Gg (fun s => c i s * g s)) as Fg.
  apply Fg; [|apply Ff; auto].
  - intros s Hs. destruct (normalised _ _ _ _ _ _ _ _ Hint i s Hi Hs) as [Hc Nc].
    apply (int_ext _ _ (HI i Hi) (fun v => g s * p (replaced i v s))).
    + intros v Hv. rewrite Rmult_comm. f_equal. assert (L : (i < length s)%nat) by (destruct Hs; lia).
      pose proof (inside_replaced i v s Hs Hi Hv) as Hs'.
      apply (int_unique _ _ (HI i Hi) _ _ _ (Hg s Hs)). apply (int_ext _ _ (HI i Hi)) with (2 := Hg _ Hs').
      intros u _. rewrite cdens_replaced, replaced_twice; auto.
    + rewrite Rmult_comm. apply (int_scal _ _ (HI i Hi)). auto.
  - intros s Hs. destruct (normalised _ _ _ _ _ _ _ _ Hint i s Hi Hs) as [Hc Nc].
    apply (int_ext _ _ (HI i Hi) (fun v => c i s * (cdens i s v * f (replaced i v s)))).
    + intros v _. unfold conditional_density. field. auto.
    + apply (int_scal _ _ (HI i Hi)). apply Hg; auto.
Qed.

(** A block: the values [w] of a state. *)
Variable w0 : nat -> V.
Hypothesis Hw0 : inside (map w0 latent).
Definition vals (s : list V) (k : nat) : V := match dict_get (combine latent s) k with Some v => v | None => w0 k end.
Lemma vals_key : forall s i v, length s = length latent -> nth_error s i = Some v -> vals s (key i) = v.
Proof.
  intros s i v L E. unfold vals. assert (Hi : (i < length latent)%nat) by (rewrite <- L; apply nth_error_Some; congruence).
  rewrite (get_in (combine latent s) (key i) v); auto.
  - rewrite fst_combine; auto.
  - apply (nth_error_In (combine latent s) i). apply nth_combine; auto. apply key_nth; auto.
Qed.
Lemma inside_map : forall w, (forall i, (i < length latent)%nat -> D i (w (key i))) -> inside (map w latent).
Proof.
  intros w H. split; [apply map_length|]. intros i v E.
  assert (Hi : (i < length latent)%nat) by (rewrite <- (map_length w); apply nth_error_Some; congruence).
  rewrite nth_map_w in E by auto. inversion E; subst. auto.
Qed.
Lemma inside_vals : forall s, inside s -> inside (map (vals s) latent).
Proof.
  intros s [L H]. apply inside_map. intros i Hi. destruct (nth_error s i) as [v|] eqn:E; [|apply nth_error_None in E; lia].
  rewrite (vals_key s i v); auto.
Qed.
Lemma inside_upd : forall w i v, inside (map w latent) -> (i < length latent)%nat -> D i v ->
  inside (map (fun k => if Nat.eqb k (key i) then v else w k) latent).
Proof.
  intros w i v [_ H] Hi Hv. apply inside_map. intros j Hj. cbv beta. destruct (Nat.eqb_spec (key j) (key i)) as [E|E].
  - apply key_inj in E; auto. subst. auto.
  - apply H. rewrite nth_map_w; auto.
Qed.

Variable block : list nat.
Hypothesis Hnd : NoDup block.
Hypothesis Hb : forall i, In i block -> (i < length latent)%nat.

Lemma free_put : free_block latent D p c block -> forall i pre s w v, In i block -> ~ In i pre -> (forall j, In j pre -> In j block) ->
  inside s -> inside (map w latent) -> D i v -> cdens i (put w pre s) v = cdens i s v.
Proof.
  intros Hf i pre. induction pre as [|j pre IH]; intros s w v Hi Hn Hpre Hs Hw Hv; auto.
  cbn [put fold_left]. unfold put in IH.
  assert (Hj : In j block) by (apply Hpre; simpl; auto).
  assert (Dj : D j (w (key j))) by (destruct Hw as [_ Hw]; apply Hw; rewrite nth_map_w; auto).
  rewrite IH; auto.
  - apply Hf; auto. intros ->. apply Hn; simpl; auto.
  - intros H. apply Hn; simpl; auto.
  - intros j' H. apply Hpre; simpl; auto.
  - apply inside_replaced; auto.
Qed.

Lemma put_vals : forall s b, inside s -> (forall i, In i b -> (i < length latent)%nat) -> put (vals s) b s = s.
Proof.
  intros s b [L H] Hbb. apply nth_ext_error. intros j. rewrite put_nth by auto.
  destruct (in_dec Nat.eq_dec j b) as [Hj|]; auto.
  destruct (nth_error s j) as [v|] eqn:E; [|apply nth_error_None in E; specialize (Hbb j Hj); lia].
  rewrite (vals_key s j v); auto.
Qed.
Lemma put_snoc : forall w b i s, put w (b ++ [i]) s = replaced i (w (key i)) (put w b s).
Proof. intros. unfold put. rewrite fold_left_app. auto. Qed.
Lemma put_upd : forall w b i v s, length s = length latent -> (forall j, In j b -> (j < length latent)%nat) ->
  (i < length latent)%nat -> ~ In i b -> put (fun k => if Nat.eqb k (key i) then v else w k) b s = put w b s.
Proof.
  intros w b i v s L Hbb Hi Hn. apply nth_ext_error. intros j. rewrite !put_nth by auto.
  destruct (in_dec Nat.eq_dec j b) as [Hj|]; auto. destruct (Nat.eqb_spec (key j) (key i)) as [E|]; auto.
  apply key_inj in E; auto. congruence.
Qed.
(** Drawing variable [i] after [pre]: the state it leads to. *)
Lemma put_next : forall w pre i v s, length s = length latent -> (forall j, In j pre -> (j < length latent)%nat) ->
  (i < length latent)%nat -> ~ In i pre ->
  put (fun k => if Nat.eqb k (key i) then v else w k) (pre ++ [i]) s = replaced i v (put w pre s).
Proof. intros. rewrite put_snoc, Nat.eqb_refl, put_upd; auto. Qed.

Hypothesis Hfree : free_block latent D p c block.

Lemma drawing_put : forall f todo pre h, pre ++ todo = block -> drawing latent D I p c block todo f h ->
  forall s w, inside s -> inside (map w latent) -> h s w = h (put w pre s) (vals (put w pre s)).
Proof.
  intros f todo. induction todo as [|i todo IH]; intros pre h E Hd s w Hs Hw.
  - rewrite app_nil_r in E. subst pre. cbn in Hd.
    pose proof (put_inside w block s Hs Hw Hb) as Hs'.
    rewrite (Hd s w (put w block s)); auto; [|apply scanned_put; auto; destruct Hs; auto].
    rewrite (Hd (put w block s) (vals (put w block s)) (put w block s)); auto.
    + apply inside_vals; auto.
    + pose proof (scanned_put block (vals (put w block s)) _ (proj1 Hs') Hb) as Sp. rewrite put_vals in Sp; auto.
  - destruct Hd as (h' & Hd' & Hd). specialize (IH (pre ++ [i]) h'). rewrite <- app_assoc in IH. specialize (IH E Hd').
    assert (Hib : In i block) by (rewrite <- E; apply in_or_app; simpl; auto).
    assert (Hpre : forall j, In j pre -> In j block) by (intros; rewrite <- E; apply in_or_app; auto).
    assert (Hn : ~ In i pre). { rewrite <- E in Hnd. apply NoDup_remove_2 in Hnd. intros H. apply Hnd. apply in_or_app; auto. }
    assert (Hi : (i < length latent)%nat) by auto.
    pose proof (put_inside w pre s Hs Hw (fun j Hj => Hb j (Hpre j Hj))) as Hs'.
    pose proof (inside_vals _ Hs') as Hw'.
    apply (int_unique _ _ (HI i Hi) _ _ _ (Hd s w Hs Hw)).
    apply (int_ext _ _ (HI i Hi)) with (2 := Hd _ _ Hs' Hw'). intros v Hv. cbv beta.
    rewrite (free_put Hfree i pre s w v); auto. f_equal.
    rewrite IH by (auto using inside_upd). symmetry. rewrite IH by (auto using inside_upd).
    rewrite !put_next by (auto; first [exact (proj1 Hs) | exact (proj1 Hs')]).
    rewrite put_vals; auto.
Qed.

Lemma drawing_chain : forall f todo pre h a, G f -> pre ++ todo = block -> drawing latent D I p c block todo f h ->
  G (fun s => h s (vals s)) /\ (J (fun s => p s * f s) a -> J (fun s => p s * h s (vals s)) a).
Proof.
  intros f todo. induction todo as [|i todo IH]; intros pre h a Gf E Hd.
  - cbn in Hd. rewrite app_nil_r in E. subst pre.
    assert (Eq : forall s, inside s -> f s = h s (vals s)).
    { intros s Hs. symmetry. apply Hd; auto; [apply inside_vals; auto|].
      pose proof (scanned_put block (vals s) s (proj1 Hs) Hb) as Sp. rewrite put_vals in Sp; auto. }
    split; [eapply (alike _ _ _ _ _ _ _ _ Hint); eauto|].
    apply (int_ext _ _ (all_variables _ _ _ _ _ _ _ _ Hint)). intros s Hs. rewrite Eq; auto.
  - pose proof Hd as Hd0. destruct Hd as (h' & Hd' & Hd).
    assert (E' : (pre ++ [i]) ++ todo = block) by (rewrite <- app_assoc; auto).
    destruct (IH (pre ++ [i]) h' a Gf E' Hd') as [G' J'].
    assert (Hib : In i block) by (rewrite <- E; apply in_or_app; simpl; auto).
    assert (Hpre : forall j, In j pre -> In j block) by (intros; rewrite <- E; apply in_or_app; auto).
    assert (Hn : ~ In i pre). { rewrite <- E in Hnd. apply NoDup_remove_2 in Hnd. intros H. apply Hnd. apply in_or_app; auto. }
    assert (Hi : (i < length latent)%nat) by auto.
    assert (Rd : redrawn latent D I p c i (fun s => h' s (vals s)) (fun s => h s (vals s))).
    { intros s Hs. pose proof (inside_vals s Hs) as Hw.
      apply (int_ext _ _ (HI i Hi)) with (2 := Hd s (vals s) Hs Hw). intros v Hv. cbv beta. f_equal.
      rewrite (drawing_put f todo (pre ++ [i]) h' E' Hd') by (auto using inside_upd).
      rewrite put_next; auto; [|destruct Hs; auto]. rewrite put_vals; auto. }
    split; [eapply (kept _ _ _ _ _ _ _ _ Hint); eauto|]. intros HJ. eapply redrawn_invariant; eauto.
Qed.
End Blocks.

Section Scan.
Context {V : Type} (latent : list nat) (D : nat -> V -> Prop) (I : nat -> (V -> R) -> R -> Prop)
  (p : list V -> R) (c : nat -> list V -> R) (J : (list V -> R) -> R -> Prop)
  (rest : nat -> (list V -> R) -> R -> Prop) (G : (list V -> R) -> Prop).
Hypothesis Hlat : NoDup latent.
Hypothesis Hint : integration latent D I p c J rest G.

(** Values: there are some if there is a state and a variable. *)
Lemma some_values : forall s, inside latent D s -> (0 < length latent)%nat -> exists w0 : nat -> V, inside latent D (map w0 latent).
Proof.
  intros s Hs H0. pose proof Hs as [L _]. destruct s as [|v0 s']; [simpl in L; lia|].
  exists (fun k => match dict_get (combine latent (v0 :: s')) k with Some v => v | None => v0 end).
  apply (inside_vals latent D Hlat (fun _ => v0)); auto.
Qed.

Lemma block_invariant : forall block f g a, block <> [] -> NoDup block -> (forall i, In i block -> (i < length latent)%nat) ->
  free_block latent D p c block -> G f -> after_block latent D I p c block f g ->
  (exists s, inside latent D s) ->
  G g /\ (J (fun s => p s * f s) a -> J (fun s => p s * g s) a).
Proof.
  intros block f g a Hne Hnd Hb Hf Gf (h & Hd & Hg) [s0 Hs0].
  assert (H0 : (0 < length latent)%nat). { destruct block as [|i b]; [congruence|]. specialize (Hb i (or_introl eq_refl)). lia. }
  destruct (some_values s0 Hs0 H0) as [w0 Hw0].
  destruct (drawing_chain latent D I p c J Hlat rest G Hint w0 block Hnd Hb Hf f block [] h a Gf eq_refl Hd) as [G' J'].
  assert (Eq : forall s, inside latent D s -> h s (vals latent w0 s) = g s).
  { intros s Hs. symmetry. apply Hg; auto. apply inside_vals; auto. }
  split; [eapply (alike _ _ _ _ _ _ _ _ Hint); eauto|]. intros HJ.
  apply (int_ext _ _ (all_variables _ _ _ _ _ _ _ _ Hint)) with (2 := J' HJ). intros s Hs. rewrite Eq; auto.
Qed.

Lemma scan_invariant : forall order f g a, (exists s, inside latent D s) -> scan_order latent order ->
  (forall block, In block order -> free_block latent D p c block) -> G f -> after_scan latent D I p c order f g ->
  J (fun s => p s * f s) a -> J (fun s => p s * g s) a.
Proof.
  intros order f g a Hs Ho Hf Gf Hg HJ.
  enough (G g /\ J (fun s => p s * g s) a) by tauto.
  revert g Hg. induction order as [|b order IH]; intros g Hg.
  - cbn in Hg. split; [eapply (alike _ _ _ _ _ _ _ _ Hint); eauto; intros; symmetry; auto|].
    apply (int_ext _ _ (all_variables _ _ _ _ _ _ _ _ Hint)) with (2 := HJ). intros s Hi. rewrite Hg; auto.
  - destruct Hg as (h & Hh & Hg).
    assert (Go : scan_order latent order) by (intros x Hx; apply Ho; simpl; auto).
    destruct (IH Go (fun x Hx => Hf x (or_intror Hx)) h Hh) as [Gh Jh].
    destruct (Ho b (or_introl eq_refl)) as (N1 & N2 & N3).
    destruct (block_invariant b h g a N1 N2 N3 (Hf b (or_introl eq_refl)) Gh Hg Hs) as [G' J']. auto.
Qed.

(** Blocks of one variable are free. *)
Lemma single_free : forall i, free_block latent D p c [i].
Proof. intros i j k [<-|[]] [<-|[]] H. congruence. Qed.
Lemma scan_invariant' : (exists s, inside latent D s) -> forall order f g a, scan_order latent order ->
  (forall block, In block order -> free_block latent D p c block) -> G f -> after_scan latent D I p c order f g ->
  J (fun s => p s * f s) a -> J (fun s => p s * g s) a.
Proof. intros Hs order f g a. apply scan_invariant. auto. Qed.
Lemma single_invariant : (exists s, inside latent D s) ->
  forall order f g a, (forall i, In i order -> (i < length latent)%nat) -> G f ->
  after_scan latent D I p c (map (fun i => [i]) order) f g ->
  J (fun s => p s * f s) a -> J (fun s => p s * g s) a.
Proof.
  intros Hs order f g a Ho. apply scan_invariant; auto.
  - intros b Hin. apply in_map_iff in Hin. destruct Hin as (i & <- & Hi). split; [discriminate|split].
    + repeat constructor. simpl. tauto.
    + intros j [<-|[]]. auto.
  - intros b Hin. apply in_map_iff in Hin. destruct Hin as (i & <- & Hi). apply single_free.
Qed.
End Scan.
