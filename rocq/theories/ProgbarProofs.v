From Coq Require Import Ascii String List Arith ZArith Bool Lia.
From Verif Require Import Progbar ProgbarSpec.
Import ListNotations.

Lemma run_app : forall a b t, term_run t (a ++ b) = term_run (term_run t a) b.
Proof. intros; apply fold_left_app. Qed.

Lemma run_bs : forall n t, t_done (term_run t (repeat BS n)) = t_done t /\ t_line (term_run t (repeat BS n)) = t_line t.
Proof. unfold term_run. induction n; intros t; cbn [repeat fold_left]; auto. destruct (IHn (term_step t BS)) as [-> ->]. auto. Qed.

Lemma run_start : forall n t, term_run t (repeat BS n ++ [CR]) = mkterm (t_done t) (t_line t) 0.
Proof. intros n t. rewrite run_app. simpl. destruct (run_bs n t) as [-> ->]. auto. Qed.

(** Writing [s] at column [n] of a line. *)
Lemma put_mid : forall a c l, put (a ++ l) (length a) c = a ++ c :: tl l.
Proof. induction a; intros; simpl; [destruct l; auto|]. rewrite IHa; auto. Qed.

Lemma write : forall s a l d, term_run (mkterm d (a ++ l) (length a)) (map Ch s) =
  mkterm d (a ++ s ++ skipn (length s) l) (length a + length s).
Proof.
  induction s as [|c s IH]; intros a l d.
  - simpl. rewrite Nat.add_0_r. auto.
  - change (term_run (mkterm d (a ++ l) (length a)) (map Ch (c :: s)))
      with (term_run (mkterm d (put (a ++ l) (length a) c) (S (length a))) (map Ch s)). rewrite put_mid.
    replace (a ++ c :: tl l) with ((a ++ [c]) ++ tl l) by (rewrite <- app_assoc; auto).
    replace (S (length a)) with (length (a ++ [c])) by (rewrite app_length; simpl; lia).
    rewrite IH. rewrite <- app_assoc. rewrite app_length. simpl.
    replace (skipn (length s) (tl l)) with (match l with [] => [] | _ :: l0 => skipn (length s) l0 end).
    + f_equal. simpl. lia.
    + destruct l; simpl; auto. rewrite skipn_nil; auto.
Qed.

Lemma write0 : forall s l d, term_run (mkterm d l 0) (map Ch s) = mkterm d (s ++ skipn (length s) l) (length s).
Proof. intros s l d. apply (write s [] l d). Qed.

Lemma skipn_blank : forall s n k, exists m, skipn (length s + k) (s ++ repeat " "%char n) = repeat " "%char m.
Proof.
  intros s n k. exists (n - k). rewrite skipn_app. rewrite skipn_all2 by lia.
  replace (length s + k - length s) with k by lia. simpl. revert k. induction n as [|n IH]; intros [|k]; simpl; auto.
Qed.

Section P.
Context {V : Type} (fmt : V -> text).
Notation progbar := (@progbar V).

Definition values_after (p : progbar) (c : call) : list (text * V) :=
  fold_left (fun d kv => store_value d (fst kv) (snd kv)) (k_values c) (p_values p).
Definition drawn (p : progbar) (c : call) : text :=
  bar_text (p_target p) (p_width p) (k_current c) ++
  info_text fmt (p_target p) (k_current c) (k_now c - p_start p) (values_after p c).

Lemma draws_dec : forall p (c : @call V),
  draws p c \/ (~ draws p c /\ exists p', update fmt p c = (p', [], true) /\ p_total p' = p_total p /\ p_target p' = p_target p /\
    p_verbose p' = p_verbose p /\ p_width p' = p_width p /\ p_interval p' = p_interval p /\ p_start p' = p_start p /\
    p_values p' = values_after p c).
Proof.
  intros p c. unfold draws, update.
  destruct (negb (k_force c) && (k_now c - p_last p <? p_interval p)%Z && (k_current c <? p_target p)) eqn:E.
  - right. rewrite !andb_true_iff, negb_true_iff, Z.ltb_lt, Nat.ltb_lt in E. destruct E as [[H1 H2] H3]. split.
    + intros [_ [H|[H|H]]]; [congruence|lia|lia].
    + eexists. split; [reflexivity|]. simpl. auto 10.
  - destruct (Nat.eqb_spec (p_verbose p) 0) as [E0|E0].
    + right. split; [tauto|]. eexists. split; [reflexivity|]. simpl. auto 10.
    + left. split; auto. rewrite !andb_false_iff, negb_false_iff, Z.ltb_ge, Nat.ltb_ge in E. tauto.
Qed.

Lemma update_draws : forall p (c : @call V), draws p c -> 0 < p_target p ->
  update fmt p c =
  (mkpb (p_target p) (p_width p) (p_interval p) (p_verbose p) (p_start p) (values_after p c) (k_now c)
      (length (drawn p c)) (k_current c),
   (repeat BS (p_total p) ++ [CR]) ++ map Ch (drawn p c ++ repeat " "%char (p_total p - length (drawn p c))) ++
     (if p_target p <=? k_current c then [NL] else []), true).
Proof.
  intros p c [Hv H] Ht. unfold update. fold (values_after p c).
  destruct (negb (k_force c) && (k_now c - p_last p <? p_interval p)%Z && (k_current c <? p_target p)) eqn:E.
  { rewrite !andb_true_iff, negb_true_iff, Z.ltb_lt, Nat.ltb_lt in E. destruct E as [[H1 H2] H3].
    destruct H as [H|[H|H]]; [congruence|lia|lia]. }
  destruct (Nat.eqb_spec (p_verbose p) 0); [tauto|]. destruct (Nat.eqb_spec (p_target p) 0); [lia|].
  unfold drawn. cbv zeta. rewrite app_length, <- !app_assoc. reflexivity.
Qed.

(** The line ends after what was last drawn, but for blanks. *)
Definition tidy (p : progbar) (t : terminal) : Prop :=
  exists s, shows (t_line t) s /\ length s <= p_total p.

Lemma draw_terminal : forall p c t, draws p c -> 0 < p_target p -> tidy p t ->
  forall p' t', after fmt (p, t) c = (p', t') ->
    shows (t_line (mkterm [] (if p_target p <=? k_current c then last (t_done t') [] else t_line t') 0)) (drawn p c) /\
    (p_target p <= k_current c -> t_line t' = [] /\ t_col t' = 0 /\ exists l, t_done t' = t_done t ++ [l]) /\
    (k_current c < p_target p -> t_done t' = t_done t) /\
    tidy p' t' /\ p_total p' = length (drawn p c).
Proof.
  intros p c t Hd Ht (s & (n & Hl) & Hs) p' t' E. unfold after in E. simpl in E. rewrite (update_draws p c Hd Ht) in E.
  inversion E; subst p' t'; clear E. rewrite run_app, run_start, run_app, Hl, write0. simpl p_total.
  set (dr := drawn p c). set (line := (dr ++ repeat " "%char (p_total p - length dr)) ++ _).
  assert (Hline : shows line dr).
  { unfold line. destruct (skipn_blank s n (length (dr ++ repeat " "%char (p_total p - length dr)) - length s)) as (m & Em).
    replace (length s + (length (dr ++ repeat " "%char (p_total p - length dr)) - length s))
      with (length (dr ++ repeat " "%char (p_total p - length dr))) in Em.
    - rewrite Em. exists (p_total p - length dr + m). rewrite <- app_assoc, <- repeat_app. auto.
    - rewrite app_length, repeat_length. lia. }
  destruct (Nat.leb_spec (p_target p) (k_current c)) as [Hc|Hc]; simpl.
  - rewrite last_last. split; auto. split; [eauto|]. split; [lia|]. split; auto.
    exists []. split; [exists 0; auto|]. simpl; lia.
  - split; auto. split; [lia|]. split; auto. split; auto. exists dr. split; auto.
Qed.

Lemma nodraw_terminal : forall p c t, ~ draws p c -> after fmt (p, t) c = (fst (fst (update fmt p c)), t) /\
  p_total (fst (fst (update fmt p c))) = p_total p /\ p_target (fst (fst (update fmt p c))) = p_target p.
Proof.
  intros p c t Hn. destruct (draws_dec p c) as [H|(_ & p' & E & H1 & H2 & _)]; [tauto|].
  unfold after. simpl. rewrite E. simpl. auto.
Qed.

Lemma update_target : forall p c, p_target (fst (fst (update fmt p c))) = p_target p /\
  p_width (fst (fst (update fmt p c))) = p_width p.
Proof.
  intros p c. unfold update.
  destruct (_ && _); simpl; auto. destruct (Nat.eqb _ _); simpl; auto. destruct (Nat.eqb _ _); simpl; auto.
Qed.

(** After any history. *)
Lemma history_tidy : forall cs p t, 0 < p_target p -> tidy p t ->
  tidy (fst (fold_left (after fmt) cs (p, t))) (snd (fold_left (after fmt) cs (p, t))) /\
  p_target (fst (fold_left (after fmt) cs (p, t))) = p_target p /\
  p_width (fst (fold_left (after fmt) cs (p, t))) = p_width p.
Proof.
  induction cs as [|c cs IH]; intros p t Ht Hs; simpl; auto.
  destruct (after fmt (p, t) c) as [p' t'] eqn:E.
  assert (Hp : p' = fst (fst (update fmt p c))).
  { unfold after in E. simpl in E. destruct (update fmt p c) as [[? ?] ?]. inversion E; auto. }
  destruct (update_target p c) as [Htg Hw]. rewrite <- Hp in Htg, Hw.
  assert (Ht' : tidy p' t').
  { destruct (draws_dec p c) as [Hd|[Hn _]].
    - eapply draw_terminal; eauto.
    - destruct (nodraw_terminal p c t Hn) as (E2 & E3 & _). rewrite E2 in E. inversion E; subst.
      destruct Hs as (s & H1 & H2). exists s. rewrite E3. auto. }
  destruct (IH p' t') as (A & B & C); [lia|auto|]. rewrite B, C. auto.
Qed.

Lemma drawn_displays : forall p c,
  displays fmt (p_target p) (p_width p) (k_current c) (values_after p c) (drawn p c).
Proof.
  intros p c. unfold displays, drawn, bar_text, info_text. cbv zeta.
  exists (rjust (length (str_nat (p_target p))) (str_nat (k_current c))),
         (rjust (length (str_nat (p_target p))) (str_nat (p_target p))),
         (rjust 3 (str_nat (k_current c * 100 / p_target p))).
  change (txt "%] ") with (txt "%]" ++ txt " ").
  generalize (k_now c - p_start p)%Z. intros el.
  destruct (Nat.ltb_spec (k_current c) (p_target p)) as [Hc|Hc].
  - generalize (Z.quot (el * Z.of_nat (p_target p - k_current c)) (Z.of_nat (k_current c) * 1000000)). intros z.
    exists (txt " ETA: " ++ str_Z z ++ txt "s"). split; [|split; [|split; [|split]]].
    + rewrite <- !app_assoc. apply eq_refl.
    + unfold rjust. eexists. apply eq_refl.
    + unfold rjust. eexists. apply eq_refl.
    + unfold rjust. eexists. apply eq_refl.
    + left. split; [exact Hc|]. exists z. apply eq_refl.
  - generalize (Z.quot el 1000000). intros z.
    exists (txt " Elapsed: " ++ str_Z z ++ txt "s"). split; [|split; [|split; [|split]]].
    + rewrite <- !app_assoc. apply eq_refl.
    + unfold rjust. eexists. apply eq_refl.
    + unfold rjust. eexists. apply eq_refl.
    + unfold rjust. eexists. apply eq_refl.
    + right. split; [exact Hc|]. exists z. apply eq_refl.
Qed.

(** ** Values *)
Lemma store_latest : forall (d : list (text * V)) l k v, latest l d -> latest (l ++ [(k, v)]) (store_value d k v).
Proof.
  intros d l k v [Hn Hl].
  assert (Hin : forall d, NoDup (map fst d) -> NoDup (map fst (store_value d k v)) /\
     (forall k', In k' (map fst (store_value d k v)) -> k' = k \/ In k' (map fst d)) /\
     forall k' v', In (k', v') (store_value d k v) <-> (k' = k /\ v' = v) \/ (k' <> k /\ In (k', v') d)).
  { clear. induction d as [|[a b] d IH]; intros Hn; simpl in *.
    - split; [repeat constructor; simpl; tauto|]. split; [intuition|]. intros k' v'. split.
      + intros [E|[]]; inversion E; auto.
      + intros [[-> ->]|[_ []]]; auto.
    - inversion Hn as [|? ? Hni Hn']; subst. destruct (list_eq_dec ascii_dec a k) as [->|Hak]; simpl.
      + split; [constructor; auto|]. split; [intuition|]. intros k' v'. split.
        * intros [E|H]; [inversion E; auto|]. right. split; auto. intros ->. apply Hni.
          change k with (fst (k, v')). apply in_map; auto.
        * intros [[-> ->]|[H1 [E|H2]]]; auto. inversion E; congruence.
      + destruct (IH Hn') as (I1 & I2 & I3). split; [|split].
        * constructor; auto. intros H. apply I2 in H. destruct H; auto.
        * intros k' [<-|H]; auto. apply I2 in H. tauto.
        * intros k' v'. rewrite I3. split.
          -- intros [E|H]; [inversion E; subst; auto|tauto].
          -- intros [H|[H1 [E|H2]]]; auto. }
  destruct (Hin d Hn) as (I1 & _ & I3). split; auto.
  intros k' v'. rewrite I3, Hl. split.
  - intros [[-> ->]|(Hne & l1 & l2 & -> & Hk)].
    + exists l, []. auto.
    + exists l1, (l2 ++ [(k, v)]). rewrite <- app_assoc. split; auto. rewrite map_app, in_app_iff. simpl.
      intros [H|[H|[]]]; auto.
  - intros (l1 & l2 & E & Hk). destruct l2 as [|x l2] using rev_ind.
    + apply app_inj_tail in E. destruct E as [_ E]. inversion E; auto.
    + clear IHl2. replace (l1 ++ (k', v') :: l2 ++ [x]) with ((l1 ++ (k', v') :: l2) ++ [x]) in E
        by (rewrite <- app_assoc; auto).
      apply app_inj_tail in E. destruct E as [-> <-]. rewrite map_app, in_app_iff in Hk. simpl in Hk.
      right. split; [intros ->; tauto|]. exists l1, l2. auto.
Qed.

Lemma values_latest : forall kvs l (d : list (text * V)), latest l d ->
  latest (l ++ kvs) (fold_left (fun d kv => store_value d (fst kv) (snd kv)) kvs d).
Proof.
  induction kvs as [|[k v] kvs IH]; intros l d H; simpl.
  - rewrite app_nil_r; auto.
  - replace (l ++ (k, v) :: kvs) with ((l ++ [(k, v)]) ++ kvs) by (rewrite <- app_assoc; auto).
    apply IH, store_latest; auto.
Qed.

Lemma update_values : forall p c, p_values (fst (fst (update fmt p c))) = values_after p c.
Proof.
  intros p c. unfold update.
  destruct (_ && _); simpl; auto. destruct (Nat.eqb _ _); simpl; auto. destruct (Nat.eqb _ _); simpl; auto.
Qed.

Lemma history_values : forall cs p t l, latest l (p_values p) ->
  latest (l ++ flat_map k_values cs) (p_values (fst (fold_left (after fmt) cs (p, t)))).
Proof.
  induction cs as [|c cs IH]; intros p t l H; simpl.
  - rewrite app_nil_r; auto.
  - destruct (after fmt (p, t) c) as [p' t'] eqn:E.
    assert (Hp : p' = fst (fst (update fmt p c))).
    { unfold after in E. simpl in E. destruct (update fmt p c) as [[? ?] ?]. inversion E; auto. }
    rewrite app_assoc. apply IH. rewrite Hp, update_values. apply values_latest; auto.
Qed.
End P.

Lemma progbar_line : forall V (fmt : V -> text) target width interval verbose start cs c d,
  0 < target ->
  let s := fold_left (after fmt) cs (new_progbar target width interval verbose start, mkterm d [] 0) in
  let s' := after fmt s c in
  (draws (fst s) c -> exists values txt, latest (flat_map k_values (cs ++ [c])) values /\
     displays fmt target width (k_current c) values txt /\
     (k_current c < target -> shows (t_line (snd s')) txt /\ t_done (snd s') = t_done (snd s)) /\
     (target <= k_current c -> exists l, t_done (snd s') = t_done (snd s) ++ [l] /\ shows l txt /\
        t_line (snd s') = [] /\ t_col (snd s') = 0)) /\
  (~ draws (fst s) c -> snd s' = snd s).
Proof.
  intros V fmt target width interval verbose start cs c d Ht s s'.
  destruct (history_tidy fmt cs (new_progbar target width interval verbose start) (mkterm d [] 0)) as (H1 & H2 & H3).
  { auto. } { exists []. split; [exists 0; auto|]. simpl; lia. }
  pose proof (history_values fmt cs (new_progbar target width interval verbose start) (mkterm d [] 0) []) as Hv.
  fold s in H1, H2, H3, Hv. simpl in H2, H3, Hv.
  assert (Hv' : latest (flat_map k_values cs) (p_values (fst s))).
  { apply Hv. split; [constructor|]. intros k v. split; [intros []|]. intros ([|? ?] & l2 & E & _); discriminate. }
  unfold s'. destruct s as [p t]. simpl in *. split.
  - intros Hd. destruct (after fmt (p, t) c) as [p' t'] eqn:E.
    destruct (draw_terminal fmt p c t Hd ltac:(lia) H1 p' t' E) as (A & B & C & _). simpl.
    pose proof (drawn_displays fmt p c) as Hdis. rewrite H2, H3 in Hdis. rewrite H2 in *. simpl in A.
    exists (values_after p c), (drawn fmt p c). split; [|split; [auto|split]].
    + rewrite flat_map_app. simpl. rewrite app_nil_r. apply values_latest; auto.
    + intros Hc. destruct (Nat.leb_spec target (k_current c)); [lia|]. auto.
    + intros Hc. destruct (Nat.leb_spec target (k_current c)); [|lia]. destruct (B Hc) as (B1 & B2 & l & B3).
      exists l. rewrite B3, last_last in A. auto.
  - intros Hn. destruct (nodraw_terminal fmt p c t Hn) as (E & _). rewrite E. auto.
Qed.
