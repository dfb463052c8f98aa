(** * Witnesses and examples for C77. *)
From Coquelicot Require Import Coquelicot.
From Coq Require Import Reals List Arith Bool Lia Lra.
From Verif Require Import Transform Feed Gibbs GibbsSpec GibbsProofs GibbsLawProofs MHProofs VIIntegralSpec InvariantProofs RBIntegralExampleProofs.
From Verif Require Import GibbsBlockSpec GibbsBlockProofs.
Import ListNotations.
Local Open Scope R_scope.

Lemma integral_more : forall {A} (D D' : A -> Prop) I, (forall x, D x -> D' x) -> integral D I -> integral D' I.
Proof. intros A D D' I H [u e a s]. constructor; auto. intros f g x E. apply e; auto. Qed.

(** ** Binary variables *)
Lemma pairs_all : forall s, inside [4%nat; 7%nat] any_D s -> In s pairs.
Proof.
  intros s [L _]. destruct s as [|a [|b [|? s]]]; simpl in L; try lia.
  destruct a, b; simpl; auto.
Qed.
Lemma triples_all : forall s, inside [4%nat; 7%nat; 9%nat] any_D s -> In s triples.
Proof.
  intros s [L _]. destruct s as [|z [|a [|b [|? s]]]]; simpl in L; try lia.
  destruct z, a, b; simpl; auto 10.
Qed.
Lemma any_inside : forall (latent : list nat) (s : list bool), length s = length latent -> inside latent any_D s.
Proof. intros latent s L. split; auto. intros. exact Logic.I. Qed.

Lemma triple_integration :
  integration [4%nat; 7%nat; 9%nat] any_D bits_I triple_p (bits_c triple_p) (by_sum triples) (bits_rest triples) (fun _ => True).
Proof.
  constructor; auto.
  - intros i _. apply (integral_more (fun x => In x bits)); [intros; exact Logic.I|]. apply by_sum_integral.
  - apply (integral_more (fun s => In s triples)); [|apply by_sum_integral].
    intros s H. apply any_inside. simpl in H. decompose [or] H; subst; auto. tauto.
  - intros i s Hi Hs. split; [reflexivity|].
    apply triples_all in Hs. destruct i as [|[|[|i]]]; simpl in Hi; try lia;
      simpl in Hs; decompose [or] Hs; subst; try tauto; unfold bits_c; simpl; lra.
  - intros i f Hi _ h Hh a.
    assert (Hs : forall s, length s = 3%nat -> sumR (map (fun v => triple_p (replaced i v s) * f (replaced i v s)) bits) = h s)
      by (intros s L; apply (Hh s); apply any_inside; auto).
    pose proof (Hs [true; true; true] eq_refl) as H1. pose proof (Hs [true; true; false] eq_refl) as H2.
    pose proof (Hs [true; false; true] eq_refl) as H3. pose proof (Hs [true; false; false] eq_refl) as H4.
    pose proof (Hs [false; true; true] eq_refl) as H5. pose proof (Hs [false; true; false] eq_refl) as H6.
    pose proof (Hs [false; false; true] eq_refl) as H7. clear Hs Hh.
    unfold bits_rest, by_sum.
    destruct i as [|[|[|i]]]; simpl in Hi; try lia; unfold replaced in *; cbn in *; split; intros <-; lra.
Qed.
Lemma triple_free : free_block [4%nat; 7%nat; 9%nat] any_D triple_p (bits_c triple_p) [1%nat; 2%nat].
Proof.
  intros i j [<-|[<-|[]]] [<-|[<-|[]]] N s w v Hs _ _; try congruence; apply triples_all in Hs;
    simpl in Hs; decompose [or] Hs; subst; try tauto; destruct w, v; unfold conditional_density, bits_c, replaced; cbn; field.
Qed.

Lemma pair_block : exists g,
  after_block [4%nat; 7%nat] any_D bits_I pair_p (bits_c pair_p) [0%nat; 1%nat] (fun s => if nth 0 s false && nth 1 s false then 1 else 0) g /\
  by_sum pairs (fun s => pair_p s * (if nth 0 s false && nth 1 s false then 1 else 0)) (3 / 8) /\
  by_sum pairs (fun s => pair_p s * g s) (9 / 32).
Proof.
  set (f := fun s : list bool => if nth 0 s false && nth 1 s false then 1 else 0).
  set (d := conditional_density pair_p (bits_c pair_p)).
  set (h2 := fun (s : list bool) (w : nat -> bool) => if w 4%nat && w 7%nat then 1 else 0).
  set (h1 := fun (s : list bool) (w : nat -> bool) => sumR (map (fun v => d 1%nat s v * h2 s (fun k => if Nat.eqb k 7 then v else w k)) bits)).
  set (h0 := fun (s : list bool) (w : nat -> bool) => sumR (map (fun v => d 0%nat s v * h1 s (fun k => if Nat.eqb k 4 then v else w k)) bits)).
  exists (fun s => h0 s (fun _ => true)). split; [|split].
  - exists h0. split.
    + exists h1. split.
      * exists h2. split.
        -- intros s w t Hs _ Ht. unfold scanned_block in Ht. destruct Hs as [L _].
           destruct s as [|a [|b [|? s]]]; simpl in L; try lia. destruct t as [|x [|y [|? t]]]; try discriminate Ht.
           cbn in Ht. inversion Ht; subst. reflexivity.
        -- intros s w _ _. reflexivity.
      * intros s w _ _. reflexivity.
    + intros s w _ _. reflexivity.
  - unfold by_sum, pairs, f. cbn. lra.
  - unfold by_sum, pairs, h0, h1, h2, d, conditional_density, bits_c, replaced. cbn. field.
Qed.

Lemma block_refuted : exists (latent : list nat) (p : list bool -> R) f g a,
  (forall s, In s pairs -> 0 < p s) /\ by_sum pairs p 1 /\
  scan_order latent [[0%nat; 1%nat]] /\ after_scan latent any_D bits_I p (bits_c p) [[0%nat; 1%nat]] f g /\
  by_sum pairs (fun s => p s * f s) a /\ ~ by_sum pairs (fun s => p s * g s) a.
Proof.
  destruct pair_block as (g & Hg & Hf & Hb).
  exists [4%nat; 7%nat], pair_p, (fun s => if nth 0 s false && nth 1 s false then 1 else 0), g, (3 / 8).
  split; [|split; [|split; [|split; [|split]]]]; auto.
  - intros s H. simpl in H. decompose [or] H; subst; try tauto; simpl; lra.
  - unfold by_sum. cbn. lra.
  - intros b [<-|[]]. split; [discriminate|split].
    + repeat constructor; simpl; intuition discriminate.
    + intros i [<-|[<-|[]]]; simpl; lia.
  - eexists. split; [cbn; intros; reflexivity|]. exact Hg.
  - unfold by_sum in *. rewrite Hb. lra.
Qed.

(** ** One binary and one real variable *)
Lemma mixed_shape : forall s, inside [4%nat; 7%nat] mixed_D s -> exists a x, s = [a; x] /\ (a = 0 \/ a = 1) /\ 0 <= x <= 1.
Proof.
  intros s [L H]. destruct s as [|a [|x [|? s]]]; simpl in L; try lia. exists a, x. split; auto.
  pose proof (H 0%nat a eq_refl) as Ha. pose proof (H 1%nat x eq_refl) as Hx. simpl in *.
  split; auto. destruct Ha as [<-|[<-|[]]]; auto.
Qed.
Lemma mixed_in : forall a x, a = 0 \/ a = 1 -> 0 <= x <= 1 -> inside [4%nat; 7%nat] mixed_D [a; x].
Proof.
  intros a x Ha Hx. split; auto. intros [|[|[|i]]] v E; inversion E; subst; simpl; auto.
  destruct Ha as [->| ->]; auto.
Qed.
Lemma half : is_RInt (fun x : R => x) 0 1 (1 / 2).
Proof.
  replace (1 / 2) with (minus (1 ^ 2 / 2) (0 ^ 2 / 2)) by (unfold minus, plus, opp; simpl; field).
  apply (is_RInt_derive (fun x => x ^ 2 / 2)).
  - intros x _. auto_derive; auto. field.
  - intros x _. apply continuous_id.
Qed.
Lemma half' : is_RInt (fun x : R => 1 - x) 0 1 (1 / 2).
Proof.
  replace (1 / 2) with (minus (1 - 1 ^ 2 / 2) (0 - 0 ^ 2 / 2)) by (unfold minus, plus, opp; simpl; field).
  apply (is_RInt_derive (fun x => x - x ^ 2 / 2)).
  - intros x _. auto_derive; auto. field.
  - intros x _. apply (continuous_minus (V := R_NormedModule)); [apply continuous_const|apply continuous_id].
Qed.
Lemma unit_closed : integral (fun z => 0 <= z <= 1) (by_RInt 0 1).
Proof. apply (integral_more (fun z => 0 < z < 1)); [intros; lra|]. apply unit_integral. Qed.

Lemma mixed_integration : integration [4%nat; 7%nat] mixed_D mixed_I mixed_p mixed_c mixed_J mixed_rest (fun _ => True).
Proof.
  pose proof unit_closed as [u e ad sc].
  constructor; auto.
  - intros [|[|i]] Hi; simpl in Hi; try lia; [apply by_sum_integral|apply unit_closed].
  - constructor.
    + intros f a b. apply u.
    + intros f g a E. apply e. intros x Hx. rewrite !E; auto; apply mixed_in; auto.
    + intros f g a b Hf Hg. apply (e (fun x => (f [0; x] + f [1; x]) + (g [0; x] + g [1; x]))); [intros; ring|]. apply ad; auto.
    + intros k f a Hf. apply (e (fun x => k * (f [0; x] + f [1; x]))); [intros; ring|]. apply sc; auto.
  - intros i s Hi Hs. destruct (mixed_shape s Hs) as (a & x & -> & Ha & Hx).
    destruct i as [|[|i]]; simpl in Hi; try lia; simpl; (split; [|lra]).
    + unfold by_sum, replaced. cbn. destruct (Req_EM_T 0 1); [lra|]. destruct (Req_EM_T 1 1); [|lra]. lra.
    + unfold by_RInt, replaced. cbn. destruct (Req_EM_T a 1); [exact half|exact half'].
  - intros i f Hi _ h Hh a. destruct i as [|[|i]]; simpl in Hi; try lia; cbn [mixed_I mixed_rest] in *.
    + assert (E : forall x, 0 <= x <= 1 -> mixed_p [0; x] * f [0; x] + mixed_p [1; x] * f [1; x] = h [0; x]).
      { intros x Hx. rewrite <- (Hh [0; x] (mixed_in 0 x (or_introl eq_refl) Hx)). unfold replaced. cbn. ring. }
      unfold mixed_J. split; apply e; intros x Hx; rewrite E; auto.
    + pose proof (Hh [0; 0] (mixed_in 0 0 (or_introl eq_refl) ltac:(lra))) as H0.
      pose proof (Hh [1; 0] (mixed_in 1 0 (or_intror eq_refl) ltac:(lra))) as H1.
      unfold by_RInt, replaced in H0, H1. cbn [firstn skipn app] in H0, H1.
      pose proof (ad _ _ _ _ H0 H1) as H. cbv beta in H. unfold mixed_J. split.
      * intros Ha. apply (u _ _ _ H Ha).
      * intros <-. exact H.
Qed.

(** From [a; x]: draw the Bernoulli variable given [x], then the real variable. *)
Lemma thirds : forall a, a = 0 \/ a = 1 ->
  is_RInt (fun v : R => mixed_p [a; v] / (1 / 2) * v) 0 1 (if Req_EM_T a 1 then 2 / 3 else 1 / 3).
Proof.
  intros a Ha. cbn. destruct (Req_EM_T a 1).
  - replace (2 / 3) with (minus (2 * 1 ^ 3 / 3) (2 * 0 ^ 3 / 3)) by (unfold minus, plus, opp; simpl; field).
    apply (is_RInt_derive (fun x => 2 * x ^ 3 / 3)).
    + intros x _. auto_derive; auto. field.
    + intros x _. apply (ex_derive_continuous (V := R_NormedModule)). auto_derive; auto.
  - replace (1 / 3) with (minus (1 ^ 2 - 2 * 1 ^ 3 / 3) (0 ^ 2 - 2 * 0 ^ 3 / 3)) by (unfold minus, plus, opp; simpl; field).
    apply (is_RInt_derive (fun x => x ^ 2 - 2 * x ^ 3 / 3)).
    + intros x _. auto_derive; auto. field.
    + intros x _. apply (ex_derive_continuous (V := R_NormedModule)). auto_derive; auto.
Qed.
Lemma mixed_scan : after_scan [4%nat; 7%nat] mixed_D mixed_I mixed_p mixed_c [[0%nat]; [1%nat]]
  (fun s => nth 1 s 0) (fun s => (1 + nth 1 s 0) / 3).
Proof.
  exists (fun s => if Req_EM_T (nth 0 s 0) 1 then 2 / 3 else 1 / 3). split.
  - exists (fun s => nth 1 s 0). split; [intros s _; reflexivity|].
    exists (fun s w => if Req_EM_T (nth 0 s 0) 1 then 2 / 3 else 1 / 3). split; [|auto].
    exists (fun s w => w 7%nat). split.
    + intros s w t Hs _ Ht. destruct (mixed_shape s Hs) as (a & x & -> & _).
      unfold scanned_block in Ht. destruct t as [|y [|z [|? t]]]; try discriminate Ht. cbn in Ht. inversion Ht; subst. reflexivity.
    + intros s w Hs _. destruct (mixed_shape s Hs) as (a & x & -> & Ha & Hx).
      cbn [nth mixed_I]. apply (thirds a Ha).
  - exists (fun s w => (1 + nth 1 s 0) / 3). split; [|auto].
    exists (fun s w => if Req_EM_T (w 4%nat) 1 then 2 / 3 else 1 / 3). split.
    + intros s w t Hs _ Ht. destruct (mixed_shape s Hs) as (a & x & -> & _).
      unfold scanned_block in Ht. destruct t as [|y [|z [|? t]]]; try discriminate Ht. cbn in Ht. inversion Ht; subst. reflexivity.
    + intros s w Hs _. destruct (mixed_shape s Hs) as (a & x & -> & Ha & Hx).
      unfold by_sum, conditional_density, mixed_c, replaced. cbn. unfold by_sum. cbn.
      destruct (Req_EM_T 0 1); [lra|]. destruct (Req_EM_T 1 1); [|lra]. field.
Qed.
Lemma mixed_state : inside [4%nat; 7%nat] mixed_D [1; 1 / 3].
Proof. apply mixed_in; [right; reflexivity|lra]. Qed.
Lemma mixed_mean : mixed_J (fun s => mixed_p s * nth 1 s 0) (1 / 2).
Proof.
  unfold mixed_J. apply (is_RInt_ext (fun x : R => x)); [|exact half].
  intros x _. cbn. destruct (Req_EM_T 0 1); [lra|]. destruct (Req_EM_T 1 1); [|lra]. ring.
Qed.

(** Finite sums always exist. *)
Section Finite.
Variable latent : list nat.
Variable p : list bool -> R.
Variable c : nat -> list bool -> R.
Hypothesis Hlat : NoDup latent.
Lemma drawing_exists : forall f block, (forall i, In i block -> (i < length latent)%nat) -> forall todo, (forall i, In i todo -> In i block) ->
  exists h, drawing latent any_D bits_I p c block todo f h /\
    forall s w w', length s = length latent -> (forall i, In i block -> ~ In i todo -> w (key latent i) = w' (key latent i)) -> h s w = h s w'.
Proof.
  intros f block Hb. induction todo as [|i todo IH]; intros Ht.
  - exists (fun s w => f (put latent w block s)). split.
    + intros s w t [L _] _ Hs. f_equal. apply map_Some_inj. rewrite <- Hs. symmetry. apply scanned_put; auto.
    + intros s w w' L E. f_equal. apply nth_ext_error. intros j. rewrite !put_nth by auto.
      destruct (in_dec Nat.eq_dec j block); auto. rewrite E; auto.
  - destruct IH as (h & Hh & Ih); [intros; apply Ht; simpl; auto|].
    exists (fun s w => sumR (map (fun v => conditional_density p c i s v * h s (fun k => if Nat.eqb k (key latent i) then v else w k)) bits)). split.
    + exists h. split; auto. intros s w _ _. reflexivity.
    + intros s w w' L E. f_equal. apply map_ext. intros v. f_equal. apply Ih; auto.
      intros j Hj Hn. cbv beta. destruct (Nat.eqb_spec (key latent j) (key latent i)) as [|N]; auto.
      apply E; auto. intros [<-|H]; auto.
Qed.
Lemma scan_exists : forall order f, scan_order latent order -> exists g, after_scan latent any_D bits_I p c order f g.
Proof.
  induction order as [|b order IH]; intros f Ho.
  - exists f. intros s _. reflexivity.
  - destruct (IH f) as [h Hh]; [intros x Hx; apply Ho; simpl; auto|].
    destruct (Ho b (or_introl eq_refl)) as (_ & _ & Hb).
    destruct (drawing_exists h b Hb b (fun i Hi => Hi)) as (g & Hg & Eg).
    exists (fun s => g s (fun _ => true)), h. split; auto. exists g. split; auto.
    intros s w [L _] _. apply Eg; auto. intros i Hi Hn. tauto.
Qed.
End Finite.

Lemma triple_demo :
  integration [4%nat; 7%nat; 9%nat] any_D bits_I triple_p (bits_c triple_p) (by_sum triples) (bits_rest triples) (fun _ => True) /\
  scan_order [4%nat; 7%nat; 9%nat] [[0%nat]; [1%nat; 2%nat]] /\
  (forall block, In block [[0%nat]; [1%nat; 2%nat]] -> free_block [4%nat; 7%nat; 9%nat] any_D triple_p (bits_c triple_p) block) /\
  forall f, exists g, after_scan [4%nat; 7%nat; 9%nat] any_D bits_I triple_p (bits_c triple_p) [[0%nat]; [1%nat; 2%nat]] f g.
Proof.
  assert (Ho : scan_order [4%nat; 7%nat; 9%nat] [[0%nat]; [1%nat; 2%nat]]).
  { intros b [<-|[<-|[]]]; (split; [discriminate|split; [repeat constructor; simpl; intuition discriminate|]]);
      simpl; intros i; intuition subst; simpl; lia. }
  split; [exact triple_integration|split; [exact Ho|split]].
  - intros b [<-|[<-|[]]]; [apply single_free|exact triple_free].
  - intros f. apply scan_exists; auto. repeat constructor; simpl; intuition discriminate.
Qed.
