(** * States and momenta as lists of numbers. *)
From Coquelicot Require Import Coquelicot.
From Coq Require Import Reals List Arith Bool Lia Lra Psatz.
From Verif Require Import Ext ExtProofs Feed MonteCarlo Transform MHSpec HMC HMCSpec HMCProofs VI VISpec VIIntegralSpec InvariantSpec InvariantProofs.
From Verif Require Import VolumeSpec VolumeProofs VolumeMassProofs VolumeStepProofs VolumeHMCSpec.
Import ListNotations.
Local Open Scope R_scope.
Set Bullet Behavior "Strict Subproofs".

Lemma size_cons : forall v s, size (v :: s) = (length v + size s)%nat.
Proof. intros. unfold size. cbn [concat]. apply app_length. Qed.
Lemma concat_length : forall s z, same_shape s z -> length (concat z) = size s.
Proof.
  intros s z H. induction H; [reflexivity|]. rewrite size_cons. cbn [concat]. rewrite app_length. rewrite IHForall2. lia.
Qed.
Lemma cut_shape : forall s l, length l = size s -> same_shape s (cut s l).
Proof.
  induction s as [|v s IH]; intros l H; [constructor|]. rewrite size_cons in H. cbn [cut]. constructor.
  - rewrite firstn_length. lia.
  - apply IH. rewrite skipn_length. lia.
Qed.
Lemma cut_concat : forall s z, same_shape s z -> cut s (concat z) = z.
Proof.
  intros s z H. induction H as [|v w s z E H IH]; [reflexivity|]. cbn [concat cut].
  rewrite firstn_app_l, skipn_app_l by auto. rewrite IH. reflexivity.
Qed.
Lemma concat_cut : forall s l, length l = size s -> concat (cut s l) = l.
Proof.
  induction s as [|v s IH]; intros l H; cbn [cut concat].
  - destruct l; [reflexivity|discriminate].
  - rewrite size_cons in H. rewrite IH by (rewrite skipn_length; lia). apply firstn_skipn.
Qed.

Definition flat (b : list (list tensor)) : list R := concat (map (@concat R) b).
Lemma flat_cons : forall z b, flat (z :: b) = concat z ++ flat b.
Proof. reflexivity. Qed.
Lemma flat_app : forall a b, flat (a ++ b) = flat a ++ flat b.
Proof. intros. unfold flat. rewrite map_app, concat_app. reflexivity. Qed.
Definition wf (s : list tensor) (k : nat) (b : list (list tensor)) : Prop := Forall (same_shape s) b /\ length b = k.
Lemma flat_length : forall s k b, wf s k b -> length (flat b) = (k * size s)%nat.
Proof.
  intros s k b [H <-]. induction H as [|z b Hz H IH]; [reflexivity|]. rewrite flat_cons, app_length, IH, (concat_length s z Hz). cbn. lia.
Qed.
Lemma blocks_wf : forall s k l, length l = (k * size s)%nat -> wf s k (blocks s k l).
Proof.
  intros s k. induction k as [|k IH]; intros l H; [split; [constructor|reflexivity]|]. cbn [blocks]. cbn in H.
  destruct (IH (skipn (size s) l)) as [A B]; [rewrite skipn_length; lia|]. split.
  - constructor; auto. apply cut_shape. rewrite firstn_length. lia.
  - cbn. auto.
Qed.
Lemma flat_blocks : forall s k l, length l = (k * size s)%nat -> flat (blocks s k l) = l.
Proof.
  intros s k. induction k as [|k IH]; intros l H; cbn in H.
  - destruct l; [reflexivity|discriminate].
  - cbn [blocks]. rewrite flat_cons, concat_cut, IH by (rewrite ?firstn_length, ?skipn_length; lia). apply firstn_skipn.
Qed.
Lemma blocks_flat : forall s k b, wf s k b -> blocks s k (flat b) = b.
Proof.
  intros s k b [H <-]. induction H as [|z b Hz H IH]; [reflexivity|]. cbn [length blocks]. rewrite flat_cons.
  rewrite firstn_app_l, skipn_app_l by (apply concat_length; auto). rewrite IH, cut_concat by auto. reflexivity.
Qed.

Lemma concat_translate : forall a b, same_shape a b -> concat (translate a b) = plusl (concat a) (concat b).
Proof.
  assert (P : forall x y u v : list R, length x = length u -> plusl (x ++ y) (u ++ v) = plusl x u ++ plusl y v).
  { induction x as [|c x IH]; intros y [|d u] v H; try discriminate; [reflexivity|]. cbn. f_equal. apply IH. cbn in H. lia. }
  intros a b H. induction H; [reflexivity|]. cbn [concat]. rewrite P by auto. rewrite <- IHForall2. reflexivity.
Qed.
Lemma plusl_app : forall x y u v : list R, length x = length u -> plusl (x ++ y) (u ++ v) = plusl x u ++ plusl y v.
Proof. induction x as [|c x IH]; intros y [|d u] v H; try discriminate; [reflexivity|]. cbn. f_equal. apply IH. cbn in H. lia. Qed.
Lemma plusl_zero : forall x, plusl x (repeat 0 (length x)) = x.
Proof. induction x as [|a x IH]; [reflexivity|]. cbn. f_equal; [lra|exact IH]. Qed.
Lemma concat_flip : forall r, concat (flip r) = map Ropp (concat r).
Proof. intros. unfold flip. symmetry. apply concat_map. Qed.
Lemma concat_scal : forall c r, concat (map (vscal c) r) = map (Rmult c) (concat r).
Proof. intros. unfold vscal. symmetry. apply concat_map. Qed.

Section Maps.
Variable s0 : list tensor.
Variable K : nat.
Notation s := (size s0).
Notation N := (S K * size s0)%nat.

(** A map of blocks as a map of lists of numbers. *)
Definition flatly (g : list (list tensor) -> list (list tensor)) (x : list R) : list R := flat (g (blocks s0 (S K) x)).
Definition fine (g : list (list tensor) -> list (list tensor)) : Prop :=
  (forall b, wf s0 (S K) b -> wf s0 (S K) (g b)) /\ good N (flatly g).
Lemma fine_ext : forall f g, (forall b, wf s0 (S K) b -> f b = g b) -> fine f -> fine g.
Proof.
  intros f g E [H1 H2]. split; [intros b Hb; rewrite <- E; auto|].
  apply (good_ext N (flatly f)); auto. intros x Hx. unfold flatly. rewrite E; auto. apply blocks_wf; auto.
Qed.
Lemma fine_comp : forall f g, fine f -> fine g -> fine (fun b => g (f b)).
Proof.
  intros f g [F1 F2] [G1 G2]. split; [auto|]. apply (good_ext N (fun x => flatly g (flatly f x))).
  - intros x Hx. unfold flatly. rewrite blocks_flat; auto. apply F1, blocks_wf; auto.
  - apply (good_comp N (flatly f) (flatly g)); auto.
Qed.
Lemma fine_id : fine (fun b => b).
Proof.
  split; auto. apply (good_ext N (fun x => x)); [|apply good_id]. intros x Hx. unfold flatly. rewrite flat_blocks; auto.
Qed.
Lemma fine_iter : forall f k, fine f -> fine (fun b => Nat.iter k f b).
Proof. intros f k H. induction k as [|k IH]; [apply fine_id|]. apply (fine_comp (fun b => Nat.iter k f b) f); auto. Qed.
Lemma fine_of : forall f g, (forall b, wf s0 (S K) b -> wf s0 (S K) (f b)) -> good N g ->
  (forall b, wf s0 (S K) b -> flat (f b) = g (flat b)) -> fine f.
Proof.
  intros f g H G E. split; auto. apply (good_ext N g); auto. intros x Hx. unfold flatly. rewrite E by (apply blocks_wf; auto).
  rewrite flat_blocks; auto.
Qed.

(** A map of the state and the momenta number [j]. *)
Variable j : nat.
Hypothesis Hj : (j < K)%nat.
Definition on (f : list tensor * list tensor -> list tensor * list tensor) (b : list (list tensor)) : list (list tensor) :=
  match b with
  | [] => []
  | z :: rs => let p := f (z, nth j rs []) in fst p :: firstn j rs ++ snd p :: skipn (S j) rs
  end.
Lemma on_at : forall f z rs1 r rs2, length rs1 = j -> on f (z :: rs1 ++ r :: rs2) = fst (f (z, r)) :: rs1 ++ snd (f (z, r)) :: rs2.
Proof.
  intros f z rs1 r rs2 H. unfold on. cbv zeta. rewrite app_nth2 by lia. replace (j - length rs1)%nat with O by lia. cbn [nth].
  rewrite firstn_app, firstn_all2 by lia. replace (j - length rs1)%nat with O by lia. cbn [firstn]. rewrite app_nil_r.
  change (r :: rs2) with ([r] ++ rs2). rewrite app_assoc, skipn_app, skipn_all2 by (rewrite app_length; cbn; lia).
  rewrite app_length. cbn [length]. replace (S j - (length rs1 + 1))%nat with O by lia. reflexivity.
Qed.
Lemma wf_split : forall b, wf s0 (S K) b -> exists z rs1 r rs2, b = z :: rs1 ++ r :: rs2 /\ length rs1 = j /\
  same_shape s0 z /\ same_shape s0 r /\ wf s0 j rs1 /\ wf s0 (K - S j) rs2.
Proof.
  intros b [H L]. destruct b as [|z rs]; [discriminate|]. cbn in L. inversion H as [|? ? Hz Hrs]; subst.
  destruct (nth_split rs [] (n := j)) as [rs1 [rs2 [E E1]]]; [lia|]. exists z, rs1, (nth j rs []), rs2.
  rewrite E in Hrs, L. rewrite app_length in L. cbn in L. apply Forall_app in Hrs. destruct Hrs as [A B]. inversion B; subst.
  rewrite <- E. repeat split; auto; lia.
Qed.
Lemma on_wf : forall f, (forall z r, same_shape s0 z -> same_shape s0 r -> same_shape s0 (fst (f (z, r))) /\ same_shape s0 (snd (f (z, r)))) ->
  forall b, wf s0 (S K) b -> wf s0 (S K) (on f b).
Proof.
  intros f Hf b Hb. destruct (wf_split b Hb) as (z & rs1 & r & rs2 & -> & E & Hz & Hr & [A1 A2] & [B1 B2]). rewrite on_at by auto.
  destruct (Hf z r Hz Hr) as [F1 F2]. split.
  - constructor; auto. apply Forall_app. split; auto.
  - cbn. rewrite app_length. cbn. lia.
Qed.
Lemma on_comp : forall f g, forall b, wf s0 (S K) b -> on g (on f b) = on (fun p => g (f p)) b.
Proof.
  intros f g b Hb. destruct (wf_split b Hb) as (z & rs1 & r & rs2 & -> & E & _). rewrite !on_at by auto.
  destruct (f (z, r)); reflexivity.
Qed.
Lemma on_iter : forall f k b, wf s0 (S K) b -> Nat.iter k (on f) b = on (Nat.iter k f) b.
Proof.
  intros f k b Hb. induction k as [|k IH].
  - destruct (wf_split b Hb) as (z & rs1 & r & rs2 & -> & E & _). rewrite on_at by auto. reflexivity.
  - change (Nat.iter (S k) (on f) b) with (on f (Nat.iter k (on f) b)). rewrite IH, on_comp by auto. reflexivity.
Qed.

(** Addition of a function of the positions to the momenta. *)
Lemma fine_kick : forall h : list tensor -> list tensor, (forall z, same_shape s0 z -> same_shape s0 (h z)) ->
  (forall k, (k < s)%nat -> continuous_tensors s0 (fun z => nth k (concat (h z)) 0)) ->
  fine (on (fun p => (fst p, translate (snd p) (h (fst p))))).
Proof.
  intros h Hh Ch. set (H := fun l => concat (h (cut s0 (firstn s l))) ++ repeat 0 ((K - S j) * s)).
  assert (Hsz : forall z r, same_shape s0 z -> same_shape s0 r -> same_shape s0 (translate r (h z))).
  { intros z r Hz Hr. eapply shape_trans; [apply Hr|]. apply shape_translate. eapply shape_trans; [apply shape_sym, Hr|]. auto. }
  apply (fine_of _ (kick_block (S j * s) H)).
  - apply on_wf. intros z r Hz Hr. cbn [fst snd]. auto.
  - replace N with (S j * s + (s + (K - S j) * s))%nat by nia. apply good_kick.
    assert (LH : forall x, length x = (S j * s)%nat -> length (concat (h (cut s0 (firstn s x)))) = s).
    { intros x Hx. apply concat_length, Hh, cut_shape. rewrite firstn_length. nia. }
    apply cmap_coords.
    + intros x Hx. unfold H. rewrite app_length, repeat_length, LH; auto.
    + intros k Hk. destruct (lt_dec k s) as [Hl|Hl].
      * apply (cn_ext _ (fun x => nth k (concat (h (cut s0 (firstn s x)))) 0)).
        { intros x Hx. unfold H. rewrite app_nth1; auto. rewrite LH; auto. }
        apply (cn_comp (S j * s) s (firstn s) (fun l => nth k (concat (h (cut s0 l))) 0)); [|apply Ch; auto].
        apply cmap_coords; [intros x Hx; rewrite firstn_length; nia|]. intros i Hi.
        apply (cn_ext _ (fun x => nth i x 0)); [|apply cn_coord; nia]. intros x Hx.
        rewrite <- (firstn_skipn s x) at 1. rewrite app_nth1; auto. rewrite firstn_length. nia.
      * apply (cn_ext _ (fun _ => 0)); [|apply cn_const]. intros x Hx. unfold H. rewrite app_nth2 by (rewrite LH; auto; lia).
        symmetry. apply nth_repeat.
  - intros b Hb. destruct (wf_split b Hb) as (z & rs1 & r & rs2 & -> & E & Hz & Hr & A & B). rewrite on_at by auto. cbn [fst snd].
    rewrite !flat_cons, !flat_app, !flat_cons. rewrite !app_assoc. rewrite <- (app_assoc (_ ++ _) (concat r)).
    rewrite kick_app.
    2:{ rewrite app_length, (concat_length s0 z Hz), (flat_length s0 j rs1 A). lia. }
    unfold H. rewrite firstn_app_l by (apply concat_length; auto). rewrite cut_concat by auto.
    rewrite plusl_app by (rewrite (concat_length s0 r Hr), (concat_length s0 (h z) (Hh z Hz)); auto).
    rewrite <- (flat_length s0 _ rs2 B), plusl_zero. rewrite concat_translate.
    + rewrite !app_assoc. reflexivity.
    + eapply shape_trans; [apply shape_sym, Hr|]. auto.
Qed.

(** Addition of a multiple of the momenta to the positions. *)
Lemma fine_drift : forall c, fine (on (fun p => (translate (fst p) (map (vscal c) (snd p)), snd p))).
Proof.
  intros c. set (H := fun l : list R => map (Rmult c) (firstn s (skipn (j * s) l))).
  assert (Hsz : forall z r, same_shape s0 z -> same_shape s0 r -> same_shape s0 (translate z (map (vscal c) r))).
  { intros z r Hz Hr. eapply shape_trans; [apply Hz|]. apply shape_translate. eapply shape_trans; [apply shape_sym, Hz|].
    eapply shape_trans; [apply Hr|apply shape_scal]. }
  apply (fine_of _ (drift_block s H)).
  - apply on_wf. intros z r Hz Hr. cbn [fst snd]. auto.
  - replace N with (s + K * s)%nat by nia. apply good_drift. apply cmap_coords.
    + intros x Hx. unfold H. rewrite map_length, firstn_length, skipn_length. nia.
    + intros k Hk. apply (cn_ext _ (fun x => c * nth (j * s + k) x 0)).
      * intros x Hx. unfold H. rewrite (nth_indep (map (Rmult c) (firstn s (skipn (j * s) x))) 0 (c * 0)) by (rewrite map_length, firstn_length, skipn_length; nia).
        rewrite map_nth. f_equal. rewrite <- (firstn_skipn (j * s) x) at 1.
        rewrite app_nth2 by (rewrite firstn_length; nia). rewrite firstn_length, Nat.min_l by nia.
        replace (j * s + k - j * s)%nat with k by lia. rewrite <- (firstn_skipn s (skipn (j * s) x)) at 1.
        rewrite app_nth1; auto. rewrite firstn_length, skipn_length. nia.
      * apply cn_scal. apply cn_coord. nia.
  - intros b Hb. destruct (wf_split b Hb) as (z & rs1 & r & rs2 & -> & E & Hz & Hr & A & B). rewrite on_at by auto. cbn [fst snd].
    rewrite !flat_cons, !flat_app, !flat_cons. rewrite drift_app by (apply concat_length; auto). f_equal.
    unfold H. rewrite skipn_app_l by (apply flat_length; auto). rewrite firstn_app_l by (apply concat_length; auto).
    rewrite concat_translate.
    + rewrite concat_scal. reflexivity.
    + eapply shape_trans; [apply shape_sym, Hz|]. eapply shape_trans; [apply Hr|apply shape_scal].
Qed.

(** Opposite momenta. *)
Lemma fine_mirror : fine (on (fun p => (fst p, flip (snd p)))).
Proof.
  apply (fine_of _ (fun x => turn ((K - S j) * s) (mirror_block ((K - S j) * s + S j * s) (turn (S j * s + s) x)))).
  - apply on_wf. intros z r Hz Hr. cbn [fst snd]. split; auto. eapply shape_trans; [apply Hr|apply shape_flip].
  - apply (good_comp N (fun x => mirror_block ((K - S j) * s + S j * s) (turn (S j * s + s) x)) (turn ((K - S j) * s))).
    + apply (good_comp N (turn (S j * s + s)) (mirror_block ((K - S j) * s + S j * s))).
      * apply good_turn. nia.
      * replace N with ((K - S j) * s + S j * s + s)%nat by nia. apply good_mirror.
    + apply good_turn. nia.
  - intros b Hb. destruct (wf_split b Hb) as (z & rs1 & r & rs2 & -> & E & Hz & Hr & A & B). rewrite on_at by auto. cbn [fst snd].
    rewrite !flat_cons, !flat_app, !flat_cons.
    pose proof (concat_length s0 z Hz) as L1. pose proof (concat_length s0 r Hr) as L2.
    pose proof (flat_length s0 _ _ A) as L3. pose proof (flat_length s0 _ _ B) as L4.
    replace (concat z ++ flat rs1 ++ concat r ++ flat rs2) with ((concat z ++ flat rs1 ++ concat r) ++ flat rs2) by (rewrite !app_assoc; reflexivity).
    rewrite turn_app by (rewrite !app_length; nia).
    replace (flat rs2 ++ concat z ++ flat rs1 ++ concat r) with ((flat rs2 ++ concat z ++ flat rs1) ++ concat r) by (rewrite !app_assoc; reflexivity).
    rewrite mirror_app by (rewrite !app_length; nia).
    rewrite <- !app_assoc. rewrite turn_app by auto. rewrite concat_flip, <- !app_assoc. reflexivity.
Qed.
End Maps.
