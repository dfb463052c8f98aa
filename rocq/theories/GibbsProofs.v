From Coq Require Import List Arith Bool Reals Lia Lra.
From Verif Require Import Ext Feed FeedProofs MonteCarlo MonteCarloSpec MonteCarloProofs Gibbs GibbsSpec.
From Verif Require Import SGLDProofs.
Import ListNotations.

Section P.
Context {V : Type}.
Notation dict := (list (nat * V)).

Lemma scan_block_get : forall (draw : nat -> dict -> V) b fd k,
  dict_get (scan_block draw fd b) k = if in_dec Nat.eq_dec k b then Some (draw k fd) else dict_get fd k.
Proof.
  intros draw b fd k. unfold scan_block.
  assert (G : forall b acc, dict_get (fold_left (fun acc z => dict_set acc z (draw z fd)) b acc) k =
    if in_dec Nat.eq_dec k b then Some (draw k fd) else dict_get acc k).
  { induction b0 as [|z b0 IH]; intros acc; [reflexivity|]. cbn [fold_left]. rewrite IH, get_set.
    destruct (in_dec Nat.eq_dec k b0) as [H|H]; destruct (in_dec Nat.eq_dec k (z :: b0)) as [H'|H']; auto.
    - exfalso. apply H'. simpl; auto.
    - destruct H' as [->|H']; [|tauto]. rewrite Nat.eqb_refl. auto.
    - destruct (Nat.eqb_spec z k); auto. exfalso. apply H'. simpl; auto. }
  apply G.
Qed.

Lemma scan_sweep : forall blocks (fd : dict), exists states, states 0 = fd /\ sweep blocks states /\
  states (length blocks) = gibbs_scan fd blocks.
Proof.
  unfold gibbs_scan. induction blocks as [|[b draw] bs IH]; intros fd.
  - exists (fun _ => fd). split; auto. split; auto. intros [|i] b draw E; discriminate.
  - destruct (IH (scan_block draw fd b)) as (st & S0 & Sw & Sn).
    exists (fun i => match i with O => fd | S i' => st i' end). split; auto. split; [|exact Sn].
    intros [|i] b' draw' E k; [|apply (Sw i b' draw' E k)]. cbn [nth_error] in E. injection E as <- <-.
    rewrite S0. apply scan_block_get.
Qed.

(** What update [j] stores, over all histories. *)
Lemma gibbs_rows : forall latent dt (us : nat -> gibbs_draws V * bool) tables z0 m,
  length tables = length latent -> row_is tables 0 z0 -> (forall rows, In rows tables -> m <= length rows) ->
  exists s infos, updates (gibbs_kernel latent dt) (initial tables []) us 0 m = Some (s, infos) /\
    exists self rows, self 0 = [] /\ rows 0 = z0 /\ m_extra s = self m /\
      (forall j, j < m -> row_is (m_tables s) j (rows (S j))) /\
      forall j, exists states,
        states 0 = gibbs_start latent dt (self j) (rows j) (fst (us j)) /\
        sweep (gd_blocks (fst (us j))) states /\
        self (S j) = states (length (gd_blocks (fst (us j)))) /\
        rows (S j) = map (fun z => gd_store (fst (us j)) z (self (S j))) latent.
Proof.
  intros latent dt us tables z0 m Hl H0 Hm.
  destruct (driven (gibbs_kernel latent dt) us (length latent) (fun _ z => length z = length latent)
    (fun i x z => gibbs_scan (gibbs_start latent dt x z (fst (us i))) (gd_blocks (fst (us i))))
    (fun i x z => map (fun y => gd_store (fst (us i)) y (gibbs_scan (gibbs_start latent dt x z (fst (us i))) (gd_blocks (fst (us i))))) latent))
    with (tables := tables) (x := @nil (nat * V)) (z0 := z0) (m := m)
    as (s & infos & E & _ & _ & _ & stx & st & Sx0 & S0 & Sn & SP & Sr & Se); auto.
  - intros i x z Hz. split; [reflexivity|]. apply map_length.
  - destruct H0. congruence.
  - exists s, infos. split; auto. exists stx, st. repeat (split; auto).
    intros j. destruct (Sn j) as [A B].
    destruct (scan_sweep (gd_blocks (fst (us j))) (gibbs_start latent dt (stx j) (st j) (fst (us j)))) as (states & P0 & Psw & Pn).
    exists states. split; auto. split; auto. split; [congruence|]. rewrite A. exact B.
Qed.

(** The start: the state itself with what the caller passes. *)
Lemma start_get : forall latent dt (self : dict) rows d k, self <> [] ->
  (forall v, ~ In (k, v) (or_new (gd_feed d))) ->
  dict_get (gibbs_start latent dt self rows d) k = dict_get self k.
Proof.
  intros latent dt self rows d k Hs Hf. unfold gibbs_start. destruct self as [|x self]; [congruence|].
  apply get_update_other. auto.
Qed.
End P.

(** ** The law *)
Local Open Scope R_scope.
Definition ex_p (a b : bool) : R := if Bool.eqb a b then 3 / 8 else 1 / 8.

Lemma law_state : forall a b,
  probability ex_p (fun self _ => match self with [(0%nat, x); (1%nat, y)] => Bool.eqb x a && Bool.eqb y b | _ => false end) = ex_p a b.
Proof.
  intros a b. unfold probability, total, cond0, cond1, total, ex_p, outcome.
  destruct a, b; simpl; field.
Qed.

Lemma law_stored : probability ex_p (fun _ stored => match stored with [x; y] => x && y | _ => false end) = 9 / 32.
Proof.
  unfold probability, total, cond0, cond1, total, ex_p, outcome. simpl. field.
Qed.

Lemma gibbs_law_refuted : exists p : bool -> bool -> R,
  (forall a b, 0 < p a b) /\ p true true + p true false + p false true + p false false = 1 /\
  (forall a b, probability p (fun self _ =>
     match self with [(0%nat, x); (1%nat, y)] => Bool.eqb x a && Bool.eqb y b | _ => false end) = p a b) /\
  probability p (fun _ stored => match stored with [x; y] => x && y | _ => false end) <> p true true.
Proof.
  exists ex_p. split; [|split; [|split]].
  - intros [] []; unfold ex_p; simpl; lra.
  - unfold ex_p; simpl; lra.
  - apply law_state.
  - rewrite law_stored. unfold ex_p; simpl; lra.
Qed.
