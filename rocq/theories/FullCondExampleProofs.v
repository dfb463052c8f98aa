(** * Witnesses for C79. *)
From Coq Require Import Reals Lra String List Arith Lia Permutation.
From Verif Require Import Graph GraphSpec GraphProofs CondJoint CondJointSpec CondJointProofs.
From Verif Require Import FullCondSpec FullCondProofs.
Import ListNotations.
Local Open Scope list_scope.
Local Open Scope R_scope.

Definition names (r : nat) : crv :=
  match r with
  | 0%nat => mkcrv "mu/" true | 1%nat => mkcrv "x/" true | 2%nat => mkcrv "y/" true
  | _ => mkcrv "complete_conditional_y/cond_dist/" true
  end.
Definition which (c : crv) : nat :=
  if String.eqb (cname c) "mu/" then 0%nat else if String.eqb (cname c) "x/" then 1%nat
  else if String.eqb (cname c) "y/" then 2%nat else 3%nat.
Definition holds (r : nat) : nat := match r with 0%nat => 10%nat | 1%nat => 11%nat | 2%nat => 13%nat | _ => 14%nat end.
(** x is sampled around 2 mu, y around x, and an earlier conditional of y uses x. *)
Definition chain : graph :=
  mkgraph [mkop [] [10%nat]; mkop [10%nat] [12%nat]; mkop [12%nat] [11%nat]; mkop [11%nat] [13%nat]; mkop [11%nat] [14%nat]] holds (fun v => v).
Definition parameters (r : nat) : list nat :=
  match r with 0%nat => [] | 1%nat => [12%nat] | 2%nat => [11%nat] | _ => [11%nat] end.
Definition depth (t : nat) : nat :=
  match t with 10%nat => 0 | 12%nat => 1 | 11%nat => 2 | 13%nat => 3 | 14%nat => 4 | _ => 0 end%nat.
(** mu given with value=: its tensor is a constant, x likewise, and x's mean is computed from mu. *)
Definition fixed : graph := mkgraph [mkop [] [10%nat]; mkop [10%nat] [12%nat]; mkop [] [11%nat]] holds (fun v => v).

Lemma chain_single : single_producer chain.
Proof.
  intros o1 o2 t H1 H2 A B. cbn in H1, H2.
  repeat (destruct H1 as [<-|H1]; [|]); try contradiction; repeat (destruct H2 as [<-|H2]; [|]); try contradiction; auto; cbn in A, B; exfalso; lia.
Qed.
Lemma fixed_single : single_producer fixed.
Proof.
  intros o1 o2 t H1 H2 A B. cbn in H1, H2.
  repeat (destruct H1 as [<-|H1]; [|]); try contradiction; repeat (destruct H2 as [<-|H2]; [|]); try contradiction; auto; cbn in A, B; exfalso; lia.
Qed.
Lemma holds_distinct : forall g l, value g = holds -> (forall r, In r l -> (r < 4)%nat) -> distinct_values g l.
Proof.
  intros g l E Hl r s Hr Hs. rewrite E. apply Hl in Hr. apply Hl in Hs.
  do 4 (destruct r as [|r]; [do 4 (destruct s as [|s]; [cbn; intros; congruence|]); lia|]). lia.
Qed.
Lemma chain_ranks : no_cycles chain depth.
Proof.
  intros a b [o [Ho [Ha Hb]]]. cbn in Ho.
  repeat (destruct Ho as [<-|Ho]; [cbn in Ha, Hb; repeat (destruct Ha as [<-|Ha]; [|]); repeat (destruct Hb as [<-|Hb]; [|]); try contradiction; cbn; lia|]). contradiction.
Qed.
Lemma fixed_ranks : no_cycles fixed depth.
Proof.
  intros a b [o [Ho [Ha Hb]]]. cbn in Ho.
  repeat (destruct Ho as [<-|Ho]; [cbn in Ha, Hb; repeat (destruct Ha as [<-|Ha]; [|]); repeat (destruct Hb as [<-|Hb]; [|]); try contradiction; cbn; lia|]). contradiction.
Qed.

Ltac is_clear := intros r Hr E; cbn in Hr, E; repeat (destruct Hr as [<-|Hr]; [cbn in E; try discriminate; reflexivity|]); contradiction.

Lemma chain_params : sampled_from_parameters chain [0;1;2;3]%nat parameters.
Proof.
  intros b p Hb Hp. cbn in Hb.
  destruct Hb as [<-|[<-|[<-|[<-|[]]]]]; cbn in Hp.
  - contradiction.
  - destruct Hp as [<-|[]]. eapply up_step with (c := 12%nat); [is_clear| |apply up_refl].
    exists (mkop [12%nat] [11%nat]). cbn. auto 9.
  - destruct Hp as [<-|[]]. eapply up_step with (c := 11%nat); [is_clear| |apply up_refl].
    exists (mkop [11%nat] [13%nat]). cbn. auto 9.
  - destruct Hp as [<-|[]]. eapply up_step with (c := 11%nat); [is_clear| |apply up_refl].
    exists (mkop [11%nat] [14%nat]). cbn. auto 9.
Qed.
Lemma names_which : forall l, (forall r, In r l -> (r < 4)%nat) -> named l names which.
Proof. intros l Hl r Hr. apply Hl in Hr. do 4 (destruct r as [|r]; [reflexivity|]). lia. Qed.

Lemma not_result : forall n b, within "complete_conditional" n = false -> ~ is_result (mkcrv n b).
Proof. intros n b Hw [H _]. cbn in H. apply within_occurs in H. congruence. Qed.
Lemma chain_model : model_of [0;1;2;3]%nat names [0;1;2]%nat.
Proof.
  split; [repeat constructor; cbn; lia|]. intros r. split.
  - intros [<-|[<-|[<-|[]]]]; (split; [cbn; auto 9|apply not_result; vm_compute; reflexivity]).
  - intros [K H]. cbn in K. destruct K as [<-|[<-|[<-|[<-|K]]]]; try contradiction; cbn; auto. exfalso. apply H.
    split; apply within_occurs; vm_compute; reflexivity.
Qed.
Lemma fixed_model : model_of [0;1]%nat names [0;1]%nat.
Proof.
  split; [repeat constructor; cbn; lia|]. intros r. split.
  - intros [<-|[<-|[]]]; (split; [cbn; auto 9|apply not_result; vm_compute; reflexivity]).
  - intros [H _]. exact H.
Qed.

Lemma numbered_names : numbered "mu" /\ numbered "x" /\ numbered "y".
Proof.
  repeat split; try (eexists; eexists; split; [reflexivity|intros [_ C]; vm_compute in C; lia]);
  intros p q E; repeat (destruct p as [|? p]; [discriminate|first [discriminate|injection E as <- E]]).
Qed.
Lemma names_numbered : forall l, (forall c, In c l -> c = names 0 \/ c = names 1 \/ c = names 2) -> numbered_rvs l.
Proof.
  intros l H c Hc. destruct numbered_names as [A [B C]].
  destruct (H c Hc) as [->|[->| ->]]; [exists "mu"%string|exists "x"%string|exists "y"%string]; (split; [reflexivity|assumption]).
Qed.
Lemma names_apart : forall l, (forall c, In c l -> c = names 0 \/ c = names 1 \/ c = names 2) -> named_apart l.
Proof.
  intros l H b b' Hb Hb' E. destruct (H b Hb) as [->|[->| ->]]; destruct (H b' Hb') as [->|[->| ->]]; try reflexivity; discriminate.
Qed.

(** The values: what feeds a tensor that no random variable holds is twice its input. *)
Definition twice (t : nat) (l : list R) : R := match l with v :: _ => 2 * v | [] => 0 end.
Definition normal (r : nat) (v : R) (ps : list R) : R := match ps with p :: _ => - (v - p) * (v - p) | [] => - v * v end.
Definition run_of (m x y c : R) (t : nat) : R :=
  match t with 10%nat => m | 12%nat => 2 * m | 11%nat => x | 13%nat => y | 14%nat => c | _ => 0 end.
Lemma chain_computed : forall m x y c, computed twice chain [0;1;2;3]%nat (run_of m x y c).
Proof.
  intros m x y c t H.
  destruct (Nat.eq_dec t 10) as [->|N1]; [exfalso; apply (H 0%nat); cbn; auto|].
  destruct (Nat.eq_dec t 11) as [->|N2]; [exfalso; apply (H 1%nat); cbn; auto|].
  destruct (Nat.eq_dec t 13) as [->|N3]; [exfalso; apply (H 2%nat); cbn; auto|].
  destruct (Nat.eq_dec t 14) as [->|N4]; [exfalso; apply (H 3%nat); cbn; auto 9|].
  destruct (Nat.eq_dec t 12) as [->|N5]; [reflexivity|].
  do 15 (destruct t as [|t]; [first [contradiction|lia|reflexivity]|]). reflexivity.
Qed.
Lemma fixed_computed : forall m x, computed twice fixed [0;1]%nat (run_of m x 0 0).
Proof.
  intros m x t H.
  destruct (Nat.eq_dec t 10) as [->|N1]; [exfalso; apply (H 0%nat); cbn; auto|].
  destruct (Nat.eq_dec t 11) as [->|N2]; [exfalso; apply (H 1%nat); cbn; auto|].
  destruct (Nat.eq_dec t 12) as [->|N5]; [reflexivity|].
  do 15 (destruct t as [|t]; [first [contradiction|lia|reflexivity]|]). reflexivity.
Qed.

Lemma demo :
  single_producer chain /\ distinct_values chain [0;1;2;3]%nat /\ no_cycles chain depth /\
  sampled_from_parameters chain [0;1;2;3]%nat parameters /\ named [0;1;2;3]%nat names which /\
  model_of [0;1;2;3]%nat names [0;1;2]%nat /\ computed twice chain [0;1;2;3]%nat (run_of 1 2 3 4) /\
  get_blanket chain [0;1;2;3]%nat (fun _ => 0%nat) (enough chain) (NRV 1) = Some [3;2;0]%nat /\
  default_cond (map names [3;2;0]%nat) = [names 2; names 0] /\
  (let l := [names 2; names 1; names 0] in
   Permutation l (names 1 :: [names 2; names 0]) /\ Forall (fun b => conj b = true) l /\
   numbered_rvs (concat [l; [names 0; names 1]]) /\ named_apart (concat [l; [names 0; names 1]]) /\
   snd (get_log_joint (after [[names 0; names 1]]) l) = Some (AddN [LogProb (names 2); LogProb (names 1); LogProb (names 0)])) /\
  (forall v, computed twice chain [0;1;2;3]%nat (run_of 1 v 3 4) /\ same_but chain [0;1;2;3]%nat 1 (run_of 1 2 3 4) (run_of 1 v 3 4)).
Proof.
  split; [exact chain_single|]. split; [apply holds_distinct; [reflexivity|cbn; intros; lia]|].
  split; [exact chain_ranks|]. split; [exact chain_params|]. split; [apply names_which; cbn; intros; lia|].
  split; [exact chain_model|]. split; [apply chain_computed|]. split; [vm_compute; reflexivity|]. split; [reflexivity|].
  split.
  - cbv zeta. assert (H : forall c, In c (concat [[names 2; names 1; names 0]; [names 0; names 1]]) -> c = names 0 \/ c = names 1 \/ c = names 2).
    { cbn. intros c Hc. intuition congruence. }
    split; [|split; [repeat constructor|split; [apply names_numbered; exact H|split; [apply names_apart; exact H|vm_compute; reflexivity]]]].
    apply perm_swap.
  - intros v. split; [apply chain_computed|]. intros r Hr Hn. cbn in Hr. destruct Hr as [<-|[<-|[<-|[<-|[]]]]]; try reflexivity. contradiction.
Qed.

(** With x created by the argument [value], the conditional of mu is its prior. *)
Lemma given_value_refuted : exists (score : nat -> R -> list R -> R) params g h coll pick z rv who model,
  single_producer g /\ distinct_values g coll /\ no_cycles g h /\ named coll rv who /\ model_of coll rv model /\ In z model /\
  exists bl t, get_blanket g coll pick (enough g) (NRV z) = Some bl /\
    Forall (fun b => conj b = true) (rv z :: default_cond (map rv bl)) /\
    numbered_rvs (rv z :: default_cond (map rv bl)) /\ named_apart (rv z :: default_cond (map rv bl)) /\
    snd (get_log_joint [] (rv z :: default_cond (map rv bl))) = Some t /\
    forall c, exists env0 env, computed twice g coll env0 /\ computed twice g coll env /\ same_but g coll z env0 env /\
      ~ (joint_value (fun b => log_density score params g env0 (who b)) t + c = add (map (log_density score params g env0) model) /\
         joint_value (fun b => log_density score params g env (who b)) t + c = add (map (log_density score params g env) model)).
Proof.
  exists normal, parameters, fixed, depth, [0;1]%nat, (fun _ => 0%nat), 0%nat, names, which, [0;1]%nat.
  split; [exact fixed_single|]. split; [apply holds_distinct; [reflexivity|cbn; intros; lia]|]. split; [exact fixed_ranks|].
  split; [apply names_which; cbn; intros; lia|]. split; [exact fixed_model|]. split; [cbn; auto|].
  exists [], (AddN [LogProb (names 0)]). split; [vm_compute; reflexivity|].
  assert (H : forall c, In c (names 0 :: default_cond (map names [])) -> c = names 0 \/ c = names 1 \/ c = names 2) by (cbn; intuition).
  split; [repeat constructor|]. split; [apply names_numbered; exact H|]. split; [apply names_apart; exact H|].
  split; [vm_compute; reflexivity|].
  intros c. exists (run_of 0 0 0 0), (run_of 1 0 0 0). split; [apply fixed_computed|]. split; [apply fixed_computed|].
  split. { intros r [<-|[<-|[]]] Hn; [contradiction|reflexivity]. }
  cbn. lra.
Qed.
