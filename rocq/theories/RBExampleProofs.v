(** * A model that meets the hypotheses of C66. *)
From Coquelicot Require Import Coquelicot.
From Coq Require Import Reals List Arith Bool Lia Lra Permutation.
From Verif Require Import Graph GraphSpec GraphProofs Feed Transform VI VISpec VIProofs VIGradProofs VIRefuteProofs RBSpec RBProofs.
Import ListNotations.
Local Open Scope R_scope.

(** Variables 50 and 51 are tensors 5 and 6.  The approximation 10 (tensor 11) is
    computed from 50, and 11 (tensor 12) from 51 and from the draw of 10.  The
    latent variables 0 and 1 (tensors 21 and 22) have the observed 2 and 3
    (tensors 23 and 24) as children. *)
Definition rb_graph : graph := {|
  ops := [{| op_in := []; op_out := [5] |}; {| op_in := []; op_out := [6] |};
          {| op_in := [5]; op_out := [11] |}; {| op_in := [6; 11]; op_out := [12] |};
          {| op_in := []; op_out := [21] |}; {| op_in := []; op_out := [22] |};
          {| op_in := [21]; op_out := [23] |}; {| op_in := [22]; op_out := [24] |}];
  value := fun r => match r with 10 => 11 | 11 => 12 | 0 => 21 | 1 => 22 | 2 => 23 | 3 => 24 | _ => 0 end;
  vref := fun v => v |}%nat.
Definition rb_tensor (v : nat) : nat := (v - 45)%nat.
Definition rb_latent : list (nat * nat) := [(0, 10); (1, 11)]%nat.
Definition rb_obs : list (nat * bool) := [(2%nat, true); (3%nat, false)].
Definition rb_first (n : nat) : nat := 0%nat.

(** The chance that 11 agrees with 10 is variable 51; that 2 agrees with 0, and 3
    with 1, is 3/4. *)
Definition agree_q (t : params) (q : nat) (e : nat -> bool) (u : bool) : list R :=
  match q with 10%nat => [ln (coin (t 50%nat) u)] | _ => [ln (coin (t 51%nat) (Bool.eqb u (e 10%nat)))] end.
Definition rb_agree (env : list (nat * bool)) (k : nat) (u : bool) : list R :=
  [ln (coin (3 / 4) match Feed.dict_get env k with Some w => Bool.eqb u w | None => u end)].
Definition agree_p (t : params) (k : nat) (env : list (nat * bool)) (u : bool) : list R :=
  match k with 2%nat => rb_agree env 0 u | 3%nat => rb_agree env 1 u | _ => [ln (1 / 2)] end.

Lemma rb_producer : single_producer rb_graph.
Proof.
  intros o1 o2 t H1 H2. simpl in H1, H2.
  repeat (destruct H1 as [<-|H1]; [repeat (destruct H2 as [<-|H2]; [simpl; intros A B; first [reflexivity|exfalso; lia]|]); destruct H2|]).
  destruct H1.
Qed.
Lemma rb_distinct_p : distinct_values rb_graph (map fst rb_latent ++ map fst rb_obs).
Proof. intros r s Hr Hs. simpl in Hr, Hs. intuition (subst; simpl in *; congruence). Qed.
Lemma rb_distinct_q : distinct_values rb_graph (map snd rb_latent).
Proof. intros r s Hr Hs. simpl in Hr, Hs. intuition (subst; simpl in *; congruence). Qed.

(** Relations of the graph, by computation. *)
Lemma parents_compute : forall coll n res, distinct_values rb_graph coll ->
  get_parents rb_graph coll rb_first (enough rb_graph) (NRV n) = Some res -> forall j, parent_rel rb_graph coll j n <-> In j res.
Proof.
  intros coll n res Hd H j. destruct (get_parents_correct _ _ _ _ _ _ rb_producer Hd H) as [_ E]. rewrite E. unfold parent_rel.
  split; intros (A & B & C); repeat split; auto; congruence.
Qed.
Lemma rb_q10 : forall j, ~ parent_rel rb_graph (map snd rb_latent) j 10.
Proof. intros j H. eapply (parents_compute _ 10 []) in H; [destruct H|apply rb_distinct_q|vm_compute; reflexivity]. Qed.
Lemma rb_q11 : forall j, parent_rel rb_graph (map snd rb_latent) j 11 <-> In j [10%nat].
Proof. apply parents_compute; [apply rb_distinct_q|vm_compute; reflexivity]. Qed.
Lemma rb_x2 : forall j, parent_rel rb_graph (map fst rb_latent ++ map fst rb_obs) j 2 <-> In j [0%nat].
Proof. apply parents_compute; [apply rb_distinct_p|vm_compute; reflexivity]. Qed.
Lemma rb_x3 : forall j, parent_rel rb_graph (map fst rb_latent ++ map fst rb_obs) j 3 <-> In j [1%nat].
Proof. apply parents_compute; [apply rb_distinct_p|vm_compute; reflexivity]. Qed.

Lemma rb_reach : forall q, In q (map snd rb_latent) -> down rb_graph anything (rb_tensor 51) (value rb_graph q) <-> q = 11%nat.
Proof.
  intros q Hq.
  assert (H : get_descendants rb_graph (map snd rb_latent) rb_first (enough rb_graph) (NT (rb_tensor 51)) = Some [11%nat]) by (vm_compute; reflexivity).
  destruct (get_descendants_correct _ _ _ _ _ _ rb_distinct_q H) as [_ E]. specialize (E q). simpl tensor_of in E. split.
  - intros D. destruct E as [_ E]. destruct E as [E|[]]; auto. repeat split; auto. discriminate.
  - intros ->. apply E. simpl; auto.
Qed.

Lemma rb_first_order : parents_first rb_graph (map snd rb_latent) [10; 11]%nat.
Proof.
  intros l1 q l2 E j Hj.
  destruct l1 as [|a l1].
  - injection E as <- _. exfalso. eapply rb_q10; eauto.
  - injection E as <- E. destruct l1 as [|b l1].
    + injection E as <- _. apply rb_q11 in Hj. destruct Hj as [<-|[]]. simpl; auto.
    + destruct l1; discriminate.
Qed.
Lemma rb_model : model_follows rb_graph (map fst rb_latent ++ map fst rb_obs) agree_p.
Proof.
  intros t k env env' u Hk H. simpl in Hk. destruct Hk as [<-|[<-|[<-|[<-|[]]]]]; auto; unfold agree_p, rb_agree.
  - rewrite (H 0%nat); auto. apply rb_x2. simpl; auto.
  - rewrite (H 1%nat); auto. apply rb_x3. simpl; auto.
Qed.
Lemma rb_approx : approximation_follows rb_graph (map snd rb_latent) agree_q.
Proof.
  intros t q e e' u Hq H. simpl in Hq. destruct Hq as [<-|[<-|[]]]; auto. unfold agree_q.
  rewrite (H 10%nat); auto. apply rb_q11. simpl; auto.
Qed.
Lemma rb_acts : acts_along_graph rb_graph rb_tensor (map snd rb_latent) agree_q half 51.
Proof.
  intros q Hq Hn x e u. simpl in Hq. destruct Hq as [<-|[<-|[]]]; auto. exfalso. apply Hn. apply rb_reach; simpl; auto.
Qed.
Lemma rb_normal : forall q e, In q (map snd rb_latent) ->
  nearby (fun t => sumR (map (fun u => exp (sumR (agree_q t q e u))) [true; false]) = 1) half 51.
Proof.
  intros q e Hq. assert (P : 0 < 1 / 4) by lra. exists (mkposreal _ P). intros x Hx.
  unfold ball in Hx; simpl in Hx; unfold AbsRing_ball, abs, minus, plus, opp in Hx; simpl in Hx. apply Rabs_lt_between in Hx. unfold half in Hx.
  simpl in Hq. destruct Hq as [<-|[<-|[]]]; unfold agree_q, coin, set_param, half; simpl.
  - rewrite !Rplus_0_r, !exp_ln by lra. lra.
  - destruct (e 10%nat); simpl; rewrite !Rplus_0_r, !exp_ln by lra; lra.
Qed.
Lemma rb_smooth : forall q e u, In q (map snd rb_latent) -> differentiable (fun t => sumR (agree_q t q e u)) half 51.
Proof.
  intros q e u Hq. unfold differentiable. simpl in Hq. destruct Hq as [<-|[<-|[]]]; unfold agree_q, coin, set_param, half; simpl.
  - apply (ex_derive_const (K := R_AbsRing) (V := R_NormedModule)).
  - destruct (Bool.eqb u (e 10%nat)); auto_derive; lra.
Qed.
