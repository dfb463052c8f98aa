(** * Extraction of expressions, separation of multipliers (proofs). *)
From Coq Require Import List Arith ZArith QArith Qreals Reals Bool Lra Lia.
From Verif Require Import Simplify SimplifySpec SimplifyTermProofs SimplifyProofs.
Import ListNotations.
Local Open Scope R_scope.

Fixpoint tgraph_ind' (P : tgraph -> Prop)
  (H : forall t ty ins, Forall P ins -> P (TG t ty ins)) (g : tgraph) : P g :=
  match g with
  | TG t ty ins => H t ty ins ((fix go l : Forall P l := match l with [] => Forall_nil _
      | a :: l' => Forall_cons a (tgraph_ind' P H a) (go l') end) ins)
  end.

Lemma symbolic_den : forall en base stop x g,
  den en x (symbolic_suff_stat base stop g) = tval en base stop x g.
Proof.
  intros en base stop x. induction g as [t ty ins IH] using tgraph_ind'. simpl.
  destruct (Nat.eqb t base); auto. destruct (existsb (Nat.eqb t) stop); auto.
  rewrite den_node. f_equal. rewrite map_map. induction IH; simpl; auto. congruence.
Qed.

Fixpoint extract_list (l : list expr) : list expr * list item :=
  match l with
  | [] => ([], [])
  | i :: l' =>
    let (ms', ss') := extract_list l' in
    if contains_x i then
      let (ms, ss) := extract_s_stat_multipliers i in (ms ++ ms', ss ++ ss')
    else (i :: ms', ss')
  end.

Lemma extract_mul : forall args,
  extract_s_stat_multipliers (Node (HSym SMul) args) = extract_list args.
Proof. intros args. simpl. induction args as [|a l IH]; auto. Qed.

Definition is_split (en : env) (vals : R -> R) (r : list expr * list item) : Prop :=
  Forall (fun m => contains_x m = false) (fst r) /\
  exists ks, snd r = concat (map items_of ks) /\
    forall x, vals x = rprod (map (den en x) (fst r)) * rprod (map (den en x) ks).

Lemma extract_split : forall en e, is_split en (fun x => den en x e) (extract_s_stat_multipliers e).
Proof.
  intros en. induction e as [h args IH] using expr_ind'.
  assert (Hother : extract_s_stat_multipliers (Node h args) = ([], items_of (Node h args)) ->
    is_split en (fun x => den en x (Node h args)) (extract_s_stat_multipliers (Node h args))).
  { intros ->. split; [constructor|]. exists [Node h args]. split.
    - simpl. now rewrite app_nil_r.
    - intros x. simpl. ring. }
  destruct h as [| | |s|]; auto. destruct s; auto. clear Hother.
  rewrite extract_mul.
  assert (Hl : is_split en (fun x => rprod (map (den en x) args)) (extract_list args)); [|exact Hl].
  induction IH as [|a l Ha Hl IHl].
  - split; [constructor|]. exists []. split; auto. intros x. simpl. ring.
  - simpl. destruct (extract_list l) as [ms' ss']. destruct IHl as [F [ks [E V]]]. simpl in *.
    destruct (contains_x a) eqn:Ex.
    + destruct (extract_s_stat_multipliers a) as [ms ss]. destruct Ha as [F1 [ks1 [E1 V1]]]. simpl in *.
      split; simpl; [apply Forall_app; auto|]. exists (ks1 ++ ks). split.
      * now rewrite E1, E, map_app, concat_app.
      * intros x. rewrite !map_app, !rprod_app.
        change (rprod (map (den en x) (a :: l)) = rprod (map (den en x) ms) * rprod (map (den en x) ms') *
          (rprod (map (den en x) ks1) * rprod (map (den en x) ks))).
        cbn [map]. rewrite rprod_cons, V, V1. ring.
    + split; simpl; [constructor; auto|]. exists ks. split; auto.
      intros x. rewrite V. unfold rprod. simpl. ring.
Qed.

Definition is_head (i : item) : bool := match i with IHead _ => true | IExpr _ => false end.

Lemma concat_items_one : forall ks k, concat (map items_of ks) = items_of k -> ks = [k].
Proof.
  assert (Hn : forall e, items_of e = IHead (match e with Node h _ => h end) ::
      map IExpr (match e with Node _ a => a end)) by (intros []; reflexivity).
  assert (Hc : forall ks, length (filter is_head (concat (map items_of ks))) = length ks).
  { assert (Hz : forall l, filter is_head (map IExpr l) = []) by (induction l; simpl; auto).
    induction ks as [|[h args] ks IH]; auto. simpl. rewrite filter_app, Hz. simpl. now rewrite IH. }
  intros ks k H. pose proof (Hc ks) as L1. pose proof (Hc [k]) as L2.
  simpl in L2. rewrite app_nil_r in L2. rewrite H, L2 in L1.
  destruct ks as [|a [|b ks]]; try discriminate. simpl in H. rewrite app_nil_r in H.
  f_equal. destruct a as [h args], k as [h' args']. simpl in H. inversion H; subst. f_equal.
  clear - H2. revert args' H2. induction args; intros [|b l] H; try discriminate; auto.
  simpl in H. inversion H; subst. f_equal. auto.
Qed.

Lemma extract_exact : forall e ms k,
  extract_s_stat_multipliers e = (ms, items_of k) ->
  Forall (fun m => contains_x m = false) ms /\
  forall en x, den en x e = rprod (map (den en x) ms) * den en x k.
Proof.
  intros e ms k H. split.
  - pose proof (extract_split (mkenv (fun _ _ => 0) (fun _ => 0)) e) as [F _]. rewrite H in F. exact F.
  - intros en x. destruct (extract_split en e) as [_ [ks [E V]]]. rewrite H in E, V. simpl in E.
    symmetry in E. apply concat_items_one in E. subst ks. rewrite V. simpl. rewrite Rmult_1_r. reflexivity.
Qed.

(** ** Rebuilding *)

Fixpoint reconstruct_list (l : list expr) : outcome (list built) :=
  match l with
  | [] => Ret []
  | a :: l' =>
    match reconstruct_expr a with
    | Exc => Exc
    | Ret b => match reconstruct_list l' with Exc => Exc | Ret bs => Ret (b :: bs) end
    end
  end.

Lemma reconstruct_eq : forall h args, reconstruct_expr (Node h args) =
  match h with
  | HNum q => Ret (BNum q)
  | HTens t => Ret (BTens t)
  | HX => Exc
  | _ => match reconstruct_list args with
         | Exc => Exc
         | Ret bs => match h, bs with
                     | HCPow q, b :: _ => Ret (BPow b q)
                     | HSym s, _ => tf_apply s bs
                     | _, _ => Exc
                     end
         end
  end.
Proof.
  intros h args. assert (E : (fix go (l : list expr) : outcome (list built) :=
     match l with
     | [] => Ret []
     | a :: l' => match reconstruct_expr a with
                  | Ret b => match go l' with Ret bs => Ret (b :: bs) | Exc => Exc end
                  | Exc => Exc end
     end) args = reconstruct_list args) by (induction args; simpl; auto).
  destruct h; auto; cbn [reconstruct_expr]; now rewrite E.
Qed.

Section Rebuild.
Variable en : env.
Variable own : nat -> R.
Variable x : R.

Lemma own_args : forall h args, own_values en own x (Node h args) -> Forall (own_values en own x) args.
Proof. intros h args H. apply Forall_forall. intros a Ha t l Hs. apply H. econstructor; eauto. Qed.

Lemma reconstruct_val : forall e, own_values en own x e ->
  forall b, reconstruct_expr e = Ret b -> bval en own b = den en x e.
Proof.
  induction e as [h args IH] using expr_ind'. intros Ho b H. rewrite reconstruct_eq in H.
  assert (Hl : forall bs, reconstruct_list args = Ret bs ->
     map (bval en own) bs = map (den en x) args).
  { pose proof (own_args _ _ Ho) as HF.
    clear Ho H. induction IH as [|a l Ha Hl' IHl]; intros bs H.
    - simpl in H. inversion H; auto.
    - simpl in H. destruct (reconstruct_expr a) as [b1|] eqn:E1; [|discriminate].
      destruct (reconstruct_list l) as [bs1|] eqn:E2; inversion H; subst. inversion HF; subst.
      simpl. f_equal.
      + apply Ha; auto.
      + apply IHl; auto. }
  destruct h as [|q|t|s|q].
  - discriminate.
  - inversion H; subst. reflexivity.
  - inversion H; subst. simpl. rewrite (Ho t args (sub_refl _)). reflexivity.
  - destruct (reconstruct_list args) as [bs|]; [|discriminate]. specialize (Hl _ eq_refl).
    rewrite den_node, <- Hl.
    destruct s; destruct bs as [|b1 [|b2 [|b3 bs]]]; simpl in H; inversion H; subst; reflexivity.
  - destruct (reconstruct_list args) as [[|b1 bs]|]; try discriminate. specialize (Hl _ eq_refl).
    inversion H; subst. rewrite den_node, <- Hl. reflexivity.
Qed.

Lemma reconstruct_multiplier_val : forall ms b,
  Forall (own_values en own x) ms ->
  reconstruct_multiplier ms = Ret b -> bval en own b = rprod (map (den en x) ms).
Proof.
  intros ms b HF H. unfold reconstruct_multiplier in H.
  set (step := fun acc m => match acc with
    | Ret r => match reconstruct_expr m with Ret b0 => Ret (BOp SMul [r; b0]) | Exc => Exc end
    | Exc => Exc end) in H.
  assert (Hexc : forall l, fold_left step l Exc = Exc) by (induction l; simpl; auto).
  assert (Hg : forall l r, Forall (own_values en own x) l -> fold_left step l (Ret r) = Ret b ->
     bval en own b = bval en own r * rprod (map (den en x) l)).
  { induction l as [|m l IH]; intros r Hl Hf.
    - simpl in *. inversion Hf; subst. ring.
    - simpl in Hf. destruct (reconstruct_expr m) as [b1|] eqn:E; [|rewrite Hexc in Hf; discriminate].
      inversion Hl; subst. rewrite (IH _ H3 Hf). simpl. rewrite Rmult_1_r.
      rewrite (reconstruct_val m H2) with (b := b1); auto. ring. }
  rewrite (Hg ms (BNum 1) HF H). simpl. rewrite RMicromega.Q2R_1. ring.
Qed.
End Rebuild.
