(** * Proofs for C72: the tags of summaries. *)
From Coq Require Import String List Ascii Arith Bool.
From Verif Require Import ResetOps.
From Verif Require Import Graph LogVars.
From Verif Require Import LogTagsSpec.
Import ListNotations.
Local Open Scope string_scope.

Lemma slashes_slashed : forall n, slashed n (slashes n).
Proof.
  induction n as [|c n IH]; cbn [slashes]; [constructor|].
  destruct (Ascii.eqb_spec c ":"%char) as [->|N]; constructor; auto.
Qed.
Lemma append_assoc' : forall a b c : string, (a ++ b) ++ c = a ++ (b ++ c).
Proof. induction a as [|x a IH]; intros b c; cbn; [|rewrite IH]; reflexivity. Qed.
Lemma append_nil : forall a : string, a ++ "" = a.
Proof. induction a as [|x a IH]; cbn; [|rewrite IH]; reflexivity. Qed.
Lemma search_form : forall fuel u base i, exists j, search fuel u base i = base ++ "_" ++ str j.
Proof.
  induction fuel as [|f IH]; intros u base i; cbn [search]; [exists i; reflexivity|].
  destruct (in_use u (base ++ "_" ++ str i)); [apply IH|exists i; reflexivity].
Qed.
Lemma unique_form : forall u n u' m, unique_name u n = (u', m) -> m = n \/ exists j, m = n ++ "_" ++ str j.
Proof.
  intros u n u' m E. unfold unique_name in E. destruct (count u n) as [|c].
  - injection E as _ <-. auto.
  - injection E as _ <-. right. apply search_form.
Qed.
Lemma unique_tagged : forall u stack n u' m, unique_name u (scoped stack n) = (u', m) -> tagged stack n m.
Proof.
  intros u stack n u' m E. unfold tagged, scoped in *. destruct (String.eqb_spec stack "") as [->|N].
  - destruct (unique_form _ _ _ _ E) as [->|[j ->]].
    + exists "", "". rewrite append_nil. auto.
    + exists "", ("_" ++ str j). split; [reflexivity|]. split; [auto|right; exists j; reflexivity].
  - destruct (unique_form _ _ _ _ E) as [->|[j ->]]; exists (stack ++ "/").
    + exists "". rewrite append_nil, append_assoc'. split; [reflexivity|]. auto.
    + exists ("_" ++ str j). rewrite !append_assoc'. split; [reflexivity|]. split; [auto|right; exists j; reflexivity].
Qed.

Section Log.
Variable g : graph.
Variable globals : list nat.
Variables (pick : nat -> nat) (fuel : nat).
Variable vname : nat -> string.
Variable vshape : nat -> option (list (option nat)).

(** Every summary of an inference has its tag. *)
Definition tags (scopes : list string) (s : gstate) : Prop :=
  forall key m, In (key, m) (colls s) -> s_owner m <> None ->
  exists stack n, In stack scopes /\ titled vname (s_what m) n /\ tagged stack n (s_tag m).

Lemma tags_add : forall scopes s stack name cs o w, tags scopes s -> (o <> None -> In stack scopes /\ titled vname w name) ->
  tags scopes (add_summary s stack name cs o w).
Proof.
  intros scopes s stack name cs o w T H key m Hin Ho. unfold add_summary in Hin.
  destruct (unique_name (used s) (scoped stack name)) as [u tag] eqn:Eu. cbn in Hin.
  apply in_app_or in Hin. destruct Hin as [Hin|Hin]; [exact (T key m Hin Ho)|].
  apply in_map_iff in Hin. destruct Hin as [c [E _]]. injection E as _ <-. cbn in *.
  destruct (H Ho) as [H1 H2]. exists stack, name. split; [exact H1|]. split; [exact H2|]. exact (unique_tagged _ _ _ _ _ Eu).
Qed.
Lemma tags_variable : forall scopes s stack key o v s', tags scopes s -> In stack scopes ->
  log_variable vname vshape s stack key o v = Some s' -> tags scopes s'.
Proof.
  intros scopes s stack key o v s' T Hs E. unfold log_variable in E. cbv zeta in E.
  destruct (vshape v) as [[|[[|[|n]]|] [|a l]]|]; try discriminate; injection E as <-;
    (apply tags_add; [exact T|]; intros _; split; [exact Hs|]; constructor; apply slashes_slashed).
Qed.
Lemma tags_variables : forall vs scopes s stack key o s' b, tags scopes s -> In stack scopes ->
  log_variables vname vshape s stack key o vs = (s', b) -> tags scopes s'.
Proof.
  induction vs as [|v vs IH]; intros scopes s stack key o s' b T Hs E; cbn [log_variables] in E.
  - injection E as <- _. exact T.
  - destruct (log_variable vname vshape s stack key o v) as [s1|] eqn:E1.
    + eapply IH; [|exact Hs|exact E]. eapply tags_variable; eassumption.
    + injection E as <- _. exact T.
Qed.
Lemma tags_parts : forall ps scopes s stack key o, tags scopes s -> In stack scopes -> tags scopes (log_parts s stack key o ps).
Proof.
  induction ps as [|p ps IH]; intros scopes s stack key o T Hs; [exact T|].
  unfold log_parts in *. cbn [fold_left]. apply IH; [|exact Hs]. apply tags_add; [exact T|]. intros _. split; [exact Hs|constructor].
Qed.
Lemma tags_gradients : forall gs scopes s stack key o s' b, tags scopes s -> In stack scopes ->
  log_gradients vname s stack key o gs = (s', b) -> tags scopes s'.
Proof.
  induction gs as [|[v [|]] gs IH]; intros scopes s stack key o s' b T Hs E; cbn [log_gradients] in E.
  - injection E as <- _. exact T.
  - eapply IH; [|exact Hs|exact E]. apply tags_add; [apply tags_add; [exact T|]|];
      (intros _; split; [exact Hs|]; constructor; apply slashes_slashed).
  - injection E as <- _. exact T.
Qed.
Lemma tags_initialize : forall scopes s stack o i s' r, tags scopes s -> In stack scopes ->
  initialize g globals pick fuel vname vshape s stack o i = (s', r) -> tags scopes s'.
Proof.
  intros scopes s stack o i s' r T Hs E. unfold initialize in E. destruct (i_log i) as [lv|]; [|injection E as <- _; exact T].
  destruct (unique_name (used s) (scoped stack "summaries")) as [u key]. cbv zeta in E.
  destruct (to_log g globals pick fuel i lv) as [vs|]; [|injection E as <- _; exact T].
  destruct (log_variables vname vshape (mkgstate u (colls s)) stack key o vs) as [s1 b1] eqn:E1.
  assert (T1 : tags scopes s1) by (eapply tags_variables; [|exact Hs|exact E1]; exact T).
  destruct b1; [|injection E as <- _; exact T1].
  destruct (log_gradients vname (log_parts s1 stack key o (i_parts i)) stack key o (i_grads i)) as [s2 b2] eqn:E2.
  assert (T2 : tags scopes s2) by (eapply tags_gradients; [|exact Hs|exact E2]; apply tags_parts; assumption).
  destruct b2; injection E as <- _; exact T2.
Qed.

Definition scopes_of (h : list event) : list string := flat_map (fun e => match e with EInit stack _ => [stack] | _ => [] end) h.
Lemma tags_more : forall a b s, tags a s -> incl a b -> tags b s.
Proof. intros a b s T H key m Hin Ho. destruct (T key m Hin Ho) as (st & n & A & B). exists st, n. auto. Qed.
Lemma tags_program : forall l h s outs s' outs', tags (scopes_of h) s ->
  program g globals pick fuel vname vshape s outs l = (s', outs') -> tags (scopes_of (h ++ l)) s'.
Proof.
  induction l as [|e l IH]; intros h s outs s' outs' T E.
  - cbn in E. injection E as <- _. rewrite app_nil_r. exact T.
  - replace (h ++ e :: l)%list with ((h ++ [e]) ++ l)%list by (rewrite <- app_assoc; reflexivity).
    assert (T' : tags (scopes_of (h ++ [e])) s).
    { eapply tags_more; [exact T|]. unfold scopes_of. rewrite flat_map_app. apply incl_appl, incl_refl. }
    destruct e as [stack n|stack n cs k|stack i]; cbn [program] in E.
    + eapply IH; [|exact E]. exact T'.
    + eapply IH; [|exact E]. apply tags_add; [exact T'|]. intros H. congruence.
    + destruct (initialize g globals pick fuel vname vshape s stack (length outs) i) as [s1 r] eqn:Ei.
      eapply IH; [|exact E]. eapply tags_initialize; [exact T'| |exact Ei].
      unfold scopes_of. rewrite flat_map_app. apply in_or_app. right. left. reflexivity.
Qed.

Lemma tags_exact : forall h s outs, program g globals pick fuel vname vshape new_graph [] h = (s, outs) ->
  forall key m, In (key, m) (colls s) -> s_owner m <> None ->
  exists stack i n, In (EInit stack i) h /\ titled vname (s_what m) n /\ tagged stack n (s_tag m).
Proof.
  intros h s outs E key m Hin Ho.
  assert (T : tags (scopes_of ([] ++ h)) s) by (eapply tags_program; [|exact E]; intros ? ? []).
  destruct (T key m Hin Ho) as (stack & n & Hs & A & B). unfold scopes_of in Hs. apply in_flat_map in Hs.
  destruct Hs as (e & He & Hs). destruct e as [| |st i]; cbn in Hs; try contradiction. destruct Hs as [<-|[]].
  exists st, i, n. auto.
Qed.
End Log.
