(** * Properties C09-C12: copy. *)
From Coq Require Import String List Arith Bool Lia.
From Verif Require Import Copy CopySpec CopyProofs CopySubstProofs CopyStateProofs CopyFinalProofs CopyFlagProofs
  CopyNameProofs CopyQSpec CopyQProofs.
Import ListNotations.
Local Open Scope string_scope.

(** ** C09: after any history of calls, with any arguments and also when they
    raise, everything that existed before is unchanged *)

Theorem C09_copy_only_adds : forall cs g, extends g (fold_left run_call cs g).
Proof. exact history_frame. Qed.
Print Assumptions C09_copy_only_adds.

Theorem C09_copy_keeps_values : forall cs g, wf g ->
  forall V N (sem : nat -> N -> list V -> V) st noise t v, t < length (ops g) ->
  (ev sem st noise (fold_left run_call cs g) t v <-> ev sem st noise g t v).
Proof. exact history_values. Qed.
Print Assumptions C09_copy_keeps_values.

(** A history that swaps, reuses a scope and raises (the scope is empty). *)
Example C09_history :
  let cs := [mkcall 20 first_pick [(XRV 0, XRV 2)] "copied" false false true (XRV 1);
             mkcall 20 first_pick [(XRV 0, XT 7)] "copied" true true false (XT 4);
             mkcall 20 first_pick [] "" false false true (XT 4)] in
  wf demo /\ length (ops (fold_left run_call cs demo)) = 10 /\ length (rvs (fold_left run_call cs demo)) = 4.
Proof. split; [exact demo_wf|]. split; vm_compute; reflexivity. Qed.

(** The operations and random variables a call adds are named below its scope,
    whatever its flags, and an empty scope is refused. *)
Theorem C09_names : forall c g s, slashed (c_scope c) s -> named_in s g (run_call g c).
Proof. exact call_named. Qed.
Print Assumptions C09_names.

Theorem C09_scope_required : forall fuel pick sw replace_itself copy_q copy_parent_rvs g x,
  ed_copy_at fuel pick sw "" replace_itself copy_q copy_parent_rvs g x = (g, Exc).
Proof. exact call_empty. Qed.
Print Assumptions C09_scope_required.

Example C09_names_demo :
  let c := mkcall 20 first_pick [(XRV 0, XRV 2)] "copied" false false true (XRV 1) in
  slashed (c_scope c) "copied/" /\ slashed "copied/" "copied/" /\ length (rvs (run_call demo c)) = 4 /\
  map rname (skipn 3 (rvs (run_call demo c))) = map (append "copied/") (map rname (firstn 1 (skipn 1 (rvs demo)))).
Proof.
  split; [apply with_slash_spec; reflexivity|]. split; [apply with_slash_spec; reflexivity|].
  split; vm_compute; reflexivity.
Qed.

(** ** C10: copy returns the substituted expression.  [rho] is the place of
    the copied operations, so the randomness is fresh.

    Missing from the full statement: a tensor that holds a random variable or a
    variable as a key of [dict_swap] ([direct_keys] in [good_call]); for these
    it is false, see below. *)

Theorem C10_copy_substitutes_partial : forall g h pick sw scope s x,
  wf g -> acyclic g h -> good_call g sw scope s x ->
  exists N g' y rho,
    (forall fuel, N <= fuel -> ed_copy fuel pick sw scope false true g x = (g', Ok y)) /\
    (forall o, length (ops g) <= rho o) /\
    (forall a b, a < length (ops g) -> b < length (ops g) -> rho a = rho b -> a = b) /\
    forall V N' (sem : nat -> N' -> list V -> V) st noise,
      (exists v, ev sem st noise g' (tensor_of g' y) v) /\
      forall v, ev sem st noise g' (tensor_of g' y) v <->
                sev_node sem st noise (fun o => noise (rho o)) g sw (tensor_of g x) v.
Proof. exact copy_substitutes. Qed.
Print Assumptions C10_copy_substitutes_partial.

Theorem C10_tensor_key_refuted : exists g h pick sw scope s x N g' y,
  wf g /\ acyclic g h /\ swap_ok g sw /\ with_slash scope = Some s /\ fresh_scope g s /\ valid g x /\ plain g x /\
  (forall fuel, N <= fuel -> ed_copy fuel pick sw scope false true g x = (g', Ok y)) /\
  exists (sem : nat -> unit -> list string -> string) st noise v, ev sem st noise g' (tensor_of g' y) v /\
    forall noise', ~ sev_node sem st noise noise' g sw (tensor_of g x) v.
Proof. exact tensor_key_refuted. Qed.
Print Assumptions C10_tensor_key_refuted.

(** y ~ D11(z, z * p) with z swapped for the random variable q: the hypotheses
    hold, and the copy is D11(q, q * p). *)
Example C10_demo : wf demo /\ acyclic demo (fun o => o) /\
  good_call demo [(XRV 0, XRV 2)] "copied" "copied/" (XRV 1) /\
  ed_copy 20 first_pick [(XRV 0, XRV 2)] "copied" false true demo (XRV 1) =
    (mkgraph (ops demo ++ [mkop "copied/mul" (KOp 1) [6; 2]; mkop "copied/y/sample" (KOp 11) [6; 8]])
             (rvs demo ++ [mkrv "copied/y/" 11 [XRV 2; XT 8] 9]), Ok (XRV 3)).
Proof.
  split; [exact demo_wf|]. split; [exact demo_acyclic|]. split; [apply demo_good; auto|]. vm_compute. reflexivity.
Qed.

(** With [replace_itself] the instance itself may be swapped. *)
Theorem C10_replace_itself_partial : forall g h pick sw scope s x,
  wf g -> acyclic g h -> good_call g sw scope s x -> is_op x = false ->
  exists N g' y rho,
    (forall fuel, N <= fuel -> ed_copy_at fuel pick sw scope true false true g x = (g', Ok y)) /\
    (forall o, length (ops g) <= rho o) /\
    (forall a b, a < length (ops g) -> b < length (ops g) -> rho a = rho b -> a = b) /\
    forall V N' (sem : nat -> N' -> list V -> V) st noise,
      (exists v, ev sem st noise g' (tensor_of g' y) v) /\
      forall v, ev sem st noise g' (tensor_of g' y) v <->
                sev_tensor sem st noise (fun o => noise (rho o)) g sw (tensor_of g x) v.
Proof. exact copy_itself. Qed.
Print Assumptions C10_replace_itself_partial.

(** z itself is swapped for q. *)
Example C10_replace_itself_demo : good_call demo [(XRV 0, XRV 2)] "copied" "copied/" (XT 4) /\
  ed_copy_at 20 first_pick [(XRV 0, XRV 2)] "copied" true false true demo (XRV 0) = (demo, Ok (XRV 2)).
Proof. split; [apply demo_good; auto|]. vm_compute. reflexivity. Qed.

(** With [copy_parent_rvs=False], for all but random variables; for these z may
    be sampled twice, see below.  Here any tensor may be a key. *)
Theorem C10_without_parents_partial : forall g h pick sw scope s x,
  wf g -> acyclic g h ->
  swap_ok g sw -> with_slash scope = Some s -> fresh_scope g s -> valid g x -> plain g x -> (forall r, x <> XRV r) ->
  exists N g' y rho,
    (forall fuel, N <= fuel -> ed_copy fuel pick sw scope false false g x = (g', Ok y)) /\
    (forall o, length (ops g) <= rho o) /\
    (forall a b, a < length (ops g) -> b < length (ops g) -> rho a = rho b -> a = b) /\
    forall V N' (sem : nat -> N' -> list V -> V) st noise,
      (exists v, ev sem st noise g' (tensor_of g' y) v) /\
      forall v, ev sem st noise g' (tensor_of g' y) v <->
                sev_node sem st noise (fun o => noise (rho o)) g sw (tensor_of g x) v.
Proof. exact copy_without_parents. Qed.
Print Assumptions C10_without_parents_partial.

(** The product z * p with the sample of z swapped for a constant. *)
Example C10_without_parents_demo :
  swap_ok demo [(XT 3, XT 7)] /\ fresh_scope demo "copied/" /\ valid demo (XT 4) /\ plain demo (XT 4) /\
  ed_copy 20 first_pick [(XT 3, XT 7)] "copied" false false demo (XT 4) =
    (mkgraph (ops demo ++ [mkop "copied/mul" (KOp 1) [7; 2]]) (rvs demo), Ok (XT 8)).
Proof.
  split; [apply demo_swap; auto|]. split; [apply demo_fresh; auto|]. split; [simpl; lia|]. split; [intros o d H; discriminate|].
  vm_compute. reflexivity.
Qed.

Theorem C10_without_parents_refuted : exists g h pick sw scope s x N g' y,
  wf g /\ acyclic g h /\ good_call g sw scope s x /\
  (forall fuel, N <= fuel -> ed_copy fuel pick sw scope false false g x = (g', Ok y)) /\
  exists (sem : nat -> nat -> list nat -> nat) st noise v, ev sem st noise g' (tensor_of g' y) v /\
    forall noise', ~ sev_node sem st noise noise' g sw (tensor_of g x) v.
Proof. exact without_parents_refuted. Qed.
Print Assumptions C10_without_parents_refuted.

(** With [copy_q=True] a value computed from its own key is copied for ever, or
    the copy is an input of itself and has no value. *)
Theorem C10_copy_q_endless_refuted : exists g h pick sw scope s x,
  wf g /\ acyclic g h /\ good_call g sw scope s x /\
  forall fuel, ed_copy fuel pick sw scope true true g x = (g, Fuel).
Proof. exact copy_q_diverges. Qed.
Print Assumptions C10_copy_q_endless_refuted.

Theorem C10_copy_q_cycle_refuted : exists g h pick sw scope s x N g' y,
  wf g /\ acyclic g h /\ good_call g sw scope s x /\
  (forall fuel, N <= fuel -> ed_copy fuel pick sw scope true true g x = (g', Ok y)) /\
  forall V N' (sem : nat -> N' -> list V -> V) st noise v, ~ ev sem st noise g' (tensor_of g' y) v.
Proof. exact copy_q_cycle. Qed.
Print Assumptions C10_copy_q_cycle_refuted.

(** Otherwise, with [copy_q=True] and [copy_parent_rvs=False], the replacements
    are made in every expression, also in those of the replacements, all of which
    are copied.

    Missing from the full statement: copies of random variables, and of their
    parents, with [copy_q=True] (unless all values are variables, as below). *)
Theorem C10_copy_q_partial : forall g h pick sw scope s x,
  wf g -> put_acyclic g sw h -> swap_ok g sw -> plain_values g sw ->
  with_slash scope = Some s -> fresh_scope g s -> valid g x -> plain g x -> (forall r, x <> XRV r) ->
  exists N g' y rho,
    (forall fuel, N <= fuel -> ed_copy fuel pick sw scope true false g x = (g', Ok y)) /\
    (forall o, length (ops g) <= rho o) /\
    (forall a b, a < length (ops g) -> b < length (ops g) -> rho a = rho b -> a = b) /\
    forall V N' (sem : nat -> N' -> list V -> V) st noise,
      (exists v, ev sem st noise g' (tensor_of g' y) v) /\
      forall v, ev sem st noise g' (tensor_of g' y) v <->
                qev sem st (fun o => noise (rho o)) g sw (tensor_of g x) v.
Proof. exact copy_q_without_parents. Qed.
Print Assumptions C10_copy_q_partial.

(** The product z * p with z swapped for q, and with the variable v of z swapped
    for a constant: q and the constant are copied. *)
Example C10_copy_q_demo :
  (let sw := [(XRV 0, XRV 2)] in put_acyclic demo sw (fun o => match o with 0 => 0 | 6 => 1 | _ => S o end) /\
   plain_values demo sw /\ swap_ok demo sw /\ plain demo (XT 4) /\
   ed_copy 20 first_pick sw "copied" true false demo (XT 4) =
     (mkgraph (ops demo ++ [mkop "copied/mul" (KOp 1) [9; 2]; mkop "copied/q/sample" (KOp 12) [10]; mkop "copied/c" (KOp 0) []])
              (rvs demo), Ok (XT 8))) /\
  (let sw := [(XVar 1, XT 7)] in put_acyclic demo sw (fun o => match o with 7 => 0 | _ => S o end) /\
   plain_values demo sw /\ swap_ok demo sw /\
   ed_copy 20 first_pick sw "copied" true false demo (XT 4) =
     (mkgraph (ops demo ++ [mkop "copied/mul" (KOp 1) [9; 2]; mkop "copied/z/sample" (KOp 10) [10; 11];
                            mkop "copied/c" (KOp 0) []; mkop "copied/c2" (KOp 2) []]) (rvs demo), Ok (XT 8))).
Proof.
  split.
  - split; [|split; [|split; [apply demo_swap; auto|split; [intros o d H; discriminate|vm_compute; reflexivity]]]].
    + intros o d H. do 8 (destruct o as [|o]; [inversion H; subst; unfold put; simpl; repeat constructor; fail|]). destruct o; discriminate.
    + intros k y [H|[]]. inversion H; subst. split; [left; eauto|intros C; discriminate].
  - split; [|split; [|split; [|vm_compute; reflexivity]]].
    + intros o d H. do 8 (destruct o as [|o]; [inversion H; subst; unfold put; simpl; repeat constructor; fail|]). destruct o; discriminate.
    + intros k y [H|[]]. inversion H; subst. split; [right; intros r C; discriminate|intros C; discriminate].
    + split; [repeat constructor; simpl; eauto; lia|repeat constructor; intros []].
Qed.

(** If all values are variables and none of them is a key, [copy_q] makes no
    difference, whatever the other flags. *)
Theorem C10_copy_q_variables_partial : forall g sw, variable_values g sw -> forall fuel pick scope itself with_parents x,
  ed_copy_at fuel pick sw scope itself true with_parents g x =
  ed_copy_at fuel pick sw scope itself false with_parents g x.
Proof. exact copy_q_variables. Qed.
Print Assumptions C10_copy_q_variables_partial.

(** z is swapped for the variable v. *)
Example C10_copy_q_variables_demo : variable_values demo [(XRV 0, XVar 1)] /\
  ed_copy_at 20 first_pick [(XRV 0, XVar 1)] "copied" false true true demo (XT 4) =
    (mkgraph (ops demo ++ [mkop "copied/mul" (KOp 1) [1; 2]]) (rvs demo), Ok (XT 8)).
Proof.
  split; [|vm_compute; reflexivity]. intros k y [H|[]]. inversion H; subst. exists 1. split; auto. split; [simpl; eauto|].
  intros k' y' [H'|[]]. inversion H'; subst. discriminate.
Qed.

(** ** C11: after any history of calls in other scopes, and whatever is done
    later, the copy is the substitution in the graph before the history.

    Missing from the full statement: a scope that an earlier call has used, as
    by default; for these it is false, see below. *)

Theorem C11_copy_after_history_partial : forall g h g1 pick sw scope s x,
  wf g -> acyclic g h -> calls g g1 ->
  swap_ok g sw -> direct_keys g sw -> valid g x -> plain g x -> with_slash scope = Some s -> fresh_scope g1 s ->
  exists N g' y rho,
    (forall fuel, N <= fuel -> ed_copy fuel pick sw scope false true g1 x = (g', Ok y)) /\
    (forall o, length (ops g1) <= rho o) /\
    (forall a b, a < length (ops g1) -> b < length (ops g1) -> rho a = rho b -> a = b) /\
    forall g2, extends g' g2 -> forall V N' (sem : nat -> N' -> list V -> V) st noise v,
      ev sem st noise g2 (tensor_of g2 y) v <->
      sev_node sem st noise (fun o => noise (rho o)) g sw (tensor_of g x) v.
Proof. exact copy_after_history. Qed.
Print Assumptions C11_copy_after_history_partial.

Theorem C11_same_scope_refuted : exists g h pick sw1 sw2 scope s x N g1 y1 g2 y2,
  wf g /\ acyclic g h /\ good_call g sw1 scope s x /\ good_call g sw2 scope s x /\
  (forall fuel, N <= fuel -> ed_copy fuel pick sw1 scope false true g x = (g1, Ok y1)) /\
  (forall fuel, N <= fuel -> ed_copy fuel pick sw2 scope false true g1 x = (g2, Ok y2)) /\
  exists (sem : nat -> unit -> list string -> string) st noise v, ev sem st noise g2 (tensor_of g2 y2) v /\
    forall noise', ~ sev_node sem st noise noise' g sw2 (tensor_of g x) v.
Proof. exact same_scope_refuted. Qed.
Print Assumptions C11_same_scope_refuted.

(** A history of one call, after which another scope is fresh. *)
Example C11_demo : exists g1, calls demo g1 /\ fresh_scope g1 "other/" /\ with_slash "other" = Some "other/" /\
  length (ops g1) = 10.
Proof.
  destruct (ed_copy 20 first_pick [(XRV 0, XRV 2)] "copied" false true demo (XRV 1)) as [g1 r] eqn:E.
  exists g1. pose proof E as E0. vm_compute in E0. inversion E0. subst r. clear E0. split; [|split; [|split]]; [|subst g1|reflexivity|subst g1; reflexivity].
  - subst g1. eapply calls_cons; [apply (demo_good (XRV 2) (XRV 1)); auto|exact E|apply calls_nil].
  - split; intros d n H C; simpl in H; repeat (destruct H as [<-|H]; [simpl in C; discriminate|]); destruct H.
Qed.

(** ** C12: copies add no variable, placeholder or queue, and depend on those
    that the substituted expression depends on; other operations are new.

    Missing from the full statement: the operation of a placeholder or variable
    given as such ([plain] in [good_call]); it is duplicated, see below. *)

Theorem C12_copy_shares_state_partial : forall g h pick sw scope s x,
  wf g -> acyclic g h -> good_call g sw scope s x ->
  exists N g' y,
    (forall fuel, N <= fuel -> ed_copy fuel pick sw scope false true g x = (g', Ok y)) /\
    (forall o d, length (ops g) <= o -> nth_error (ops g') o = Some d -> leaf (okind d) = false) /\
    (forall d, nth_error (ops g) (tensor_of g x) = Some d ->
       if leaf (okind d) then tensor_of g' y = tensor_of g x else length (ops g) <= tensor_of g' y) /\
    (forall L d, nth_error (ops g') L = Some d -> leaf (okind d) = true ->
       (depends g' (tensor_of g' y) L <-> sdepends g sw (tensor_of g x) L)).
Proof. exact copy_shares. Qed.
Print Assumptions C12_copy_shares_state_partial.

Theorem C12_placeholder_op_refuted : exists g h pick sw scope s x N g' o d,
  wf g /\ acyclic g h /\ swap_ok g sw /\ with_slash scope = Some s /\ fresh_scope g s /\ valid g x /\
  (forall fuel, N <= fuel -> ed_copy fuel pick sw scope false true g x = (g', Ok (XOp o))) /\
  length (ops g) <= o /\ nth_error (ops g') o = Some d /\ okind d = KPlace.
Proof. exact placeholder_op_refuted. Qed.
Print Assumptions C12_placeholder_op_refuted.

(** With z swapped for q, y no longer depends on the variable v but still on
    the placeholder p. *)
Example C12_demo : good_call demo [(XRV 0, XRV 2)] "copied" "copied/" (XRV 1) /\
  depends demo 5 1 /\ sdepends demo [(XRV 0, XRV 2)] 5 2.
Proof.
  split; [apply demo_good; auto|]. split.
  - eapply dep_step; [reflexivity|left; reflexivity|]. eapply dep_step; [reflexivity|right; left; reflexivity|constructor].
  - eapply sdep_step; [reflexivity|reflexivity|right; left; reflexivity|reflexivity|].
    eapply sdep_step; [reflexivity|reflexivity|right; left; reflexivity|reflexivity|].
    eapply sdep_leaf; [reflexivity|reflexivity|constructor].
Qed.

(** Whatever the flags and whatever the calls return, no history of calls adds a
    variable, placeholder or queue. *)
Theorem C12_no_state_added_partial : forall cs g, wf g ->
  Forall (fun c => plain g (c_x c) /\ Forall (fun kv => plain g (snd kv)) (c_sw c)) cs ->
  forall o d, length (ops g) <= o -> nth_error (ops (fold_left run_call cs g)) o = Some d -> leaf (okind d) = false.
Proof. exact history_leaves. Qed.
Print Assumptions C12_no_state_added_partial.

(** A variable is swapped for the reference tensor of a variable, and values are
    copied too. *)
Example C12_history :
  let cs := [mkcall 20 first_pick [(XVar 1, XT 1)] "copied" false true true (XRV 1);
             mkcall 20 first_pick [(XRV 0, XRV 2)] "other" true true true (XRV 0)] in
  Forall (fun c => plain demo (c_x c) /\ Forall (fun kv => plain demo (snd kv)) (c_sw c)) cs /\
  map okind (skipn (length (ops demo)) (ops (fold_left run_call cs demo))) = map KOp [0; 10; 1; 11; 0; 12].
Proof.
  split; [|vm_compute; reflexivity].
  repeat apply Forall_cons; try apply Forall_nil; (split; [intros o d H; discriminate|]);
    (apply Forall_cons; [intros o d H; discriminate|apply Forall_nil]).
Qed.
