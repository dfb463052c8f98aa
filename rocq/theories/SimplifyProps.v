(** * Properties C30, C31, C35, C57: the symbolic simplifier. *)
From Coq Require Import List Arith ZArith QArith Qabs Qpower Qreals Reals Bool Lra.
From Verif Require Import Simplify SimplifySpec SimplifyTermProofs SimplifyProofs.
From Verif Require Import SimplifyRoundProofs SimplifyExtractProofs SimplifyRefuteProofs.
Import ListNotations.
Local Open Scope R_scope.

(** ** C30

    Full statement: for every expression [e] and every set [A] of values of
    '#x', the simplified expression is [e] up to a constant on [A].  This is
    false; see the two refutations.  Proved instead: it holds for sums and
    constant multiples of monomials, of logarithms of monomials and of squares
    of sums of monomials, as long as the powers in them stay between 2^-7 and
    2^7 and roots and logarithms are taken of positive expressions.  Missing:
    sums below any other nonlinear operation. *)

Theorem C30_full_simplify_refuted : exists ti en e e' fuel,
  env_ok ti en /\ powers_within 7 e /\ (forall x, 0 < x -> dom ti en x e) /\
  full_simplify ti fuel e = Some (Ret e') /\
  ~ same_up_to_constant en (fun x => 0 < x) e e'.
Proof. exact log_sum_refuted. Qed.
Print Assumptions C30_full_simplify_refuted.

Theorem C30_root_of_square_refuted : exists ti en e e' fuel,
  env_ok ti en /\ linear_form ti e /\ powers_within 7 e /\
  full_simplify ti fuel e = Some (Ret e') /\
  ~ same_up_to_constant en (fun _ => True) e e'.
Proof. exact root_square_refuted. Qed.
Print Assumptions C30_root_of_square_refuted.

Theorem C30_powers_rounded_refuted : exists ti en e e' fuel,
  env_ok ti en /\ linear_form ti e /\ (forall x, 0 < x -> dom ti en x e) /\
  full_simplify ti fuel e = Some (Ret e') /\
  ~ same_up_to_constant en (fun x => 0 < x) e e'.
Proof. exact rounded_refuted. Qed.
Print Assumptions C30_powers_rounded_refuted.

(** The rounding of a merged power, for every power: the decimal number with
    five significant digits nearest to it, ties going to an even last digit, so
    off by at most one part in 20000. *)
Theorem C30_rounding : forall q, (~ q == 0)%Q -> exists m k,
  (round4 q == inject_Z m * Qpower 10 k)%Q /\ (10000 <= Z.abs m <= 100000)%Z /\
  (inject_Z 10000 * Qpower 10 k <= Qabs q)%Q /\ (Qabs q < inject_Z 100000 * Qpower 10 k)%Q /\
  (Qabs (round4 q - q) <= (1 # 2) * Qpower 10 k)%Q /\
  ((Qabs (round4 q - q) == (1 # 2) * Qpower 10 k)%Q -> Z.even m = true).
Proof. exact round4_spec. Qed.
Print Assumptions C30_rounding.

Theorem C30_rounding_error : forall q, (Qabs (round4 q - q) <= (1 # 20000) * Qabs q)%Q.
Proof. exact round4_relative. Qed.
Print Assumptions C30_rounding_error.

Example C30_rounding_demo :
  (round4 (1 # 3) == 33333 # 100000)%Q /\ (round4 (1234565 # 1) == 1234600 # 1)%Q /\ (round4 (-200001 # 2) == -100000 # 1)%Q.
Proof. repeat split; vm_compute; reflexivity. Qed.

Theorem C30_full_simplify_partial : forall ti en e e' fuel (A : R -> Prop),
  env_ok ti en -> linear_form ti e -> powers_within 7 e ->
  (forall x, A x -> dom ti en x e) ->
  full_simplify ti fuel e = Some (Ret e') ->
  same_up_to_constant en A e e'.
Proof. exact full_simplify_sound. Qed.
Print Assumptions C30_full_simplify_partial.

(** Each rule but the pruning of constants is exact wherever it applies. *)
Theorem C30_rules_exact_partial : forall ti en fn e e' x,
  env_ok ti en -> In fn (simplify_fns ti) -> fn <> add_const_simplify ->
  powers_within 7 e -> dom ti en x e -> fn e = Rewrites e' ->
  dom ti en x e' /\ den en x e' = den en x e.
Proof. exact rules_exact. Qed.
Print Assumptions C30_rules_exact_partial.

Theorem C30_extraction_exact : forall en base stop x g,
  den en x (symbolic_suff_stat base stop g) = tval en base stop x g.
Proof. exact symbolic_den. Qed.
Print Assumptions C30_extraction_exact.

(** From the tensor in the graph to a multiple of a statistic. *)
Theorem C30_statistic_of_tensor_partial :
  forall ti en base stop g e' fuel (A : R -> Prop) ms k,
  env_ok ti en ->
  linear_form ti (symbolic_suff_stat base stop g) ->
  powers_within 7 (symbolic_suff_stat base stop g) ->
  (forall x, A x -> dom ti en x (symbolic_suff_stat base stop g)) ->
  full_simplify ti fuel (symbolic_suff_stat base stop g) = Some (Ret e') ->
  extract_s_stat_multipliers e' = (ms, items_of k) ->
  exists m c, forall x, A x -> tval en base stop x g = m * den en x k + c.
Proof. exact statistic_of_tensor. Qed.
Print Assumptions C30_statistic_of_tensor_partial.

(** a * (x + b)^2 with tensors a, b, below a cast and an identity. *)
Definition ex_ti : tinfo := mktinfo (fun t => Nat.eqb t 9) (fun _ => CUnknown).
Definition ex_env : env :=
  mkenv (fun t l => if Nat.eqb t 9 then hd 0 l else INR t) (fun l => hd 0 l).
Definition ex_graph : tgraph :=
  TG 5 (Some SMul)
    [TG 2 None [];
     TG 4 (Some SSquare) [TG 3 (Some SAdd) [TG 9 None [TG 1 None []]; TG 7 None []]]].
Definition ex_e : expr := symbolic_suff_stat 1 [2; 7]%nat ex_graph.

Example ex_env_ok : env_ok ex_ti ex_env.
Proof.
  repeat split; simpl; intros; auto; try discriminate. now rewrite H.
Qed.
Example ex_linear : linear_form ex_ti ex_e.
Proof.
  apply (lf_mul ex_ti [Node (HTens 2) []] _ []).
  - apply lf_square. repeat constructor.
  - repeat constructor.
Qed.
Example ex_powers : powers_within 7 ex_e.
Proof. cbv. repeat split; auto with arith. Qed.
Example ex_dom : forall x, dom ex_ti ex_env x ex_e.
Proof. intros x. repeat split. Qed.
Example ex_simplified : full_simplify ex_ti 20 ex_e =
  Some (Ret (Node (HSym SAdd)
    [Node (HSym SMul) [Node (HTens 2) []; Node (HCPow 2) [X]];
     Node (HSym SMul) [Node (HTens 2) []; Node (HNum 2) []; X; Node (HTens 7) []]])).
Proof. vm_compute. reflexivity. Qed.
Example ex_extracted : extract_s_stat_multipliers
    (Node (HSym SMul) [Node (HTens 2) []; Node (HNum 2) []; X; Node (HTens 7) []]) =
  ([Node (HTens 2) []; Node (HNum 2) []; Node (HTens 7) []], items_of X).
Proof. reflexivity. Qed.
(** A rule that applies: log (2 * x). *)
Example ex_rule : log_mul_simplify (Node (HSym SLog) [Node (HSym SMul) [Node (HNum 2) []; X]]) =
  Rewrites (Node (HSym SAdd) [Node (HSym SLog) [Node (HNum 2) []]; Node (HSym SLog) [X]]).
Proof. reflexivity. Qed.
Example ex_rule_dom : dom ex_ti ex_env 3 (Node (HSym SLog) [Node (HSym SMul) [Node (HNum 2) []; X]]).
Proof. repeat split; simpl; unfold Q2R; simpl; lra. Qed.

(** ** C31 *)

Theorem C31_full_simplify_terminates : forall ti e, exists n o,
  (forall fuel, (n <= fuel)%nat -> full_simplify ti fuel e = Some o) /\
  (forall e', o = Ret e' ->
     forall rule, In rule (simplify_fns ti) ->
     forall s, subexpr s e' -> rule s = Nothing).
Proof. exact full_simplify_terminates. Qed.
Print Assumptions C31_full_simplify_terminates.

Example ex_terminates : exists e', full_simplify ex_ti 20 ex_e = Some (Ret e').
Proof. eexists. apply ex_simplified. Qed.

(** ** C35 *)

Theorem C35_multipliers_exact : forall e ms k,
  extract_s_stat_multipliers e = (ms, items_of k) ->
  Forall (fun m => contains_x m = false) ms /\
  forall en x, den en x e = rprod (map (den en x) ms) * den en x k.
Proof. exact extract_exact. Qed.
Print Assumptions C35_multipliers_exact.

(** ** C57

    Full statement: the multiplier that is separated from a statistic of the
    table can be rebuilt as a tensor, with the same value.  False: rebuilding
    raises as soon as a sum or a product is nested in it.  Proved instead: if
    rebuilding returns, the value is right. *)

Theorem C57_rebuild_refuted : exists ti e fuel e' ms k,
  full_simplify ti fuel e = Some (Ret e') /\
  extract_s_stat_multipliers e' = (ms, items_of k) /\ In k table_statistics /\
  reconstruct_multiplier ms = Exc.
Proof. exact rebuild_refuted. Qed.
Print Assumptions C57_rebuild_refuted.

Theorem C57_rebuild_exact_partial : forall en own x ms b,
  Forall (own_values en own x) ms ->
  reconstruct_multiplier ms = Ret b -> bval en own b = rprod (map (den en x) ms).
Proof. exact reconstruct_multiplier_val. Qed.
Print Assumptions C57_rebuild_exact_partial.

Example ex_rebuild :
  reconstruct_multiplier [Node (HTens 2) []; Node (HNum 2) []; Node (HCPow (-1)) [Node (HTens 7) []]] =
  Ret (BOp SMul [BOp SMul [BOp SMul [BNum 1; BTens 2]; BNum 2]; BPow (BTens 7) (-1)]).
Proof. reflexivity. Qed.
Example ex_rebuild_own : Forall (own_values ex_env INR 0)
  [Node (HTens 2) []; Node (HNum 2) []; Node (HCPow (-1)) [Node (HTens 7) []]].
Proof.
  repeat constructor; intros t args H; inversion H as [|h l a Ha Hs]; subst; try reflexivity;
    repeat (destruct Ha as [<-|Ha]; [inversion Hs as [|h l a Ha' Hs']; subst; [reflexivity|destruct Ha']|]);
    destruct Ha.
Qed.
