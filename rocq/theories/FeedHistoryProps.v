(** * C94: dictionaries passed to several updates. *)
From Coq Require Import List Arith Lia.
From Verif Require Import Feed FeedSpec.
From Verif Require Import FeedHistory FeedHistorySpec FeedHistoryProofs.
Import ListNotations.

(** *** Claim C94 *)

(** After any history of assignments and updates of any inferences, a dictionary
    of the program holds for every key what the program or an update last wrote. *)
Theorem C94_dictionary : forall V evs (h : @heap V) r k o, Forall data_ok evs ->
  latest (writes r k) (dict_get (h_dict h r) k) evs o -> dict_get (h_dict (history evs h) r) k = o.
Proof. exact @dictionary_holds. Qed.
Print Assumptions C94_dictionary.

(** So every run of an update that is given it feeds the inference's own bound
    data, and otherwise the last value written, also by another inference. *)
Theorem C94_shared : forall V evs (h : @heap V) a check log dt r f k o, Forall data_ok evs -> distinct dt ->
  In f (fst (happen (history evs h) (Update a check log dt (Some r)))) ->
  (forall v, bound dt k v -> dict_get f k = Some v) /\
  (unbound dt k -> latest (writes r k) (dict_get (h_dict h r) k) evs o -> dict_get f k = o).
Proof. exact @shared_feed. Qed.
Print Assumptions C94_shared.

(** What is passed is fed, if the dictionary was not given before to an inference
    whose data binds the placeholder. *)
Theorem C94_own_partial : forall V evs (h : @heap V) a check log dt r f k o, Forall data_ok evs -> distinct dt ->
  (forall a' c' l' dt', In (Update a' c' l' dt' (Some r)) evs -> unbound dt' k) ->
  In f (fst (happen (history evs h) (Update a check log dt (Some r)))) -> unbound dt k ->
  latest (assigns r k) (dict_get (h_dict h r) k) evs o -> dict_get f k = o.
Proof. exact @own_feed. Qed.
Print Assumptions C94_own_partial.

(** An update that is given no dictionary feeds the bound data and nothing else,
    whatever happened before. *)
Theorem C94_none : forall V evs (h : @heap V) a check log dt f k, distinct dt ->
  In f (fst (happen (history evs h) (Update a check log dt None))) ->
  (forall v, bound dt k v -> dict_get f k = Some v) /\ (unbound dt k -> dict_get f k = None).
Proof. exact @none_feed. Qed.
Print Assumptions C94_none.

(** Gibbs leaves the program's dictionaries alone. *)
Theorem C94_gibbs_caller : forall V (h : @heap V) i latent dt draw blocks check log r r',
  h_dict (snd (happen h (GibbsUpdate i latent dt draw blocks check log r))) r' = h_dict h r'.
Proof. exact @gibbs_caller. Qed.
Print Assumptions C94_gibbs_caller.

(** But it never forgets: a value passed to one update is fed by every later one
    that is given no dictionary, until another value is passed. *)
Theorem C94_gibbs_sticky : forall V evs (h : @heap V) i k v latent dt draw blocks check log r latent' dt' draw' blocks' check' log' f,
  NoDup (map fst (h_dict h r)) -> dict_get (h_dict h r) k = Some v ->
  let first := GibbsUpdate i latent dt draw blocks check log (Some r) in
  let later := GibbsUpdate i latent' dt' draw' blocks' check' log' None in
  Forall (leaves i k) (first :: evs ++ [later]) ->
  (forall evs1 latent dt draw blocks check log r evs2, evs = evs1 ++ GibbsUpdate i latent dt draw blocks check log (Some r) :: evs2 ->
     dict_get (h_dict (history (first :: evs1) h) r) k = None) ->
  In f (fst (happen (history (first :: evs) h) later)) -> dict_get f k = Some v.
Proof. exact @gibbs_sticky. Qed.
Print Assumptions C94_gibbs_sticky.

(** The program passes 5 for a placeholder to the update of an inference that binds
    it to 10, then the same dictionary to one that does not bind it, which is fed
    10; the program never wrote 10. *)
Theorem C94_caller_refuted : exists (h : @heap nat) dt dt' r k f, distinct dt /\ distinct dt' /\ unbound dt' k /\
  dict_get (h_dict h r) k = Some 5 /\
  fst (happen (history [Update AVariational false false dt (Some r)] h) (Update AVariational false false dt' (Some r))) = [f] /\
  dict_get f k = Some 10 /\
  (exists g, fst (happen h (Update AVariational false false dt' (Some r))) = [g] /\ dict_get g k = Some 5).
Proof. exact caller_refuted. Qed.
Print Assumptions C94_caller_refuted.

(** **** The hypotheses are met *)

(** A training loop: the minibatch is assigned, the model's inference updated, then
    a second inference that binds another placeholder, then the next minibatch. *)
Definition C94_loop : list (@event nat) :=
  [Assign 0 1 100; Update AVariational true false [(2, DPlace, 7)] (Some 0); Update AMonteCarlo false true [(3, DPlace, 8)] (Some 0); Assign 0 1 101].
Example C94_loop_met : Forall data_ok C94_loop /\
  latest (writes 0 1) None C94_loop (Some 101) /\ latest (writes 0 2) None C94_loop (Some 7) /\ latest (assigns 0 1) None C94_loop (Some 101) /\
  latest (writes 0 4) None C94_loop None /\
  fst (happen (history C94_loop (mkheap (fun _ => []) (fun _ => []))) (Update AVariational false false [] (Some 0))) = [[(1, 101); (2, 7); (3, 8)]].
Proof.
  split; [repeat constructor; cbn; lia|]. split; [|split; [|split; [|split]]].
  - apply (l_some (writes 0 1) None (firstn 3 C94_loop) (Assign 0 1 101) []); [constructor|intros ev v []].
  - apply (l_some (writes 0 2) None (firstn 1 C94_loop) (Update AVariational true false [(2, DPlace, 7)] (Some 0)) (skipn 2 C94_loop)).
    + constructor. left. reflexivity.
    + intros ev v [<-|[<-|[]]] W; inversion W as [|? ? ? ? B]; subst. destruct B as [B|[]]; inversion B.
  - apply (l_some (assigns 0 1) None (firstn 3 C94_loop) (Assign 0 1 101) []); [constructor|intros ev v []].
  - apply l_none. intros ev v [<-|[<-|[<-|[<-|[]]]]] W; inversion W as [|? ? ? ? B]; subst; destruct B as [B|[]]; inversion B.
  - reflexivity.
Qed.
Example C94_gibbs_demo : let h := @mkheap nat (fun _ => [(5, 50)]) (fun _ => []) in
  let first := GibbsUpdate 0 [(0, 7)] [(1, DPlace, 5)] (fun z d => z + length d) [[0]] false false (Some 0) in
  let later := GibbsUpdate 0 [(0, 7)] [(1, DPlace, 5)] (fun z d => z + length d) [[0]] false false None in
  Forall (leaves 0 5) [first; later] /\ fst (happen (history [first] h) later) = [[(0, 3); (1, 5); (5, 50)]; [(0, 3); (1, 5); (5, 50)]].
Proof. cbv zeta. split; [|reflexivity]. repeat constructor; intros _ b [<-|[]]; cbn; lia. Qed.
