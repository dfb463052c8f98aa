(** * Property C95: resetting a sampler. *)
From Coquelicot Require Import Coquelicot.
From Coq Require Import Reals List Arith Bool Lia.
From Verif Require Import Ext Feed MonteCarlo MonteCarloSpec Transform HMC SGLD Gibbs SamplerReset SamplerResetSpec
  SamplerResetProofs SamplerResetGibbsProofs.
Import ListNotations.
Local Open Scope nat_scope.

(** What the approximations hold after any number of runs with a reset after each:
    in every row the sample of the last run that got there, and what was there
    before in the rows none got to.  Every run is a chain, which starts not in the
    initial state but in the first sample of the run before. *)
Theorem C95_history : forall {V X U} (k : kernel V X U) P tables x z0 runs,
  (forall n us, In (n, us) runs -> proper k P (length tables) us) ->
  (forall x z x' z', P x z -> P x' z' -> P x z') -> row_is tables 0 z0 -> P x z0 ->
  (forall n us rows, In (n, us) runs -> In rows tables -> n <= length rows) ->
  exists s, history k (initial tables x) runs = Some s /\ m_t s = 0 /\ m_accept s = 0 /\
    (forall m, (forall n us, In (n, us) runs -> n <= m) -> rest_unchanged tables (m_tables s) m) /\
    forall before n us later, runs = before ++ (n, us) :: later ->
      exists xb zb, restarts k x z0 before xb zb /\
        forall j, j < n -> (forall n' us', In (n', us') later -> n' <= j) ->
          exists x' z acc, chain k xb zb us j x' z acc /\ row_is (m_tables s) j z.
Proof. exact @history_fill. Qed.
Print Assumptions C95_history.

(** So a reset does not start the sampler over: with the same draws, SGLD for a
    standard normal variable gives another sample after it. *)
Theorem C95_refuted : exists (us : nat -> sg_draws * bool),
  let lp := fun (_ : nat) (_ : list (nat * tensor)) (v : tensor) => match v with [w] => Fin (- (w * w) / 2) | _ => NaN end in
  let grad := fun (_ : list tensor -> option ext) (z : list tensor) => map (map Ropp) z in
  let k := sgld_kernel lp (fun _ => 1%R) [(0, None)] grad 1 in
  (forall w : R, is_derive (fun w : R => (- (w * w) / 2)%R) w (- w)%R) /\
  exists once twice, history k (initial [[[0%R]]] tt) [(1, us)] = Some once /\
    history k (initial [[[0%R]]] tt) [(1, us); (1, us)] = Some twice /\
    m_tables once = [[[1%R]]] /\ m_tables twice = [[[(3 / 2)%R]]].
Proof. exact reset_differs. Qed.
Print Assumptions C95_refuted.

(** A walk that adds the draws, three updates and, after a reset, two: the second
    run starts in 6, the first sample of the first run, and the third row keeps the
    last sample of the first run. *)
Definition C95_walk : kernel nat unit nat := fun _ x z u => Some (x, map (Nat.add u) z, true).
Example C95_demo : option_map m_tables
    (history C95_walk (initial [[5; 0; 0; 9]] tt) [(3, fun i => (S i, false)); (2, fun i => (10, false))]) =
  Some [[16; 26; 11; 9]].
Proof. reflexivity. Qed.
Example C95_met : proper C95_walk (fun _ z => length z = 1) 1 (fun i => (S i, false)) /\
  (forall (x : unit) (z : list nat) (x' : unit) (z' : list nat), length z = 1 -> length z' = 1 -> length z' = 1) /\
  row_is [[5; 0; 0; 9]] 0 [5] /\
  restarts C95_walk tt [5] [(3, fun i => (S i, false))] tt [6].
Proof.
  split; [split; [auto|]|split; [auto|split]].
  - intros i x z H. do 3 eexists. split; [reflexivity|]. rewrite map_length; auto.
  - split; auto. intros [|[|i]] v E; inversion E; reflexivity.
  - change [(3, fun i : nat => (S i, false))] with (([] : list (nat * (nat -> nat * bool))) ++ [(S 2, fun i : nat => (S i, false))]).
    econstructor; [constructor| |].
    + constructor. reflexivity.
    + eapply chain_next; [eapply chain_next; [eapply chain_first|]|]; reflexivity.
Qed.

(** Gibbs does not start over either: the state that its draws condition on is
    that of one long run, as if there were no resets; row 0 is read before the
    first update only. *)
Theorem C95_gibbs : forall {V} latent dt tables z0 (runs : list (nat * (nat -> gibbs_draws V * bool))),
  latent <> [] -> length tables = length latent -> row_is tables 0 z0 ->
  (forall n us rows, In (n, us) runs -> In rows tables -> n <= length rows) ->
  exists s, history (gibbs_kernel latent dt) (initial tables []) runs = Some s /\
    m_extra s = fold_left (fun self d => gibbs_scan (gibbs_start latent dt self z0 d) (gd_blocks d))
      (flat_map (fun r => map (fun j => fst (snd r j)) (seq 0 (fst r))) runs) [].
Proof. exact @gibbs_history. Qed.
Print Assumptions C95_gibbs.

(** One variable whose conditional adds 1 to its last value: two updates and, after
    a reset, one more. *)
Example C95_gibbs_demo : let draw := fun z d => match dict_get d z with Some v => S v | None => 0 end in
  let us := fun _ : nat => (mkgibbs [([0], draw)] draw None, false) in
  option_map (fun s => (m_tables s, m_extra s)) (history (gibbs_kernel [0] []) (initial [[5; 0]] []) [(2, us); (1, us)]) =
  Some ([[9; 8]], [(0, 8)]).
Proof. reflexivity. Qed.
