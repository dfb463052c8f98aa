(** * The log joint densities that the algorithms build (C62-C65). *)
From Verif Require Import Copy CopySpec CopyFinalProofs LogJoint LogJointSpec LogJointProofs LogJointMoreProofs.
From Coq Require Import Reals String List Arith Bool Lia.
Import ListNotations.
Local Open Scope string_scope.

(** ** C62: the log joint density that HMC, SGLD, SGHMC, MAP, Laplace and replica
    exchange build is the sum of the log densities of the latent and observed
    variables of the program, each at the value the algorithm gives it and with
    every latent or observed ancestor held at the value the algorithm gives it.

    Missing from the full statement: for HMC, SGLD and SGHMC, data that are
    random variables computed from a latent or observed variable ([unrelated]);
    for these it is false, see below.  For replica exchange, a program in which
    something already has a name in the scope [conditional]. *)
Theorem C62_log_joint_partial : forall g h pick scope latents z_sample data,
  wf g -> acyclic g h -> new_scope g scope ->
  bindings g z_sample -> Forall (fun kv => is_rv (snd kv) = false) z_sample ->
  bindings g (rv_items data) -> NoDup (map fst (z_sample ++ rv_items data)%list) -> incl latents (map fst z_sample) ->
  unrelated g (map fst (z_sample ++ rv_items data)%list) (map snd (rv_items data)) ->
  exists N g' terms rho,
    (forall fuel, N <= fuel -> log_joint fuel pick scope latents z_sample data g = (g', Ok terms)) /\
    extends g g' /\ new_noise g rho /\
    forall V M (sem : nat -> M -> list V -> V) st noise score, exists env,
      holds g (sampled sem st noise (fun o => noise (rho o)) g) (z_sample ++ rv_items data)%list env /\
      (exists a, sum_is (term_is sem st score noise g') terms a) /\
      forall a, sum_is (term_is sem st score noise g') terms a <->
                sum_is (density sem st score (fun o => noise (rho o)) env g) (latents ++ observed data)%list a.
Proof. intros g h pick scope latents z_sample data Hwf Hac. exact (log_joint_ok g h pick Hwf Hac scope latents z_sample data). Qed.
Print Assumptions C62_log_joint_partial.

Example C62_log_joint_demo : let zs := [(XRV 0, XT 7)] in let data := [(XRV 2, XT 4); (XRV 1, XRV 5)] in
  wf study /\ acyclic study (fun o => o) /\ new_scope study "inference/sample" /\ bindings study zs /\
  bindings study (rv_items data) /\ NoDup (map fst (zs ++ rv_items data)%list) /\
  unrelated study (map fst (zs ++ rv_items data)%list) (map snd (rv_items data)) /\
  snd (log_joint 30 first_pick "inference/sample" [XRV 0] zs data study) =
    Ok [mkterm (XRV 0) 8 (XT 7); mkterm (XRV 2) 9 (XT 4); mkterm (XRV 1) 10 (XT 11)].
Proof.
  split; [exact study_wf|]. split; [exact study_acyclic|]. split; [apply study_scope; simpl; tauto|].
  split; [apply study_bindings; repeat constructor; simpl; tauto|].
  split; [apply study_bindings; repeat constructor; simpl; tauto|].
  split; [simpl; repeat constructor; simpl; intuition discriminate|]. split; [|vm_compute; reflexivity].
  intros k q Hk Hq Rq. simpl in Hq. destruct Hq as [<-|[<-|[]]]; [discriminate|]. apply study_depends; [simpl; tauto|].
  simpl in Hk. repeat (destruct Hk as [<-|Hk]; [simpl; tauto|]). destruct Hk.
Qed.

(** The variable [b] is bound to [qa], which is computed from the random
    variable [x] of the model: copying [qa] first leaves in the scope a copy of
    [x] given fresh draws of [z] and [b], which is then taken for [x] given the
    sample. *)
Theorem C62_log_joint_refuted : exists g h scope latents z_sample data fuel pick g' terms,
  wf g /\ acyclic g h /\ new_scope g scope /\ bindings g z_sample /\ Forall (fun kv => is_rv (snd kv) = false) z_sample /\
  bindings g (rv_items data) /\ NoDup (map fst (z_sample ++ rv_items data)%list) /\ incl latents (map fst z_sample) /\
  log_joint fuel pick scope latents z_sample data g = (g', Ok terms) /\
  exists (sem : nat -> unit -> list nat -> nat) st score, forall noise noise' env,
    holds g (sampled sem st noise noise' g) (z_sample ++ rv_items data)%list env ->
    (exists a, sum_is (term_is sem st score noise g') terms a) /\
    forall a b, sum_is (term_is sem st score noise g') terms a ->
      sum_is (density sem st score noise' env g) (latents ++ observed data)%list b -> a <> b.
Proof. exact log_joint_refuted. Qed.
Print Assumptions C62_log_joint_refuted.

(** MAP and Laplace take the tensors of the bindings themselves, so nothing is
    excluded. *)
Theorem C62_map_loss : forall g h pick scope latents data,
  wf g -> acyclic g h -> new_scope g scope -> bindings g latents -> bindings g (rv_items data) ->
  NoDup (map fst (latents ++ rv_items data)%list) ->
  exists N g' terms rho,
    (forall fuel, N <= fuel -> map_loss fuel pick scope latents data g = (g', Ok terms)) /\
    extends g g' /\ new_noise g rho /\
    forall V M (sem : nat -> M -> list V -> V) st noise score, exists env,
      holds g (given sem st noise g) (latents ++ rv_items data)%list env /\
      (exists a, sum_is (term_is sem st score noise g') terms a) /\
      forall a, sum_is (term_is sem st score noise g') terms a <->
                sum_is (density sem st score (fun o => noise (rho o)) env g) (map fst latents ++ observed data)%list a.
Proof. intros g h pick scope latents data Hwf Hac. exact (map_loss_ok g h pick Hwf Hac scope latents data). Qed.
Print Assumptions C62_map_loss.

Example C62_map_loss_demo : let zs := [(XRV 0, XRV 6)] in let data := [(XRV 2, XT 4); (XRV 1, XRV 5)] in
  wf study /\ acyclic study (fun o => o) /\ new_scope study "inference" /\ bindings study zs /\
  bindings study (rv_items data) /\ NoDup (map fst (zs ++ rv_items data)%list) /\
  snd (map_loss 30 first_pick "inference" zs data study) =
    Ok [mkterm (XRV 0) 7 (XT 10); mkterm (XRV 2) 8 (XT 4); mkterm (XRV 1) 9 (XT 9)].
Proof.
  split; [exact study_wf|]. split; [exact study_acyclic|]. split; [apply study_scope; simpl; tauto|].
  split; [apply study_bindings; repeat constructor; simpl; tauto|].
  split; [apply study_bindings; repeat constructor; simpl; tauto|].
  split; [simpl; repeat constructor; simpl; intuition discriminate|]. vm_compute. reflexivity.
Qed.

(** Replica exchange: the replicas share one draw of the data that are random
    variables.

    Missing from the full statement: such data in a program in which something
    already has a name in the scope [conditional]. *)
Theorem C62_replica_partial : forall g h pick samples ss latents data,
  wf g -> acyclic g h ->
  Forall2 (fun p s => with_slash (fst p) = Some s /\ fresh_scope g s) samples ss ->
  ForallOrdPairs apart ss ->
  constant_data data \/ (fresh_scope g "conditional/" /\ Forall (apart "conditional/") ss) ->
  bindings g (rv_items data) ->
  Forall (fun p => bindings g (snd p) /\ Forall (fun kv => is_rv (snd kv) = false) (snd p) /\
                   NoDup (map fst (snd p ++ rv_items data)%list) /\ incl latents (map fst (snd p))) samples ->
  samples <> [] ->
  exists N g' tss rho_c rho,
    (forall fuel, N <= fuel -> replica_ratio fuel pick latents data g samples = (g', Ok tss)) /\
    extends g g' /\ length tss = length samples /\ new_noise g rho_c /\
    (forall i, i < length samples -> new_noise g (rho i)) /\
    (forall i a b, i < length samples -> a < length (ops g) -> b < length (ops g) -> rho_c a <> rho i b) /\
    (forall i i' a b, i < length samples -> i' < length samples -> a < length (ops g) -> b < length (ops g) ->
       rho i a = rho i' b -> i = i' /\ a = b) /\
    forall V M (sem : nat -> M -> list V -> V) st noise score i scope sample ts,
      nth_error samples i = Some (scope, sample) -> nth_error tss i = Some ts ->
      exists env,
        holds g (sampled sem st noise (fun o => noise (rho_c o)) g) (sample ++ rv_items data)%list env /\
        (exists a, sum_is (term_is sem st score noise g') ts a) /\
        (forall a, sum_is (term_is sem st score noise g') ts a <->
           sum_is (density sem st score (fun o => noise (rho i o)) env g) (latents ++ observed data)%list a).
Proof. intros g h pick samples ss latents data Hwf Hac. exact (replica_ratio_ok g h pick Hwf Hac samples ss latents data). Qed.
Print Assumptions C62_replica_partial.

Example C62_replica_demo :
  let data := [(XRV 2, XT 4); (XRV 1, XRV 6)] in
  let samples := [("inference/_0", [(XRV 0, XT 7)]); ("inference_1/_1", [(XRV 0, XT 0)])] in
  Forall2 (fun p s => with_slash (fst p) = Some s /\ fresh_scope study s) samples ["inference/_0/"; "inference_1/_1/"] /\
  fresh_scope study "conditional/" /\ ForallOrdPairs apart ["conditional/"; "inference/_0/"; "inference_1/_1/"] /\
  bindings study (rv_items data) /\
  Forall (fun p => bindings study (snd p) /\ Forall (fun kv => is_rv (snd kv) = false) (snd p) /\
                   NoDup (map fst (snd p ++ rv_items data)%list) /\ incl [XRV 0] (map fst (snd p))) samples /\
  exists ts us, snd (replica_ratio 30 first_pick [XRV 0] data study samples) = Ok [ts; us] /\
    map t_value ts = [XT 7; XT 4; XT 15] /\ map t_value us = [XT 0; XT 4; XT 15].
Proof.
  cbv zeta. split.
  { repeat apply Forall2_cons; try apply Forall2_nil; (split; [reflexivity|apply study_fresh; simpl; tauto]). }
  split; [apply study_fresh; simpl; tauto|]. split.
  { repeat constructor; intros n n' E; discriminate. }
  split; [apply study_bindings; repeat constructor; simpl; tauto|]. split.
  { repeat apply Forall_cons; try apply Forall_nil; (split; [apply study_bindings; repeat constructor; simpl; tauto|]);
      (split; [repeat constructor|]); (split; [simpl; repeat constructor; simpl; intuition discriminate|]); intros z; simpl; tauto. }
  eexists. eexists. split; [vm_compute; reflexivity|]. split; reflexivity.
Qed.

(** ** C63: each sample of the variational algorithms draws every latent
    variable from its approximation, once and with noise of its own; the q term
    sums the log densities of the approximations at these draws, and the p term
    is the log joint density of the program at them and at the data.

    Missing from the full statement: approximations, or data that are random
    variables, computed from a latent or observed random variable of the model
    ([unrelated]); for these it is false, see below. *)
Theorem C63_samples_partial : forall g h pick scopes ss latents data,
  wf g -> acyclic g h ->
  Forall2 (fun scope s => with_slash scope = Some s /\ fresh_scope g s) scopes ss -> ForallOrdPairs apart ss ->
  bindings g latents -> Forall (fun kv => is_rv (snd kv) = true) latents ->
  bindings g (rv_items data) -> NoDup (map fst (latents ++ rv_items data)%list) ->
  unrelated g (map fst (latents ++ rv_items data)%list) (map snd (latents ++ rv_items data)%list) ->
  exists N g' tss rho,
    (forall fuel, N <= fuel -> vi_samples fuel pick scopes latents data g = (g', Ok tss)) /\
    extends g g' /\ length tss = length scopes /\
    (forall i, i < length scopes -> new_noise g (rho i)) /\
    (forall i i' a b, i < length scopes -> i' < length scopes -> a < length (ops g) -> b < length (ops g) ->
       rho i a = rho i' b -> i = i' /\ a = b) /\
    forall V M (sem : nat -> M -> list V -> V) st noise score i qs ps, nth_error tss i = Some (qs, ps) ->
      exists env, let noise' := fun o => noise (rho i o) in
        holds g (sampled sem st noise noise' g) (latents ++ rv_items data)%list env /\
        (exists a, sum_is (term_is sem st score noise g') qs a) /\
        (forall a, sum_is (term_is sem st score noise g') qs a <->
           sum_is (fun kv => density_at sem st score noise' (fun _ => None) env g (fst kv) (snd kv)) latents a) /\
        (exists a, sum_is (term_is sem st score noise g') ps a) /\
        (forall a, sum_is (term_is sem st score noise g') ps a <->
           sum_is (density sem st score noise' env g) (map fst latents ++ observed data)%list a).
Proof. intros g h pick scopes ss latents data Hwf Hac. exact (vi_samples_ok g h pick Hwf Hac scopes ss latents data). Qed.
Print Assumptions C63_samples_partial.

Example C63_samples_demo :
  let scopes := ["inference/sample"; "inference/sample_1"] in let ss := ["inference/sample/"; "inference/sample_1/"] in
  let zs := [(XRV 0, XRV 3); (XRV 1, XRV 5)] in let data := [(XRV 2, XT 4)] in
  Forall2 (fun scope s => with_slash scope = Some s /\ fresh_scope study s) scopes ss /\ ForallOrdPairs apart ss /\
  bindings study zs /\ bindings study (rv_items data) /\ NoDup (map fst (zs ++ rv_items data)%list) /\
  unrelated study (map fst (zs ++ rv_items data)%list) (map snd (zs ++ rv_items data)%list) /\
  exists t1 t2, snd (vi_samples 30 first_pick scopes zs data study) = Ok [t1; t2] /\
    map t_value (snd t1) = [XT 11; XT 12; XT 4] /\ map t_value (snd t2) = [XT 17; XT 18; XT 4].
Proof.
  cbv zeta. split.
  { repeat apply Forall2_cons; try apply Forall2_nil; (split; [reflexivity|apply study_fresh; simpl; tauto]). }
  split; [repeat constructor; intros n n' E; discriminate|].
  split; [apply study_bindings; repeat constructor; simpl; tauto|].
  split; [apply study_bindings; repeat constructor; simpl; tauto|].
  split; [simpl; repeat constructor; simpl; intuition discriminate|]. split.
  { intros k q Hk Hq Rq. apply study_depends.
    - simpl in Hq. destruct Hq as [<-|[<-|[<-|[]]]]; [simpl; tauto|simpl; tauto|discriminate].
    - simpl in Hk. repeat (destruct Hk as [<-|Hk]; [simpl; tauto|]). destruct Hk. }
  eexists. eexists. split; [vm_compute; reflexivity|]. split; reflexivity.
Qed.

(** An inference network [qa] applied to the observed random variable [x]
    rather than to its data: copying [qa] leaves in the scope a copy of [x]
    given a fresh draw of [z] from the prior, which is then taken for the
    likelihood given the sample from [qa]. *)
Theorem C63_samples_refuted : exists g h scope latents data fuel pick g' qs ps,
  wf g /\ acyclic g h /\ new_scope g scope /\ bindings g latents /\ Forall (fun kv => is_rv (snd kv) = true) latents /\
  bindings g (rv_items data) /\ NoDup (map fst (latents ++ rv_items data)%list) /\
  vi_samples fuel pick [scope] latents data g = (g', Ok [(qs, ps)]) /\
  exists (sem : nat -> unit -> list nat -> nat) st score, forall noise noise' env,
    holds g (sampled sem st noise noise' g) (latents ++ rv_items data)%list env ->
    (exists a, sum_is (term_is sem st score noise g') ps a) /\
    forall a b, sum_is (term_is sem st score noise g') ps a ->
      sum_is (density sem st score noise' env g) (map fst latents ++ observed data)%list b -> a <> b.
Proof. exact vi_refuted. Qed.
Print Assumptions C63_samples_refuted.

(** ** C64: Metropolis-Hastings proposes from the proposal given the old state,
    and its ratio is the log joint density at the new state minus that at the
    old one, minus the log density of proposing the new from the old, plus that
    of proposing the old from the new; data that are random variables have one
    draw, in both.

    Missing from the full statement: data that are random variables in a program
    in which something already has a name in the scope [conditional]; for these
    it is false, see below. *)
Theorem C64_ratio_partial : forall g h pick base so sn latents old proposals data,
  wf g -> acyclic g h ->
  with_slash (base ++ "old") = Some so -> with_slash (base ++ "new") = Some sn ->
  fresh_scope g so -> fresh_scope g sn -> apart so sn ->
  constant_data data \/ (fresh_scope g "conditional/" /\ apart "conditional/" so /\ apart "conditional/" sn) ->
  bindings g old -> bindings g (rv_items data) -> NoDup (map fst (old ++ rv_items data)%list) ->
  bindings g proposals -> Forall (fun kv => is_rv (snd kv) = true) proposals -> NoDup (map fst proposals) ->
  incl (map fst proposals) (map fst old) -> incl latents (map fst old) ->
  exists N g' r rho_c rho_o rho_n,
    (forall fuel, N <= fuel -> mh_ratio fuel pick base latents old proposals data g = (g', Ok r)) /\
    extends g g' /\ new_noise g rho_c /\ new_noise g rho_o /\ new_noise g rho_n /\
    (forall a b, a < length (ops g) -> b < length (ops g) -> rho_c a <> rho_o b /\ rho_c a <> rho_n b /\ rho_o a <> rho_n b) /\
    forall V M (sem : nat -> M -> list V -> V) st noise score, exists env_old env_new,
      let noise_o := fun o => noise (rho_o o) in let noise_n := fun o => noise (rho_n o) in
      mh_states sem st noise (fun o => noise (rho_c o)) noise_o g old proposals data env_old env_new /\
      (forall k, In k (map fst old) -> exists y v, lookup (r_new r) k = Some y /\ env_new (tensor_of g k) = Some v /\
         given sem st noise g' y v) /\
      (exists a, ratio_is sem st score noise g' r a) /\
      (forall a, ratio_is sem st score noise g' r a <-> exists pn po qf qr,
         sum_is (density sem st score noise_n env_new g) (latents ++ observed data)%list pn /\
         sum_is (density sem st score noise_o env_old g) (latents ++ observed data)%list po /\
         sum_is (fun kv => density_at sem st score noise_o env_old env_new g (fst kv) (snd kv)) proposals qf /\
         sum_is (fun kv => density_at sem st score noise_n env_new env_old g (fst kv) (snd kv)) proposals qr /\
         a = (pn - po - qf + qr)%R).
Proof.
  intros g h pick base so sn latents old proposals data Hwf Hac.
  exact (mh_ratio_ok g h pick Hwf Hac base so sn latents old proposals data).
Qed.
Print Assumptions C64_ratio_partial.

Example C64_ratio_demo :
  let old := [(XRV 0, XT 7)] in let props := [(XRV 0, XRV 4)] in let data := [(XRV 2, XT 4); (XRV 1, XRV 6)] in
  with_slash ("inference/" ++ "old") = Some "inference/old/" /\ with_slash ("inference/" ++ "new") = Some "inference/new/" /\
  fresh_scope study "conditional/" /\ fresh_scope study "inference/old/" /\ fresh_scope study "inference/new/" /\
  apart "conditional/" "inference/old/" /\ apart "conditional/" "inference/new/" /\ apart "inference/old/" "inference/new/" /\
  bindings study old /\ bindings study (rv_items data) /\ NoDup (map fst (old ++ rv_items data)%list) /\
  bindings study props /\ incl (map fst props) (map fst old) /\
  exists r, snd (mh_ratio 30 first_pick "inference/" [XRV 0] old props data study) = Ok r /\
    r_new r = [(XRV 0, XT 16)] /\ map t_value (r_reverse r) = [XT 7] /\ length (r_data r) = 2.
Proof.
  cbv zeta. split; [reflexivity|]. split; [reflexivity|].
  split; [apply study_fresh; simpl; tauto|]. split; [apply study_fresh; simpl; tauto|]. split; [apply study_fresh; simpl; tauto|].
  split; [intros n n' E; discriminate|]. split; [intros n n' E; discriminate|]. split; [intros n n' E; discriminate|].
  split; [apply study_bindings; repeat constructor; simpl; tauto|].
  split; [apply study_bindings; repeat constructor; simpl; tauto|].
  split; [simpl; repeat constructor; simpl; intuition discriminate|].
  split; [apply study_bindings; repeat constructor; simpl; tauto|]. split; [intros z; simpl; tauto|].
  eexists. split; [vm_compute; reflexivity|]. split; [reflexivity|]. split; reflexivity.
Qed.

(** False for data that are random variables if the program has a random
    variable of its own named [conditional/q/], where [q/] is the name of the
    datum: it is taken for the copy of [q], and the ratio is computed from its
    values. *)
Theorem C64_scope_refuted : exists g h base so sn latents old proposals data fuel pick g' r,
  wf g /\ acyclic g h /\ with_slash (base ++ "old") = Some so /\ with_slash (base ++ "new") = Some sn /\
  fresh_scope g so /\ fresh_scope g sn /\ apart so sn /\
  bindings g old /\ bindings g (rv_items data) /\ NoDup (map fst (old ++ rv_items data)%list) /\
  bindings g proposals /\ Forall (fun kv => is_rv (snd kv) = true) proposals /\ NoDup (map fst proposals) /\
  incl (map fst proposals) (map fst old) /\ incl latents (map fst old) /\
  mh_ratio fuel pick base latents old proposals data g = (g', Ok r) /\
  exists (sem : nat -> unit -> list nat -> nat) st score, forall noise noise_c noise_o noise_n env_old env_new,
    mh_states sem st noise noise_c noise_o g old proposals data env_old env_new ->
    (exists a, ratio_is sem st score noise g' r a) /\
    forall a pn po qf qr, ratio_is sem st score noise g' r a ->
      sum_is (density sem st score noise_n env_new g) (latents ++ observed data)%list pn ->
      sum_is (density sem st score noise_o env_old g) (latents ++ observed data)%list po ->
      sum_is (fun kv => density_at sem st score noise_o env_old env_new g (fst kv) (snd kv)) proposals qf ->
      sum_is (fun kv => density_at sem st score noise_n env_new env_old g (fst kv) (snd kv)) proposals qr ->
      a <> (pn - po - qf + qr)%R.
Proof. exact mh_scope_refuted. Qed.
Print Assumptions C64_scope_refuted.

Example C64_ratio_constant_demo :
  let old := [(XRV 0, XT 5)] in let props := [(XRV 0, XRV 4)] in let data := [(XRV 1, XT 0)] in
  constant_data data /\ ~ fresh_scope crowded "conditional/" /\ bindings crowded old /\ bindings crowded (rv_items data) /\
  exists r, snd (mh_ratio 30 first_pick "inference/" [XRV 0] old props data crowded) = Ok r /\ length (r_data r) = 1.
Proof.
  cbv zeta. split; [repeat constructor|]. split.
  - intros [_ H]. apply (H (mkrv "conditional/q/" 15 [XT 0] 4) "q/"); [simpl; tauto|reflexivity].
  - split; [repeat constructor; simpl; lia|]. split; [repeat constructor; simpl; lia|]. eexists. split; [vm_compute; reflexivity|reflexivity].
Qed.

(** ** C65: the log joint density is one function of the sample: two calls of
    [_log_joint], at different points of the program, agree whenever the samples
    have the same values, if the model is deterministic given the variables held.

    Missing from the full statement: data that are random variables; for these
    it is false, see below. *)
Theorem C65_one_function_partial : forall g1 h pick scope1 latents sample1 data,
  wf g1 -> acyclic g1 h -> new_scope g1 scope1 ->
  bindings g1 sample1 -> Forall (fun kv => is_rv (snd kv) = false) sample1 ->
  bindings g1 (rv_items data) -> Forall (fun kv => is_rv (snd kv) = false) (rv_items data) ->
  NoDup (map fst (sample1 ++ rv_items data)%list) -> incl latents (map fst sample1) ->
  exists N g1' terms1,
    (forall fuel, N <= fuel -> log_joint fuel pick scope1 latents sample1 data g1 = (g1', Ok terms1)) /\
    forall g2 pick2 scope2 sample2, later g1' g2 -> new_scope g2 scope2 ->
      bindings g2 sample2 -> Forall (fun kv => is_rv (snd kv) = false) sample2 -> map fst sample2 = map fst sample1 ->
      exists N2 g2' terms2,
        (forall fuel, N2 <= fuel -> log_joint fuel pick2 scope2 latents sample2 data g2 = (g2', Ok terms2)) /\
        forall V M (sem : nat -> M -> list V -> V) st noise score,
          settled sem g1 (latents ++ observed data)%list (map fst (sample1 ++ rv_items data)%list) ->
          (forall k y1 y2 v, In (k, y1) sample1 -> In (k, y2) sample2 ->
             given sem st noise g2' y1 v -> given sem st noise g2' y2 v) ->
          exists a, (forall b, sum_is (term_is sem st score noise g2') terms1 b <-> b = a) /\
                    (forall b, sum_is (term_is sem st score noise g2') terms2 b <-> b = a).
Proof. exact two_calls. Qed.
Print Assumptions C65_one_function_partial.

Example C65_one_function_demo :
  let zs := [(XRV 0, XT 7)] in let data := [(XRV 2, XT 4); (XRV 1, XT 0)] in
  new_scope study "inference/sample" /\ bindings study zs /\ bindings study (rv_items data) /\
  NoDup (map fst (zs ++ rv_items data)%list) /\
  exists g1' terms1, log_joint 30 first_pick "inference/sample" [XRV 0] zs data study = (g1', Ok terms1) /\
    length terms1 = 3 /\ later g1' g1' /\ new_scope g1' "inference/sample_1" /\
    forall V M (sem : nat -> M -> list V -> V), (forall n n' vs, sem 0 n vs = sem 0 n' vs) ->
      settled sem study ([XRV 0] ++ observed data)%list (map fst (zs ++ rv_items data)%list).
Proof.
  cbv zeta. split; [apply study_scope; simpl; tauto|]. split; [apply study_bindings; repeat constructor; simpl; tauto|].
  split; [apply study_bindings; repeat constructor; simpl; tauto|].
  split; [simpl; repeat constructor; simpl; intuition discriminate|].
  destruct study_second as [g1' [terms1 H]]. exists g1', terms1. destruct H as [H1 [H2 [H3 H4]]].
  split; [exact H1|]. split; [exact H2|]. split; [exact H3|]. split; [exact H4|]. exact study_settled.
Qed.

(** HMC calls [_log_joint] for the new and the old sample, each with a draw of
    its own of the data that are random variables: a proposal that stays where it
    is can be rejected. *)
Theorem C65_one_function_refuted : exists g h scope1 scope2 latents sample data fuel pick g1 terms1 g2 terms2,
  wf g /\ acyclic g h /\ new_scope g scope1 /\ bindings g sample /\ Forall (fun kv => is_rv (snd kv) = false) sample /\
  bindings g (rv_items data) /\ NoDup (map fst (sample ++ rv_items data)%list) /\ incl latents (map fst sample) /\
  unrelated g (map fst (sample ++ rv_items data)%list) (map snd (rv_items data)) /\
  log_joint fuel pick scope1 latents sample data g = (g1, Ok terms1) /\ new_scope g1 scope2 /\
  log_joint fuel pick scope2 latents sample data g1 = (g2, Ok terms2) /\
  exists (sem : nat -> nat -> list nat -> nat) st noise score,
    settled sem g (latents ++ observed data)%list (map fst (sample ++ rv_items data)%list) /\
    exists a b, (forall c, sum_is (term_is sem st score noise g2) terms1 c <-> c = a) /\
                (forall c, sum_is (term_is sem st score noise g2) terms2 c <-> c = b) /\ a <> b.
Proof. exact two_calls_refuted. Qed.
Print Assumptions C65_one_function_refuted.
