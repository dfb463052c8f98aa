(** * Conditional inference, and examples for C82. *)
From Coq Require Import List Arith Bool Lia.
From Verif Require Import Graph GraphSpec VI VISpec VIProofs Schedule.
From Verif Require Import Compose ComposeSpec ComposeProofs.
Import ListNotations.
Set Bullet Behavior "Strict Subproofs".

Theorem conditional : forall V D (initial : D -> nat -> V) latent g pick fuel trainables data ks p t m h m' out v,
  single_producer g -> (forall v w, In v trainables -> In w trainables -> vref g v = vref g w -> v = w) -> enough g <= fuel ->
  default_var_list latent g pick fuel trainables data = Some ks -> plain (training (V := V) (D := D) p ks t) ->
  exec initial [training p ks t] m h m' out -> (forall act, In act h -> ~ initialises act v) ->
  In v trainables -> v <> t ->
  (forall x, (exists q, In (x, q) latent) \/ (exists z, In (z, x) latent) \/ In (x, (true, false)) data -> ~ up g anything (value g x) (vref g v)) ->
  m' v = m v.
Proof.
  intros V D initial latent g pick fuel trainables data ks p t m h m' out v S Inj F L P E NI Hv Nt N.
  destruct (default_var_list_spec latent g pick fuel trainables data S Inj F) as (ks' & L' & _ & Q). rewrite L in L'. inversion L'; subst ks'. clear L'.
  apply (frame initial [training p ks t] m h m' out v); [|exact E| |exact NI].
  - intros a o Ho. destruct a as [|a]; [|destruct a; discriminate]. inversion Ho; subst. exact P.
  - intros a d l o _ Ho (y & O & Ey). destruct a as [|a]; [|destruct a; discriminate]. inversion Ho; subst o. destruct O as [->|(k & Hk & ->)].
    + cbn in Ey. contradiction.
    + cbn in Ey. subst k. apply Q in Hk. destruct Hk as (_ & x & U & X). exact (N x X U).
Qed.

(** Variable 5; qbeta is random variable 21, with value 1, computed from 5; qz is 22, with
    value 2, computed from 1; z is 23, x is 24, beta is 26. *)
Definition structured : graph := {| ops := [{| op_in := []; op_out := [5] |}; {| op_in := [5]; op_out := [1] |}; {| op_in := [1]; op_out := [2] |};
  {| op_in := []; op_out := [3] |}; {| op_in := []; op_out := [6] |}; {| op_in := [3; 6]; op_out := [4] |}]; value := fun q => q - 20; vref := fun v => v |}.

(** The state after a session run of an optimization. *)
Definition after (o : object nat unit) (m : memory nat) (l : list vop) : sstate vop nat :=
  match o_prog o with
  | Variational p ks => match run vop_dec (rename (o_at o) (vi_graph (p tt) ks)) (start m) l with Some s => s | None => start m end
  | Sampling _ _ _ => start m
  end.

Lemma after_step : forall objs a p ks at_ m l, nth_error objs a = Some (mkobject (Variational p ks) at_) ->
  run vop_dec (rename at_ (vi_graph (p tt) ks)) (start m) l <> None ->
  finished (rename at_ (vi_graph (p tt) ks)) (after (mkobject (Variational p ks) at_) m l) ->
  forall r, r = [(a, fetched (after (mkobject (Variational p ks) at_) m l) VIncrement ++ fetched (after (mkobject (Variational p ks) at_) m l) VLoss)] ->
  step (fun (_ : unit) _ => 0) objs m (Update a tt (Once l)) (s_mem (after (mkobject (Variational p ks) at_) m l)) r.
Proof.
  intros objs a p ks at_ m l Ho R Fin r ->. set (s := after (mkobject (Variational p ks) at_) m l). apply (step_variational _ objs m a tt l p ks at_ s Ho). split; [|exact Fin].
  unfold s, after. cbn [o_prog o_at]. destruct (run _ _ _ l); [reflexivity|contradiction].
Qed.

(** Operations whose number is not there. *)
Lemma adds_finished : forall k src t s, (s_out s VarT <> None) -> s_out s (VarTheta k) <> None -> s_out s (VBody 0) <> None ->
  (src <> None -> s_out s (VBody 1) <> None) -> s_out s (VUpdate k) <> None -> s_out s VIncrement <> None -> s_out s VLoss <> None -> s_out s VTrain <> None ->
  finished (rename (o_at (training (adds k src) [k] t)) (vi_graph (adds k src tt) [k])) s.
Proof.
  intros k src t s H1 H2 H3 H4 H5 H6 H7 H8 i G. destruct i as [|j|j|j| | |]; auto.
  - unfold rename, vi_graph in G. destruct (existsb (Nat.eqb j) [k]) eqn:E; [|destruct G; reflexivity]. apply existsb_in in E. destruct E as [->|[]]. exact H2.
  - destruct j as [|[|j]].
    + exact H3.
    + apply H4. intros ->. destruct G. reflexivity.
    + destruct G. unfold rename, vi_graph, adds. cbn. reflexivity.
  - unfold rename, vi_graph in G. destruct (existsb (Nat.eqb j) [k]) eqn:E; [|destruct G; reflexivity]. apply existsb_in in E. destruct E as [->|[]]. exact H5.
Qed.

Lemma adds_plain : forall k src ks t, plain (training (adds k src) ks t).
Proof.
  intros k src ks t d j n. cbn. destruct j as [|[|j]]; destruct src; intros E; try discriminate; inversion E; subst; cbn; eauto.
Qed.

Lemma edge_structured : forall c b, edge structured c b -> (c = 5 /\ b = 1) \/ (c = 1 /\ b = 2) \/ (c = 3 /\ b = 4) \/ (c = 6 /\ b = 4).
Proof.
  intros c b (o & Ho & Hc & Hb). cbn in Ho. destruct Ho as [<-|[<-|[<-|[<-|[<-|[<-|[]]]]]]]; cbn in Hc, Hb; lia.
Qed.

Lemma up_structured : forall b a, up structured anything b a -> a = b \/ (b = 1 /\ a = 5) \/ (b = 2 /\ (a = 1 \/ a = 5)) \/ (b = 4 /\ (a = 3 \/ a = 6)).
Proof.
  intros b a U. induction U as [b|b c a _ E U IH]; [auto|]. apply edge_structured in E. lia.
Qed.

Lemma fixed_refuted : exists g latent data beta qbeta v p ks t (m m' : memory nat) l out,
  single_producer g /\ In (beta, (true, true)) data /\ up g anything (value g qbeta) (vref g v) /\
  (forall x, (exists q, In (x, q) latent) \/ (exists k, In (x, k) data) -> ~ up g anything (value g x) (vref g v)) /\
  (forall z, ~ In (z, qbeta) latent) /\
  default_var_list latent g (fun _ => 0) (enough g) [v] data = Some ks /\ plain (training p ks t) /\ v <> t /\
  exec (fun (_ : unit) _ => 0) [training p ks t] m [Update 0 tt l] m' out /\ m' v <> m v.
Proof.
  exists structured, [(23, 22)], [(24, (true, false)); (26, (true, true))], 26, 21, 5, (adds 5 None), [5], 2, (fun _ => 0).
  pose (l := [VarT; VarTheta 5; VBody 0; VUpdate 5; VIncrement; VLoss; VTrain]).
  pose (s := after (training (adds 5 None) [5] 2) (fun _ => 0) l).
  exists (s_mem s), (Once l), ([(0, [1; 1])] ++ []).
  split; [|split; [|split; [|split; [|split; [|split; [|split; [|split; [|split]]]]]]]].
  - intros o1 o2 t H1 H2. cbn in H1, H2. destruct H1 as [<-|[<-|[<-|[<-|[<-|[<-|[]]]]]]]; destruct H2 as [<-|[<-|[<-|[<-|[<-|[<-|[]]]]]]]; auto; cbn; intros [<-|[]] [E|[]]; discriminate.
  - right. left. reflexivity.
  - apply (up_step structured anything 1 5 5); [exact Logic.I| |apply up_refl]. exists {| op_in := [5]; op_out := [1] |}. cbn. auto.
  - intros x Hx U. assert (X : x = 23 \/ x = 24 \/ x = 26).
    { destruct Hx as [(q & [E|[]])|(k & [E|[E|[]]])]; inversion E; auto. }
    apply up_structured in U. cbn in U. lia.
  - intros z [E|[]]. discriminate.
  - reflexivity.
  - apply adds_plain.
  - discriminate.
  - apply (exec_cons _ _ _ _ (s_mem s)); [|apply exec_nil]. apply (after_step [training (adds 5 None) [5] 2] 0 (adds 5 None) [5] (o_at (training (adds 5 None) [5] 2)) (fun _ => 0) l);
      [reflexivity|vm_compute; discriminate| |vm_compute; reflexivity].
    apply (adds_finished 5 None 2); [vm_compute; discriminate|vm_compute; discriminate|vm_compute; discriminate|intros H; contradiction|vm_compute; discriminate|vm_compute; discriminate|vm_compute; discriminate|vm_compute; discriminate].
  - vm_compute. discriminate.
Qed.

(** Two inferences that share nothing, in two orders. *)
Lemma alone_apart : forall a b o o' x, nth_error alone a = Some o -> nth_error alone b = Some o' -> a <> b -> infers o' x -> ~ depends o x.
Proof.
  assert (C : forall c o x, nth_error alone c = Some o -> depends o x -> c = 0 /\ (x = 0 \/ x = 2) \/ c = 1 /\ (x = 1 \/ x = 3)).
  { intros c o x Ho Dx. destruct c as [|[|c]]; [| |destruct c; discriminate]; inversion Ho; subst o; clear Ho.
    - left. split; [reflexivity|]. destruct Dx as [(y & [->|(k & [<-|[]] & ->)] & ->)|(d & k & n & y & (n' & E & ->) & Ky & ->)]; cbn; auto.
      exfalso. destruct k as [|[|k]]; cbn in E; try discriminate. inversion E; subst. discriminate.
    - right. split; [reflexivity|]. destruct Dx as [(y & [->|(k & [<-|[]] & ->)] & ->)|(d & k & n & y & (n' & E & ->) & Ky & ->)]; cbn; auto.
      exfalso. destruct k as [|[|k]]; cbn in E; try discriminate. inversion E; subst. discriminate. }
  intros a b o o' x Ho Ho' Nab Ix Dx. pose proof (C a o x Ho Dx). pose proof (C b o' x Ho' (or_introl Ix)). lia.
Qed.

Definition the_objects (objs : list (object nat unit)) : Prop := forall a o, nth_error objs a = Some o -> plain o.
Lemma alone_plain : the_objects alone.
Proof. intros a o Ho. destruct a as [|[|a]]; [| |destruct a; discriminate]; inversion Ho; apply adds_plain. Qed.
Lemma conditioned_plain : the_objects conditioned.
Proof. intros a o Ho. destruct a as [|[|a]]; [| |destruct a; discriminate]; inversion Ho; apply adds_plain. Qed.

Definition line (l : schedule) : list vop := match l with Once l => l | Twice _ _ => [] end.
Definition then_ (o : object nat unit) (l : schedule) (m : memory nat) : memory nat := s_mem (after o m (line l)).

Lemma step0 : forall objs m, nth_error objs 0 = Some (training (adds 0 None) [0] 2) ->
  step (fun (_ : unit) _ => 0) objs m (Update 0 tt order0) (then_ (training (adds 0 None) [0] 2) order0 m) [(0, [S (m 2); 1])].
Proof.
  intros objs m Ho. apply (after_step objs 0 (adds 0 None) [0] (o_at (training (adds 0 None) [0] 2)) m (line order0)); [exact Ho|vm_compute; discriminate| |vm_compute; reflexivity].
  apply (adds_finished 0 None 2); try (vm_compute; discriminate). intros H; contradiction.
Qed.

Lemma step1 : forall objs m, nth_error objs 1 = Some (training (adds 1 None) [1] 3) ->
  step (fun (_ : unit) _ => 0) objs m (Update 1 tt order1a) (then_ (training (adds 1 None) [1] 3) order1a m) [(1, [S (m 3); 1])].
Proof.
  intros objs m Ho. apply (after_step objs 1 (adds 1 None) [1] (o_at (training (adds 1 None) [1] 3)) m (line order1a)); [exact Ho|vm_compute; discriminate| |vm_compute; reflexivity].
  apply (adds_finished 1 None 3); try (vm_compute; discriminate). intros H; contradiction.
Qed.

Lemma step_conditioned : forall m, 
  step (fun (_ : unit) _ => 0) conditioned m (Update 1 tt order1) (then_ (training (adds 1 (Some 1)) [1] 3) order1 m) [(1, [S (m 3); m 0])].
Proof.
  intros m. apply (after_step conditioned 1 (adds 1 (Some 1)) [1] (o_at (training (adds 1 (Some 1)) [1] 3)) m (line order1)); [reflexivity|vm_compute; discriminate| |vm_compute; reflexivity].
  apply (adds_finished 1 (Some 1) 3); vm_compute; discriminate.
Qed.

Lemma alone_runs : exists m1 m2 out1 out2,
  exec (fun (_ : unit) _ => 0) alone (fun _ => 0) [Update 0 tt order0; Update 1 tt order1a; Update 0 tt order0] m1 out1 /\
  exec (fun (_ : unit) _ => 0) alone (fun _ => 0) [Update 1 tt order1a; Update 0 tt order0; Update 0 tt order0] m2 out2 /\
  map m1 [0; 1; 2; 3; 4] = [2; 1; 2; 1; 0] /\ map m2 [0; 1; 2; 3; 4] = [2; 1; 2; 1; 0] /\
  out1 = [(0, [1; 1]); (1, [1; 1]); (0, [2; 1])] /\ out2 = [(1, [1; 1]); (0, [1; 1]); (0, [2; 1])].
Proof.
  eexists _, _, _, _. split; [|split].
  - eapply exec_cons; [apply step0; reflexivity|]. eapply exec_cons; [apply step1; reflexivity|]. eapply exec_cons; [apply step0; reflexivity|]. apply exec_nil.
  - eapply exec_cons; [apply step1; reflexivity|]. eapply exec_cons; [apply step0; reflexivity|]. eapply exec_cons; [apply step0; reflexivity|]. apply exec_nil.
  - repeat split; vm_compute; reflexivity.
Qed.

Lemma conditioned_runs : exists m1 m2 out1 out2,
  exec (fun (_ : unit) _ => 0) conditioned (fun _ => 0) [Update 0 tt order0; Update 1 tt order1; Update 0 tt order0; Update 1 tt order1] m1 out1 /\
  exec (fun (_ : unit) _ => 0) conditioned (fun _ => 0) [Update 0 tt order0; Init tt None; Update 1 tt order1] m2 out2 /\
  map m1 [0; 1; 2; 3; 4] = [2; 3; 2; 2; 0] /\ map m2 [0; 1; 2; 3; 4] = [0; 0; 0; 1; 0] /\
  out1 = [(0, [1; 1]); (1, [1; 1]); (0, [2; 1]); (1, [2; 2])] /\ out2 = [(0, [1; 1]); (1, [1; 0])].
Proof.
  eexists _, _, _, _. split; [|split].
  - eapply exec_cons; [apply step0; reflexivity|]. eapply exec_cons; [apply step_conditioned|]. eapply exec_cons; [apply step0; reflexivity|]. eapply exec_cons; [apply step_conditioned|]. apply exec_nil.
  - eapply exec_cons; [apply step0; reflexivity|]. eapply exec_cons; [apply step_init|]. eapply exec_cons; [apply step_conditioned|]. apply exec_nil.
  - repeat split; vm_compute; reflexivity.
Qed.

Lemma conditioned_counts : forall a o, nth_error conditioned a = Some o ->
  counts_by o S /\ (forall b o', nth_error conditioned b = Some o' -> b <> a -> ~ infers o' (o_at o v_t)) /\
  (forall y, own o y -> o_at o y = o_at o v_t -> y = v_t).
Proof.
  assert (C : forall c o x, nth_error conditioned c = Some o -> infers o x -> c = 0 /\ (x = 0 \/ x = 2) \/ c = 1 /\ (x = 1 \/ x = 3)).
  { intros c o x Ho Dx. destruct c as [|[|c]]; [| |destruct c; discriminate]; inversion Ho; subst o; clear Ho;
      destruct Dx as (y & [->|(k & [<-|[]] & ->)] & ->); cbn; auto. }
  intros a o Ho. destruct a as [|[|a]]; [| |destruct a; discriminate]; pose proof Ho as Ho'; inversion Ho'; subst o; clear Ho'; (split; [|split]).
  - intros d v vs. reflexivity.
  - intros b o' Hb Nb Ix. pose proof (C b o' _ Hb Ix) as Q. cbn in Q. lia.
  - intros y [->|(k & [<-|[]] & ->)]; cbn; [reflexivity|discriminate].
  - intros d v vs. reflexivity.
  - intros b o' Hb Nb Ix. pose proof (C b o' _ Hb Ix) as Q. cbn in Q. lia.
  - intros y [->|(k & [<-|[]] & ->)]; cbn; [reflexivity|discriminate].
Qed.

(** z is 23, qz is 27 with value 7, computed from variable 8; otherwise as above. *)
Definition separate : graph := {| ops := [{| op_in := []; op_out := [5] |}; {| op_in := [5]; op_out := [1] |}; {| op_in := []; op_out := [8] |}; {| op_in := [8]; op_out := [7] |};
  {| op_in := []; op_out := [3] |}; {| op_in := []; op_out := [6] |}; {| op_in := [3; 6]; op_out := [4] |}]; value := fun q => q - 20; vref := fun v => v |}.

Lemma separate_fixed : single_producer separate /\
  default_var_list [(23, 27)] separate (fun _ => 0) (enough separate) [5; 8] [(24, (true, false)); (26, (true, true))] = Some [8] /\
  plain (training (adds 8 None) [8] 2) /\
  (forall x, (exists q, In (x, q) [(23, 27)]) \/ (exists z, In (z, x) [(23, 27)]) \/ In (x, (true, false)) [(24, (true, false)); (26, (true, true))] ->
     ~ up separate anything (value separate x) (vref separate 5)).
Proof.
  split; [|split; [|split]].
  - intros o1 o2 t H1 H2. cbn in H1, H2. destruct H1 as [<-|[<-|[<-|[<-|[<-|[<-|[<-|[]]]]]]]]; destruct H2 as [<-|[<-|[<-|[<-|[<-|[<-|[<-|[]]]]]]]]; auto; cbn; intros [<-|[]] [E|[]]; discriminate.
  - reflexivity.
  - apply adds_plain.
  - assert (Ed : forall c b, edge separate c b -> (c = 5 /\ b = 1) \/ (c = 8 /\ b = 7) \/ (c = 3 /\ b = 4) \/ (c = 6 /\ b = 4)).
    { intros c b (o & Ho & Hc & Hb). cbn in Ho. destruct Ho as [<-|[<-|[<-|[<-|[<-|[<-|[<-|[]]]]]]]]; cbn in Hc, Hb; lia. }
    assert (U5 : forall b a, up separate anything b a -> a = 5 -> b = 5 \/ b = 1).
    { intros b a U. induction U as [b|b c a _ E U IH]; [auto|]. intros Ea. apply Ed in E. specialize (IH Ea). lia. }
    intros x Hx U. assert (X : x = 23 \/ x = 27 \/ x = 24).
    { destruct Hx as [(q & [E|[]])|[(z & [E|[]])|[E|[E|[]]]]]; inversion E; auto. }
    pose proof (U5 _ _ U eq_refl) as Q. cbn in Q. lia.
Qed.
