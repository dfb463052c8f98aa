(** * Proofs for C71: numbers, branches and types *)
From Coq Require Import List Arith Bool ZArith QArith Lia Lqa.
From Verif Require Import RVProgram RVProgramSpec.
Import ListNotations.
Open Scope nat_scope.

Lemma amount_q c : amount c = to_q c.
Proof. destruct c as [[]| |]; reflexivity. Qed.

Lemma float_z c : (is_float_num c <-> to_z c = None).
Proof.
  destruct c as [b|z|q]; cbn; split; intros H; try discriminate; try reflexivity;
    try (destruct H as [? H]; discriminate H); exists q; reflexivity.
Qed.
Lemma to_z_q c z : to_z c = Some z -> (to_q c == inject_Z z)%Q.
Proof. destruct c; cbn; intros E; inversion E; subst; reflexivity. Qed.

Lemma class_arith a b (x : Z -> Z -> Z) (y : Q -> Q -> Q) :
  class_of_result [a; b]
    (match to_z a, to_z b with Some u, Some v => NI (x u v) | _, _ => NQ (y (to_q a) (to_q b)) end).
Proof.
  split; intros H.
  - destruct (to_z a) eqn:Ea; [destruct (to_z b) eqn:Eb|]; try (eexists; reflexivity).
    exfalso. inversion H as [? ? F|? ? F]; subst.
    + apply float_z in F. congruence.
    + inversion F as [? ? F'|? ? F']; subst; [apply float_z in F'; congruence|inversion F'].
  - destruct (to_z a) eqn:Ea; [destruct (to_z b) eqn:Eb; [eexists; reflexivity|]|]; exfalso; apply H.
    + apply Exists_cons_tl, Exists_cons_hd, float_z, Eb.
    + apply Exists_cons_hd, float_z, Ea.
Qed.

Lemma lt_tells x y : tells (x < y)%Q (NB (negb (Qle_bool y x))).
Proof.
  eexists; split; [reflexivity|]. rewrite negb_true_iff, <- not_true_iff_false, Qle_bool_iff. split; intros H.
  - apply Qnot_le_lt, H.
  - apply Qlt_not_le, H.
Qed.
Lemma le_tells x y : tells (x <= y)%Q (NB (Qle_bool x y)).
Proof. eexists; split; [reflexivity|]. apply Qle_bool_iff. Qed.

Lemma num_bin_computes o a b : computes o a b (num_bin o a b).
Proof.
  destruct o; cbn [computes num_bin]; rewrite ?amount_q;
    try apply lt_tells; try apply le_tells; (split; [|apply class_arith]);
    destruct (to_z a) eqn:Ea; try reflexivity; destruct (to_z b) eqn:Eb; try reflexivity;
    rewrite (to_z_q _ _ Ea), (to_z_q _ _ Eb); cbn [to_q].
  - rewrite inject_Z_plus. reflexivity.
  - unfold Zminus, Qminus. rewrite inject_Z_plus, inject_Z_opp. reflexivity.
  - rewrite inject_Z_mult. reflexivity.
Qed.

Lemma numbers env g o a b :
  exists c, build env g (EBin o (ENum a) (ENum b)) = Ret (g, VN c) /\ computes o a b c.
Proof. exists (num_bin o a b). split; [reflexivity|apply num_bin_computes]. Qed.

Lemma class_un a (x : Z -> Z) (y : Q) :
  class_of_result [a] (match to_z a with Some u => NI (x u) | None => NQ y end).
Proof.
  split; intros H; destruct (to_z a) eqn:Ea; try (eexists; reflexivity); exfalso.
  - inversion H as [? ? F|? ? F]; subst; [apply float_z in F; congruence|inversion F].
  - apply H, Exists_cons_hd, float_z, Ea.
Qed.

Lemma negation env g a :
  exists c, build env g (EUn Neg (ENum a)) = Ret (g, VN c) /\ (amount c == - amount a)%Q /\ class_of_result [a] c.
Proof.
  eexists. split; [reflexivity|]. split; [|apply (class_un a (fun x => (- x)%Z))].
  rewrite !amount_q. destruct (to_z a) eqn:Ea; [|reflexivity].
  rewrite (to_z_q _ _ Ea). cbn [to_q]. rewrite inject_Z_opp. reflexivity.
Qed.

Lemma absolute env g a :
  exists c, build env g (EUn Abs (ENum a)) = Ret (g, VN c) /\
    (0 <= amount c)%Q /\ (amount c == amount a \/ amount c == - amount a)%Q /\ class_of_result [a] c.
Proof.
  eexists. split; [reflexivity|]. split; [|split; [|apply (class_un a Z.abs)]]; rewrite !amount_q.
  - destruct (to_z a) eqn:Ea; cbn [to_q].
    + change 0%Q with (inject_Z 0). rewrite <- Zle_Qle. apply Z.abs_nonneg.
    + destruct (Qle_bool 0 (to_q a)) eqn:E; [apply Qle_bool_iff, E|].
      apply not_true_iff_false in E. rewrite Qle_bool_iff in E. apply Qnot_le_lt in E. lra.
  - destruct (to_z a) eqn:Ea; cbn [to_q].
    + rewrite (to_z_q _ _ Ea). destruct (Z.abs_eq_or_opp z) as [-> | ->]; [left; reflexivity|right; rewrite inject_Z_opp; reflexivity].
    + destruct (Qle_bool 0 (to_q a)); [left|right]; reflexivity.
Qed.

Lemma no_items env g a i : build env g (EUn (Item i) (ENum a)) = TypeError.
Proof. reflexivity. Qed.

Lemma branches env g c a b :
  ((amount c == 0)%Q -> build env g (EIf (ENum c) a b) = build env g b) /\
  (~ (amount c == 0)%Q -> build env g (EIf (ENum c) a b) = build env g a).
Proof.
  rewrite amount_q. cbn [build bind]. unfold truth. split; intros H.
  - apply Qeq_bool_iff in H. rewrite H. reflexivity.
  - rewrite <- Qeq_bool_iff in H. apply not_true_is_false in H. rewrite H. reflexivity.
Qed.

Lemma fits_turns c d : fits c d = true <-> turns_into c d.
Proof.
  unfold turns_into, is_bool_num, is_int_num, is_float_num.
  destruct c as [b|z|q], d; cbn; split; intros H; try discriminate; try reflexivity;
    try (left; split; [eexists; reflexivity|reflexivity]);
    try (right; left; split; [eexists; reflexivity|discriminate]);
    try (right; right; split; [eexists; reflexivity|tauto]);
    exfalso; destruct H as [[[? H] H'] | [[[? H] H'] | [[? H] H']]]; try discriminate H; try discriminate H';
    try (apply H'; reflexivity); destruct H'; discriminate.
Qed.

Lemma bool_type d : dt_eqb d DBool = true <-> d = DBool.
Proof. destruct d; cbn; split; congruence. Qed.

(** A number on either side of a tensor. *)
Lemma constants env g i v o c :
  nth_error env i = Some v -> (forall x, v <> VN x) ->
  let d := dtype g (tensor g v) in
  forall e, e = EBin o (EVar i) (ENum c) \/ e = EBin o (ENum c) (EVar i) ->
  (turns_into c d /\ d <> DBool -> exists g' t, build env g e = Ret (g', VT t) /\
     dtype g' t = match o with Add | Sub | Mul => d | _ => DBool end) /\
  (~ (turns_into c d /\ d <> DBool) -> build env g e = TypeError).
Proof.
  intros Hi Hv d e He.
  assert (Last : forall gg k n, dtype (add_node gg (mknode k n d)) (length (nodes gg)) = d).
  { intros gg k n. unfold dtype, add_node; cbn. rewrite nth_error_app2, Nat.sub_diag by lia. reflexivity. }
  assert (Last' : forall gg k n d', dtype (add_node gg (mknode k n d')) (length (nodes gg)) = d').
  { intros gg k n d'. unfold dtype, add_node; cbn. rewrite nth_error_app2, Nat.sub_diag by lia. reflexivity. }
  assert (B : build env g e = if fits c d then if dt_eqb d DBool then TypeError else build env g e else TypeError).
  { destruct He as [-> | ->]; cbn [build bind]; rewrite Hi; cbn [bind]; unfold binary;
      (destruct v as [x|t|r]; [exfalso; apply (Hv x); reflexivity| |]);
      unfold tensor_rop, tensor_op, convert; fold d; cbn [tensor] in *;
      destruct (is_cmp o); destruct (fits c d) eqn:Ef; cbn [bind]; try rewrite Ef; try reflexivity;
      destruct (dt_eqb d DBool) eqn:Eb; try reflexivity; unfold d in *; cbn [tensor] in *;
      try rewrite Ef; cbn [bind]; try rewrite Eb; reflexivity. }
  split.
  - intros [H1 H2]. apply fits_turns in H1.
    assert (Eb : dt_eqb d DBool = false) by (apply not_true_is_false; rewrite bool_type; exact H2).
    clear B. unfold d in *. destruct He as [-> | ->]; cbn [build bind]; rewrite Hi; cbn [bind]; unfold binary;
      (destruct v as [x|t|r]; [exfalso; apply (Hv x); reflexivity| |]);
      unfold tensor_rop, tensor_op, convert; cbn [tensor] in *;
      rewrite ?H1; cbn [bind]; rewrite ?Eb; destruct o; cbn [is_cmp bind mirror];
      rewrite ?H1; cbn [bind]; rewrite ?Eb; eexists _, _; (split; [reflexivity|]); apply Last'.
  - intros H. rewrite B. destruct (fits c d) eqn:Ef; [|reflexivity]. destruct (dt_eqb d DBool) eqn:Eb; [reflexivity|].
    exfalso. apply H. split; [apply fits_turns, Ef|]. intros F. apply bool_type in F. congruence.
Qed.

Lemma own_fits c : fits c (own_type c) = true.
Proof. destruct c; reflexivity. Qed.

Lemma dtype_kept g n t : t < length (nodes g) -> dtype (add_node g n) t = dtype g t.
Proof. intros H. unfold dtype, add_node; cbn. rewrite nth_error_app1 by exact H. reflexivity. Qed.

Lemma convert_all_types l : forall g,
  Forall (holds g) l ->
  exists g' ts, convert_all g l = Ret (g', ts) /\ rvals g' = rvals g /\
    (forall t, t < length (nodes g) -> dtype g' t = dtype g t) /\ length (nodes g) <= length (nodes g') /\
    forall ds, Forall2 (passed_at g) l ds -> map (dtype g') ts = ds.
Proof.
  induction l as [|v l IH]; intros g H.
  - exists g, []. repeat split; try lia; auto. intros ds F. inversion F. reflexivity.
  - inversion H as [|? ? Hv Hl]; subst.
    assert (C : exists g1 t, convert g None v = Ret (g1, t) /\ rvals g1 = rvals g /\
        (forall u, u < length (nodes g) -> dtype g1 u = dtype g u) /\ length (nodes g) <= length (nodes g1) /\
        t < length (nodes g1) /\ forall d, passed_at g v d -> dtype g1 t = d).
    { destruct v as [c|t|r]; cbn [convert].
      - rewrite own_fits. eexists _, _. split; [reflexivity|]. split; [reflexivity|].
        split; [intros u Hu; apply dtype_kept, Hu|]. cbn. rewrite app_length. cbn.
        split; [lia|]. split; [lia|]. intros d P. unfold dtype, add_node; cbn.
        rewrite nth_error_app2, Nat.sub_diag by lia. cbn. inversion P; reflexivity.
      - exists g, t. repeat split; auto. intros d P. inversion P. reflexivity.
      - exists g, (nth r (rvals g) 0). repeat split; auto. intros d P. inversion P. reflexivity. }
    destruct C as (g1 & t & E1 & R1 & D1 & L1 & T1 & P1).
    assert (H1 : Forall (holds g1) l).
    { apply Forall_forall. intros w Hw. rewrite Forall_forall in Hl. specialize (Hl _ Hw).
      destruct w as [c|u|r]; cbn in *; [exact I|lia|rewrite R1; lia]. }
    destruct (IH g1 H1) as (g' & ts & E & R2 & D2 & L2 & P2).
    exists g', (t :: ts). cbn [convert_all]. rewrite E1. cbn [bind]. rewrite E. cbn [bind].
    split; [reflexivity|]. split; [congruence|]. split; [intros u Hu; rewrite D2 by lia; apply D1, Hu|].
    split; [lia|]. intros ds F. inversion F as [|? d ? ds' Pd Pl]; subst. cbn [map]. f_equal.
    + rewrite D2 by exact T1. apply P1, Pd.
    + apply P2. clear - Pl R1 D1 Hl. induction Pl as [|w d l ds P Pl IH]; [constructor|].
      inversion Hl as [|? ? Hw Hl']; subst. constructor; [|apply IH, Hl'].
      inversion P as [| | |u E|r E]; subst; try constructor; cbn in Hw.
      * rewrite <- (D1 u Hw). constructor.
      * rewrite <- (D1 _ Hw), <- R1. constructor.
Qed.

Lemma build_vars env g l : forall vs,
  map (nth_error env) l = map Some vs -> build_args env g (vars l) = Ret (g, vs).
Proof.
  induction l as [|i l IH]; intros [|v vs] H; cbn in *; try discriminate; [reflexivity|].
  inversion H as [[H1 H2]]. rewrite H1. cbn [bind]. rewrite (IH vs H2). reflexivity.
Qed.

Lemma dt_eqb_eq a b : dt_eqb a b = true <-> a = b.
Proof. destruct a, b; cbn; split; congruence. Qed.

(** Parameters must be of one floating point type. *)
Lemma parameters env g cls l vs ds :
  map (nth_error env) l = map Some vs -> Forall (holds g) vs -> Forall2 (passed_at g) vs ds ->
  (forall d, (d = DF32 \/ d = DF64) -> ds <> [] -> Forall (eq d) ds ->
    exists g' r, build env g (ENew cls (vars l)) = Ret (g', VRV r) /\ r = length (rvals g) /\
      dtype g' (nth r (rvals g') 0) = d) /\
  (ds = [] -> build env g (ENew cls (vars l)) = TypeError) /\
  (ds <> [] -> ~ (exists d, (d = DF32 \/ d = DF64) /\ Forall (eq d) ds) ->
    build env g (ENew cls (vars l)) = ValueError).
Proof.
  intros Hl Hh Hp. cbn [build]. rewrite (build_vars env g l vs Hl). cbn [bind]. unfold construct.
  destruct (convert_all_types vs g Hh) as (g' & ts & E & R & D & L & P).
  rewrite E. cbn [bind]. specialize (P ds Hp). clear Hp. subst ds.
  destruct ts as [|t ts].
  { cbn. split; [|split]; try congruence; intros; exfalso; congruence. }
  split; [|split].
  - intros d Hd _ F. cbn [map] in F. inversion F as [|? ? E1 F2]; subst.
    assert (A : is_float (dtype g' t) && forallb (fun u => dt_eqb (dtype g' t) (dtype g' u)) (t :: ts) = true).
    { apply andb_true_iff. split; [destruct Hd as [-> | ->]; reflexivity|].
      apply forallb_forall. intros u Hu. apply dt_eqb_eq. rewrite Forall_forall in F. apply F.
      change (dtype g' t :: map (dtype g') ts) with (map (dtype g') (t :: ts)). apply in_map, Hu. }
    rewrite A. eexists _, _. split; [reflexivity|]. split; [congruence|]. cbn [rvals nodes].
    rewrite app_nth2, Nat.sub_diag by lia. cbn. unfold dtype at 1; cbn.
    rewrite nth_error_app2, Nat.sub_diag by lia. reflexivity.
  - discriminate.
  - intros _ N.
    destruct (is_float (dtype g' t) && forallb (fun u => dt_eqb (dtype g' t) (dtype g' u)) (t :: ts)) eqn:A; [|reflexivity].
    exfalso. apply N. apply andb_true_iff in A. destruct A as [A1 A2]. exists (dtype g' t). split.
    + destruct (dtype g' t); try discriminate; auto.
    + apply Forall_forall. intros d Hd. change (In d (map (dtype g') (t :: ts))) in Hd.
      apply in_map_iff in Hd. destruct Hd as (u & <- & Hu). rewrite forallb_forall in A2. apply dt_eqb_eq, A2, Hu.
Qed.
