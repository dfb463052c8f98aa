(** * C71: a model is a program, and one run of its graph is one execution *)
From Coq Require Import List Arith Bool ZArith QArith.
From Verif Require Import RVProgram RVProgramSpec RVProgramProofs RVNumberProofs.
Import ListNotations.
Open Scope nat_scope.

(** For every program, what operations compute, noise and feed of random
    variables: building the graph raises exactly the exception that executing the
    program directly raises, and otherwise fetching any variable of the program
    gives its value in that execution, in which random variable number [r] is
    drawn with [noise r] or has the value fed to it. *)
Theorem C71_program : forall (V N : Type) const bin un draw (noise : nat -> N) (feed : list (nat * V)) p,
  mirrored bin ->
  agree const bin un draw noise feed (build_program [] empty p)
    (interpret_program const bin un draw noise (given_to feed) [] 0 p).
Proof. exact program_agrees. Qed.
Print Assumptions C71_program.

(** [a = Normal(0.0, 1.0); b = Normal(2 * a, 1.0); c = a - b; d = 3 < c], with
    values in Z: class 0 adds the noise to its first parameter. *)
Definition ex_const (c : num) (_ : dt) : Z := Qnum (to_q c).
Definition ex_bin (o : bop) (x y : Z) : Z :=
  match o with
  | Add => x + y | Sub => x - y | Mul => x * y
  | Lt => Z.b2z (x <? y) | Gt => Z.b2z (y <? x) | Le => Z.b2z (x <=? y) | Ge => Z.b2z (y <=? x)
  end%Z.
Definition ex_un (o : uop) (x : Z) : Z := match o with Neg => (- x)%Z | Abs => Z.abs x | Item _ => x end.
Definition ex_draw (cls : nat) (n : Z) (l : list Z) : Z := (hd 0 l + n)%Z.
Definition f (z : Z) : expr := ENum (NQ (inject_Z z)).
Definition ex_program : list expr :=
  [ENew 0 (Econs (f 0) (Econs (f 1) Enil));
   ENew 0 (Econs (EBin Mul (ENum (NI 2)) (EVar 0)) (Econs (f 1) Enil));
   EBin Sub (EVar 0) (EVar 1);
   EBin Lt (ENum (NI 3)) (EVar 2)].

Example C71_mirrored : mirrored ex_bin.
Proof. intros x y. split; reflexivity. Qed.

(** Noise 5 and -20: a = 5, b = 10 - 20, c = 15, d is true. *)
Example C71_run : exists g env, build_program [] empty ex_program = Ret (g, env) /\
  map (fetch ex_const ex_bin ex_un ex_draw (fun r => if Nat.eqb r 0 then 5%Z else (-20)%Z) g []) env
  = [Some 5; Some (-10); Some 15; Some 1]%Z /\ map (dtype g) (map (tensor g) env) = [DF32; DF32; DF32; DBool].
Proof. eexists _, _. split; [reflexivity|]. split; reflexivity. Qed.

(** a fed with 7: b = 14 - 20, c = 13. *)
Example C71_fed : exists g env, build_program [] empty ex_program = Ret (g, env) /\
  map (fetch ex_const ex_bin ex_un ex_draw (fun r => if Nat.eqb r 0 then 5%Z else (-20)%Z) g [(VRV 0, 7%Z)]) env
  = [Some 7; Some (-6); Some 13; Some 1]%Z.
Proof. eexists _, _. split; reflexivity. Qed.

(** [1.0 if a else 2.0] raises TypeError, and so does [True + a]; a comparison
    added to a random variable is a ValueError. *)
Definition ex_rv : expr := ENew 0 (Econs (f 0) Enil).
Example C71_condition : build_program [] empty [ex_rv; EIf (EVar 0) (f 1) (f 2)] = TypeError.
Proof. reflexivity. Qed.
Example C71_bool : build_program [] empty [ex_rv; EBin Add (ENum (NB true)) (EVar 0)] = TypeError.
Proof. reflexivity. Qed.
Example C71_types : build_program [] empty [ex_rv; EBin Lt (EVar 0) (f 1); EBin Add (EVar 0) (EVar 1)] = ValueError.
Proof. reflexivity. Qed.
(** Only the branch taken is built: [x if 1 < 2 else 1.0 + undefined]. *)
Example C71_branch : exists g, build_program [] empty
  [ex_rv; EIf (EBin Lt (ENum (NI 1)) (ENum (NI 2))) (EVar 0) (EBin Add (f 1) (EVar 9))]
  = Ret (g, [VRV 0; VRV 0]) /\ length (rvals g) = 1.
Proof. eexists. split; reflexivity. Qed.

(** Operators between two numbers are Python's: exact arithmetic that gives an int
    unless an operand is a float, and comparisons that give a bool. *)
Theorem C71_numbers : forall env g o a b,
  exists c, build env g (EBin o (ENum a) (ENum b)) = Ret (g, VN c) /\ computes o a b c.
Proof. exact numbers. Qed.
Print Assumptions C71_numbers.

(** [-a]. *)
Theorem C71_negation : forall env g a,
  exists c, build env g (EUn Neg (ENum a)) = Ret (g, VN c) /\ (amount c == - amount a)%Q /\ class_of_result [a] c.
Proof. exact negation. Qed.
Print Assumptions C71_negation.

(** [abs(a)]. *)
Theorem C71_absolute : forall env g a,
  exists c, build env g (EUn Abs (ENum a)) = Ret (g, VN c) /\
    (0 <= amount c)%Q /\ (amount c == amount a \/ amount c == - amount a)%Q /\ class_of_result [a] c.
Proof. exact absolute. Qed.
Print Assumptions C71_absolute.

(** A conditional expression on a number builds one branch only, the second if
    and only if the number is 0. *)
Theorem C71_branches : forall env g c a b,
  ((amount c == 0)%Q -> build env g (EIf (ENum c) a b) = build env g b) /\
  (~ (amount c == 0)%Q -> build env g (EIf (ENum c) a b) = build env g a).
Proof. exact branches. Qed.
Print Assumptions C71_branches.

(** An operator between a number and a random variable or tensor of type [d], on
    either side, is a tensor if the number turns into type [d] and [d] is not bool;
    otherwise it raises TypeError. *)
Theorem C71_constants : forall env g i v o c,
  nth_error env i = Some v -> (forall x, v <> VN x) ->
  let d := dtype g (tensor g v) in
  forall e, e = EBin o (EVar i) (ENum c) \/ e = EBin o (ENum c) (EVar i) ->
  (turns_into c d /\ d <> DBool -> exists g' t, build env g e = Ret (g', VT t) /\
     dtype g' t = match o with Add | Sub | Mul => d | _ => DBool end) /\
  (~ (turns_into c d /\ d <> DBool) -> build env g e = TypeError).
Proof. exact constants. Qed.
Print Assumptions C71_constants.

(** A random variable is constructed exactly from one or more parameters of one
    floating point type, which becomes its type; other types raise ValueError. *)
Theorem C71_parameters : forall env g cls l vs ds,
  map (nth_error env) l = map Some vs -> Forall (holds g) vs -> Forall2 (passed_at g) vs ds ->
  (forall d, (d = DF32 \/ d = DF64) -> ds <> [] -> Forall (eq d) ds ->
    exists g' r, build env g (ENew cls (vars l)) = Ret (g', VRV r) /\ r = length (rvals g) /\
      dtype g' (nth r (rvals g') 0) = d) /\
  (ds = [] -> build env g (ENew cls (vars l)) = TypeError) /\
  (ds <> [] -> ~ (exists d, (d = DF32 \/ d = DF64) /\ Forall (eq d) ds) ->
    build env g (ENew cls (vars l)) = ValueError).
Proof. exact parameters. Qed.
Print Assumptions C71_parameters.

(** A random variable of type float32 with an int and a float, and as a parameter
    beside a float and beside an int. *)
Example C71_typed : exists g env, build_program [] empty [ex_rv; ENum (NI 2); ENum (NQ (1 # 2))] = Ret (g, env) /\
  (forall x, nth 0 env (VN (NI 0)) <> VN x) /\ dtype g (tensor g (nth 0 env (VN (NI 0)))) = DF32 /\
  turns_into (NI 2) DF32 /\ turns_into (NQ (1 # 2)) DF32 /\ ~ turns_into (NB true) DF32 /\
  Forall (holds g) env /\ Forall2 (passed_at g) env [DF32; DInt; DF32].
Proof.
  eexists _, _. split; [reflexivity|]. split; [cbn; discriminate|]. split; [reflexivity|].
  split; [right; left; split; [eexists; reflexivity|discriminate]|].
  split; [right; right; split; [eexists; reflexivity|left; reflexivity]|].
  split; [intros [[_ H]|[[[? H] _]|[[? H] _]]]; discriminate|].
  split; [repeat constructor|].
  constructor; [exact (passed_rv _ 0)|]. constructor; [constructor|]. constructor; [constructor|]. constructor.
Qed.
