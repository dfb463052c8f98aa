(** * Densities of the families, vocabulary for C32-C34. *)
From Coq Require Import Reals List.
From Verif Require Import ConjLogProb.
Import ListNotations.
Local Open Scope R_scope.

(** What is used of Euler's Gamma function, and of tf.lgamma. *)
Definition gamma_function (G : R -> R) : Prop :=
  (forall x, 0 < x -> 0 < G x) /\ (forall n, G (INR n + 1) = INR (fact n)).
Definition log_gamma (G lgamma : R -> R) : Prop := forall x, 0 < x -> lgamma x = ln (G x).

Definition product (l : list R) : R := fold_right Rmult 1 l.
Definition total (l : list R) : R := fold_right Rplus 0 l.
Definition positive (l : list R) : Prop := Forall (fun v => 0 < v) l.

Definition bernoulli_pmf (p : R) (k : nat) : R := match k with O => 1 - p | _ => p end.
Definition beta_pdf (G : R -> R) (a b x : R) : R :=
  Rpower x (a - 1) * Rpower (1 - x) (b - 1) * G (a + b) / (G a * G b).
Definition binomial_pmf (n : nat) (p : R) (k : nat) : R :=
  C n k * p ^ k * (1 - p) ^ (n - k).
Definition categorical_pmf (ps : list R) (k : nat) : R := nth k ps 0.
Definition chi2_pdf (G : R -> R) (df x : R) : R :=
  Rpower x (df / 2 - 1) * exp (- x / 2) / (Rpower 2 (df / 2) * G (df / 2)).
Definition dirichlet_pdf (G : R -> R) (a x : list R) : R :=
  G (total a) / product (map G a) * product (map2 (fun ai xi => Rpower xi (ai - 1)) a x).
Definition exponential_pdf (rate x : R) : R := rate * exp (- rate * x).
Definition gamma_pdf (G : R -> R) (a b x : R) : R :=
  Rpower b a / G a * Rpower x (a - 1) * exp (- b * x).
Definition inverse_gamma_pdf (G : R -> R) (a b x : R) : R :=
  Rpower b a / G a * Rpower x (- a - 1) * exp (- b / x).
Definition laplace_pdf (m s x : R) : R := / (2 * s) * exp (- Rabs (x - m) / s).
Definition multinomial_pmf (n : nat) (ps : list R) (ks : list nat) : R :=
  INR (fact n) / product (map (fun k => INR (fact k)) ks) * product (map2 pow ps ks).
Definition normal_pdf (m s x : R) : R :=
  / (s * sqrt (2 * PI)) * exp (- ((x - m) * (x - m)) / (2 * (s * s))).
Fixpoint mvn_diag_pdf (m s x : list R) : R :=
  match m, s, x with
  | mi :: m', si :: s', xi :: x' => normal_pdf mi si xi * mvn_diag_pdf m' s' x'
  | _, _, _ => 1
  end.
Definition poisson_pmf (rate : R) (k : nat) : R := rate ^ k * exp (- rate) / INR (fact k).

(** Logistic and softmax functions of logits. *)
Definition logistic (l : R) : R := / (1 + exp (- l)).
Definition softmax (ls : list R) : list R :=
  map (fun l => exp l / total (map exp ls)) ls.

(** Log densities of the scalar distributions; discrete ones live on [INR k]. *)
Definition is_log_density (G : R -> R) (d : dist) (f : R -> R) : Prop :=
  match d with
  | DBernoulli l => forall k, (k <= 1)%nat -> f (INR k) = ln (bernoulli_pmf (logistic l) k)
  | DBeta a b => 0 < a /\ 0 < b /\ forall x, 0 < x < 1 -> f x = ln (beta_pdf G a b x)
  | DChi2 df => 0 < df /\ forall x, 0 < x -> f x = ln (chi2_pdf G df x)
  | DExponential r => 0 < r /\ forall x, 0 < x -> f x = ln (exponential_pdf r x)
  | DGamma a b => 0 < a /\ 0 < b /\ forall x, 0 < x -> f x = ln (gamma_pdf G a b x)
  | DInverseGamma a b => 0 < a /\ 0 < b /\ forall x, 0 < x -> f x = ln (inverse_gamma_pdf G a b x)
  | DNormal m s => 0 < s /\ forall x, f x = ln (normal_pdf m s x)
  | DPoisson r => 0 < r /\ forall k, f (INR k) = ln (poisson_pmf r k)
  | _ => False
  end.

(** The values a variable of a given support can take. *)
Definition in_support (s : support) (x : R) : Prop :=
  match s with
  | SupBinary => exists k, (k <= 1)%nat /\ x = INR k
  | Sup01 => 0 < x < 1
  | SupNonnegative => 0 < x
  | SupReal => True
  | SupCountable => exists k, x = INR k
  | _ => False
  end.

(** Value of a statistic. *)
Definition stat_val (s : stat) (x : R) : R :=
  match s with
  | StX => x
  | StLog => ln x
  | StLog1m => ln (1 - x)
  | StRecip => / x
  | StSquare => x * x
  | _ => 0
  end.

(** Values of the statistics of a key. *)
Definition stats (key : list stat) (x : R) : list R := map (fun s => stat_val s x) key.

Fixpoint dot (l m : list R) : R :=
  match l, m with a :: l', b :: m' => a * b + dot l' m' | _, _ => 0 end.

(** Parameters for which the distribution exists. *)
Definition proper (d : dist) : Prop :=
  match d with
  | DBernoulli _ => True
  | DBeta a b | DGamma a b | DInverseGamma a b => 0 < a /\ 0 < b
  | DCategorical l => l <> []
  | DChi2 df => 0 < df
  | DDirichlet a => positive a
  | DExponential r | DPoisson r => 0 < r
  | DMVNDiag m s => length m = length s /\ positive s
  | DNormal _ s => 0 < s
  end.

(** The two entries of the table that are wrong (C33). *)
Definition wrong_entry (d : dist) : Prop :=
  match d with DChi2 _ | DPoisson _ => True | _ => False end.
