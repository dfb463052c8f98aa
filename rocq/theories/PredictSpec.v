(** * Vocabulary for C61. *)
From Coq Require Import Reals List.
From Verif Require Import Transform.
Import ListNotations.
Local Open Scope R_scope.

(** Probability that a Bernoulli of parameter p has the value c. *)
Definition bernoulli (p c : R) : R := if Req_EM_T c 1 then p else if Req_EM_T c 0 then 1 - p else 0.
(** Expected fraction of outputs a prediction gets right. *)
Definition expected_accuracy (probs pred : list R) : R :=
  sumR (map (fun q => bernoulli (fst q) (snd q)) (combine probs pred)) / INR (length probs).

(** Probability of k successes in n trials. *)
Definition binomial (n : nat) (p : R) (k : nat) : R := C n k * p ^ k * (1 - p) ^ (n - k).

(** The logarithmic loss of probabilities. *)
Definition log_loss (y probs : list R) : R :=
  sumR (map (fun q => - (fst q * ln (snd q) + (1 - fst q) * ln (1 - snd q))) (combine y probs)) / INR (length y).
