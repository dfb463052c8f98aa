(** * What the optimizers do with the learning rates.

    The updates of tf.train.AdamOptimizer and tf.train.GradientDescentOptimizer, which
    edward/inferences/variational_inference.py:96-100 and gan_inference.py:233-237
    construct with default options, for one entry of one variable.  They are TensorFlow's
    and modelled from its documentation; arithmetic is on real numbers. *)
From Coq Require Import Reals List.
Import ListNotations.
Local Open Scope R_scope.

(** A variable with its slots m and v (variational_inference.py:97, 120-121). *)
Record adam : Type := mkadam { theta : R; slot_m : R; slot_v : R }.

(** One application of Adam, the [k]-th counting from 0, with beta1 = 0.9, beta2 = 0.999
    and epsilon = 1e-8 (variational_inference.py:97, 120-121). *)
Definition adam_step (lr : R) (k : nat) (g : R) (s : adam) : adam :=
  let lr_k := lr * sqrt (1 - 0.999 ^ S k) / (1 - 0.9 ^ S k) in
  let m := slot_m s + (g - slot_m s) * (1 - 0.9) in
  let v := slot_v s + (g * g - slot_v s) * (1 - 0.999) in
  mkadam (theta s - lr_k * m / (sqrt v + / 10 ^ 8)) m v.

(** Updates with the given learning rates; [grad k x] is the gradient computed in update
    [k] when the variable is [x] (variational_inference.py:120-121, 154). *)
Fixpoint adam_run (k : nat) (rs : list R) (grad : nat -> R -> R) (s : adam) : adam :=
  match rs with
  | [] => s
  | r :: rs' => adam_run (S k) rs' grad (adam_step r k (grad k (theta s)) s)
  end.

(** The same with gradient descent (variational_inference.py:99-100, 120-121, 154). *)
Fixpoint descend (k : nat) (rs : list R) (grad : nat -> R -> R) (x : R) : R :=
  match rs with
  | [] => x
  | r :: rs' => descend (S k) rs' grad (x - r * grad k x)
  end.
