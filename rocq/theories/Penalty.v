(** * The gradient penalty of WGANInference.

    Models edward/inferences/wgan_inference.py:76-87 from the batches of real and
    generated examples to the slopes; [GAN.wgan_penalty] is the last line.  An example is
    a list of entries, a batch a list of examples; real and generated batches have the same
    shape.  The random numbers are arguments. *)
From Coquelicot Require Import Coquelicot.
From Coq Require Import Reals List Arith.
From Verif Require Import Transform GAN.
Import ListNotations.
Local Open Scope R_scope.

(** eps * x_true + (1.0 - eps) * x_fake for one example (wgan_inference.py:79-80): eps has
    the shape of x_true, so one number for each entry. *)
Definition interpolate (eps x_true x_fake : list R) : list R :=
  map (fun p => fst p * fst (snd p) + (1 - fst p) * snd (snd p)) (combine eps (combine x_true x_fake)).

(** For the batch (wgan_inference.py:79-80). *)
Definition x_interpolated (eps x_true x_fake : list (list R)) : list (list R) :=
  map (fun p => interpolate (fst p) (fst (snd p)) (snd (snd p))) (combine eps (combine x_true x_fake)).

(** A list with entry [e] replaced; used to say what tf.gradients differentiates
    (wgan_inference.py:84). *)
Fixpoint put_at {A} (l : list A) (e : nat) (v : A) : list A :=
  match l, e with
  | [], _ => []
  | _ :: l', O => v :: l'
  | x :: l', S e' => x :: put_at l' e' v
  end.

(** tf.gradients(d_interpolated, [x_interpolated])[0] (wgan_inference.py:84): the
    derivatives of the sum of all outputs of the discriminator. *)
Definition batch_gradients (D : list (list R) -> list R) (X : list (list R)) : list (list R) :=
  map (fun i => let row := nth i X [] in
      map (fun e => Derive (fun v => sumR (D (put_at X i (put_at row e v)))) (nth e row 0)) (seq 0 (length row)))
    (seq 0 (length X)).

(** slopes (wgan_inference.py:85-86). *)
Definition slopes (D : list (list R) -> list R) (X : list (list R)) : list R :=
  map (fun g => sqrt (sumR (map (fun x => x * x) g))) (batch_gradients D X).
