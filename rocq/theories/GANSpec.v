(** * Vocabulary for C44, C58 and C59. *)
From Coq Require Import Reals Ascii String List Arith Bool.
From Verif Require Import Graph Transform GAN.
Import ListNotations.
Local Open Scope string_scope.

(** The variable scope Disc: a name Disc/... *)
Definition in_scope (scope name : string) : Prop := exists s, name = scope ++ "/" ++ s.

(** [a] and [b] split the identities of the items. *)
Definition splits (items : list item) (a b : list nat) : Prop :=
  forall i, In i (map fst items) -> (In i a /\ ~ In i b) \/ (In i b /\ ~ In i a).

(** Updates that run. *)
Definition accepted (v : option string) : Prop := v = None \/ v = Some "Gen" \/ v = Some "Disc".
Definition touches_disc (v : option string) : Prop := v = None \/ v = Some "Disc".

(** How many updates of a history run. *)
Definition accepted_b (v : option string) : bool :=
  match v with None => true | Some s => orb (String.eqb s "Gen") (String.eqb s "Disc") end.

(** Occurrences of a point in a batch. *)
Fixpoint count {A : Type} (dec : forall a b : A, {a = b} + {a <> b}) (x : A) (l : list A) : nat :=
  match l with
  | [] => 0
  | y :: l' => if dec y x then S (count dec x l') else count dec x l'
  end.

(** A joint draw of data and local variables given the global ones: the local
    variables are drawn given the global ones, the data given both. *)
Definition joint_draw {V : Type} (globals : draws V) (locals data : list (nat * ((draws V -> V) * V))) (xs zs : draws V) : Prop :=
  zs = map (fun z => (fst z, fst (snd z) globals)) locals /\ xs = map (fun x => (fst x, fst (snd x) (globals ++ zs)%list)) data.
