(** * Vocabulary for C19. *)
From Coq Require Import Ascii String List Arith ZArith Bool.
From Verif Require Import Progbar.
Import ListNotations.

(** [l] is [s] followed by blanks. *)
Definition shows (l s : text) : Prop := exists n, l = s ++ repeat " "%char n.

(** The state of object and terminal. *)
Definition state (V : Type) : Type := (@progbar V * terminal)%type.

(** After one call. *)
Definition after {V} (fmt : V -> text) (s : state V) (c : @call V) : state V :=
  let '(p, o, _) := update fmt (fst s) c in (p, term_run (snd s) o).

(** What is shown for step [current] of [target]: "current/target [ percent%] "
    and the bar, the remaining or elapsed time, and the values. *)
Definition displays {V} (fmt : V -> text) (target width current : nat) (values : list (text * V)) (s : text) : Prop :=
  exists a b pc time, s =
    a ++ txt "/" ++ b ++ txt " [" ++ pc ++ txt "%] " ++
    repeat "#"%char (width * current / target) ++ repeat " "%char (width - width * current / target) ++ time ++
    flat_map (fun kv => txt " | " ++ fst kv ++ txt ": " ++ fmt (snd kv)) values /\
    (exists i, a = repeat " "%char i ++ str_nat current) /\ (exists i, b = repeat " "%char i ++ str_nat target) /\
    (exists i, pc = repeat " "%char i ++ str_nat (current * 100 / target)) /\
    ((current < target /\ exists n, time = txt " ETA: " ++ str_Z n ++ txt "s") \/
     (target <= current /\ exists n, time = txt " Elapsed: " ++ str_Z n ++ txt "s")).

(** [values] holds, once each, the names in [l] with the value given last. *)
Definition latest {V} (l values : list (text * V)) : Prop :=
  NoDup (map fst values) /\
  forall k v, In (k, v) values <-> exists l1 l2, l = l1 ++ (k, v) :: l2 /\ ~ In k (map fst l2).

(** A call that draws: it is forced, or the last drawing was longer ago than the
    interval, or it is the last step. *)
Definition draws {V} (p : @progbar V) (c : @call V) : Prop :=
  p_verbose p <> 0 /\
  (k_force c = true \/ (p_interval p <= k_now c - p_last p)%Z \/ p_target p <= k_current c).
