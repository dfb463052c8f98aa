(** * The progress bar.

    Models edward/util/progbar.py:12-115 ([Progbar]).  Times are integers
    (microseconds), the quotients exact.  The block character is written [#].
    Names and formatted values are taken to be printable. *)
From Coq Require Import Ascii String List Arith ZArith Bool DecimalString DecimalNat DecimalZ.
Import ListNotations.

(** What is written to standard output (progbar.py:72-115). *)
Inductive out : Type := Ch (c : ascii) | BS | CR | NL.

(** Python strings of progbar.py:75-115. *)
Definition text : Type := list ascii.

(** str(n) and '%d' % z (progbar.py:76-78, 100-103). *)
Definition str_nat (n : nat) : text := list_ascii_of_string (NilZero.string_of_uint (Nat.to_uint n)).
(** '%d' (progbar.py:99-103). *)
Definition str_Z (z : Z) : text := list_ascii_of_string (NilZero.string_of_int (Z.to_int z)).
(** String literals of progbar.py:77-106. *)
Definition txt (s : string) : text := list_ascii_of_string s.

(** str.rjust, and the %nd of progbar.py:77. *)
Definition rjust (w : nat) (s : text) : text := repeat " "%char (w - length s) ++ s.

Section Progbar.
Context {V : Type}.
(** '{1:0.3f}'.format (progbar.py:106). *)
Variable fmt : V -> text.

(** The object (progbar.py:27-37); start is the time of its construction. *)
Record progbar : Type := mkpb {
  p_target : nat; p_width : nat; p_interval : Z; p_verbose : nat; p_start : Z;
  p_values : list (text * V); p_last : Z; p_total : nat; p_seen : nat }.

(** Progbar.__init__ (progbar.py:13-37). *)
Definition new_progbar (target width : nat) (interval : Z) (verbose : nat) (now : Z) : progbar :=
  mkpb target width interval verbose now [] 0%Z 0 0.

(** self.stored_values[k] = v (progbar.py:58-59); the order is that of first
    insertion. *)
Fixpoint store_value (d : list (text * V)) (k : text) (v : V) : list (text * V) :=
  match d with
  | [] => [(k, v)]
  | (k', v') :: d' => if list_eq_dec ascii_dec k' k then (k, v) :: d' else (k', v') :: store_value d' k v
  end.

(** The bar (progbar.py:75-88). *)
Definition bar_text (target width current : nat) : text :=
  let n := length (str_nat target) in
  let prog := width * current / target in
  rjust n (str_nat current) ++ txt "/" ++ rjust n (str_nat target) ++
  txt " [" ++ rjust 3 (str_nat (current * 100 / target)) ++ txt "%]" ++ txt " " ++
  repeat "#"%char prog ++ repeat " "%char (width - prog).

(** The values after the bar (progbar.py:91-106). *)
Definition info_text (target current : nat) (elapsed : Z) (values : list (text * V)) : text :=
  (if current <? target
   then txt " ETA: " ++ str_Z (Z.quot (elapsed * Z.of_nat (target - current)) (Z.of_nat current * 1000000)) ++ txt "s"
   else txt " Elapsed: " ++ str_Z (Z.quot elapsed 1000000) ++ txt "s") ++
  flat_map (fun kv => txt " | " ++ fst kv ++ txt ": " ++ fmt (snd kv)) values.

(** A call of update: arguments and the time (progbar.py:39). *)
Record call : Type := mkcall { k_current : nat; k_values : list (text * V); k_force : bool; k_now : Z }.

(** Progbar.update (progbar.py:39-115): the object, what is written, and
    whether it returns (false: ZeroDivisionError at progbar.py:78). *)
Definition update (p : progbar) (c : call) : progbar * list out * bool :=
  let values := fold_left (fun d kv => store_value d (fst kv) (snd kv)) (k_values c) (p_values p) in
  let current := k_current c in
  if negb (k_force c) && (k_now c - p_last p <? p_interval p)%Z && (current <? p_target p) then
    (mkpb (p_target p) (p_width p) (p_interval p) (p_verbose p) (p_start p) values (p_last p) (p_total p) current, [], true)
  else
    let p1 := mkpb (p_target p) (p_width p) (p_interval p) (p_verbose p) (p_start p) values (k_now c) (p_total p) current in
    if Nat.eqb (p_verbose p) 0 then (p1, [], true)
    else
      let prev := p_total p in
      let out0 := repeat BS prev ++ [CR] in
      if Nat.eqb (p_target p) 0 then (p1, out0, false)
      else
        let bar := bar_text (p_target p) (p_width p) current in
        let info := info_text (p_target p) current (k_now c - p_start p) values in
        let total := length bar + length info in
        (mkpb (p_target p) (p_width p) (p_interval p) (p_verbose p) (p_start p) values (k_now c) total current,
         out0 ++ map Ch (bar ++ info ++ repeat " "%char (prev - total)) ++
         (if p_target p <=? current then [NL] else []), true).
End Progbar.

(** ** A terminal (not in the repository)

    Wide enough for the line; backspace and carriage return move the cursor
    without erasing (shows what progbar.py:72-115 writes). *)
Record terminal : Type := mkterm { t_done : list text; t_line : text; t_col : nat }.

(** Writing a character at a column (shows progbar.py:72-115). *)
Fixpoint put (l : text) (n : nat) (c : ascii) : text :=
  match l, n with
  | [], O => [c]
  | [], S n' => " "%char :: put [] n' c
  | _ :: l', O => c :: l'
  | x :: l', S n' => x :: put l' n' c
  end.

(** One character of output (shows progbar.py:72-115). *)
Definition term_step (t : terminal) (o : out) : terminal :=
  match o with
  | Ch c => mkterm (t_done t) (put (t_line t) (t_col t) c) (S (t_col t))
  | BS => mkterm (t_done t) (t_line t) (pred (t_col t))
  | CR => mkterm (t_done t) (t_line t) 0
  | NL => mkterm (t_done t ++ [t_line t]) [] 0
  end.
(** The whole output (shows progbar.py:72-115). *)
Definition term_run (t : terminal) (os : list out) : terminal := fold_left term_step os t.
