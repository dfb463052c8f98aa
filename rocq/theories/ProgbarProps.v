(** * Property C19: the progress bar. *)
From Coq Require Import Ascii String List Arith ZArith Bool Lia.
From Verif Require Import Progbar ProgbarSpec ProgbarProofs.
Import ListNotations.

(** ** C19: after any history of updates, a call that draws leaves exactly the
    new bar and the latest values, followed by blanks; a call at the end moves
    to a fresh line; other calls write nothing *)

Theorem C19_no_stale_characters : forall V (fmt : V -> text) target width interval verbose start cs c d,
  0 < target ->
  let s := fold_left (after fmt) cs (new_progbar target width interval verbose start, mkterm d [] 0) in
  let s' := after fmt s c in
  (draws (fst s) c -> exists values txt, latest (flat_map k_values (cs ++ [c])) values /\
     displays fmt target width (k_current c) values txt /\
     (k_current c < target -> shows (t_line (snd s')) txt /\ t_done (snd s') = t_done (snd s)) /\
     (target <= k_current c -> exists l, t_done (snd s') = t_done (snd s) ++ [l] /\ shows l txt /\
        t_line (snd s') = [] /\ t_col (snd s') = 0)) /\
  (~ draws (fst s) c -> snd s' = snd s).
Proof. exact progbar_line. Qed.
Print Assumptions C19_no_stale_characters.

(** A long value, then a shorter one: blanks remain in place of the old text. *)
Example C19_demo :
  let f := fun s : string => list_ascii_of_string s in
  let loss := txt "Loss" in
  let s := fold_left (after f) [mkcall 1 [(loss, "12345.678"%string)] false 1000000; mkcall 5 [(loss, "1.250"%string)] false 2000000]
             (new_progbar 10 5 10000 1 0, mkterm [] [] 0) in
  string_of_list_ascii (t_line (snd s)) = " 5/10 [ 50%] ##    ETA: 2s | Loss: 1.250    "%string.
Proof. vm_compute. reflexivity. Qed.
Example C19_demo_end :
  let f := fun s : string => list_ascii_of_string s in
  let s := after f (new_progbar 10 5 10000 1 0, mkterm [] [] 0) (mkcall 10 [] false 3000000) in
  map string_of_list_ascii (t_done (snd s)) = ["10/10 [100%] ##### Elapsed: 3s"%string] /\ t_line (snd s) = [].
Proof. vm_compute. auto. Qed.
