(** Vocabulary of the completion jobs. *)
From Coq Require Import Ascii String.
From Verif Require Import Base GoMap TextSpec Misc Conc Jobs.
Local Open Scope string_scope.
Local Open Scope Z_scope.

(** The main goroutine has come back from the wait group. *)
Definition jobsDone (s : jstate) : Prop := exists td wt, at_c (jqueue s) 0 CDone td wt.

(** The instances with another label than [l]. *)
Definition othersOf (rows : list (gmap * Z)) (l : Z) : list gmap := map fst (filter (fun r => negb (snd r =? l)) rows).
(** All instances but the one at [id]. *)
Definition allBut (rows : list (gmap * Z)) (id : nat) : list gmap := map fst (firstn id rows ++ skipn (S id) rows).

(** The name of an orientation, and the two forms of file names. *)
Definition word (v : cmplType) : string := match v with Top => "TOP" | Bottom => "BOTTOM" | Left => "LEFT" | Right => "RIGHT" end.
Definition instanceFile (id : nat) (v : cmplType) : string := "cmpl_" ++ numeral (Z.of_nat id) ++ "-" ++ word v ++ ".pgm".
Definition quadrantFile (id : nat) (v : cmplType) : string := "cmpl_" ++ word v ++ "_" ++ numeral (Z.of_nat id) ++ ".pgm".
