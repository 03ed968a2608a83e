(** Vocabulary of the concurrent conversion. *)
From Verif Require Import Base Conc ImgConc.
Local Open Scope Z_scope.

(** The caller has come back from the wait group: BufferedPGMFToData returns. *)
Definition returned (s : bstate) : Prop := exists td w, at_c (queue s) 0 CDone td w.
