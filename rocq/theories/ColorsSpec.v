(** What colours promise, independently of the code. *)
From Coq Require Import Reals.
From Verif Require Import Base Misc Colors.

(** Three bytes; channel by channel; the brightest channel. *)
Definition bytes (c : color) : Prop := (0 <= cr c <= 255 /\ 0 <= cg c <= 255 /\ 0 <= cb c <= 255)%Z.
Definition darker (c d : color) : Prop := (cr c <= cr d /\ cg c <= cg d /\ cb c <= cb d)%Z.
Definition brightest (c : color) : Z := Z.max (cr c) (Z.max (cg c) (cb c)).
