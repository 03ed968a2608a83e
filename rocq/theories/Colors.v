(** The colours of /repo/common/color.go, over the reals. *)
From Coq Require Import Reals.
From Verif Require Import Base Misc.
Local Open Scope R_scope.

(** common/color.go:10-14, 32-36. *)
Record color := mkColor { cr : Z; cg : Z; cb : Z }.

(** common/color.go:187, 197. *)
Definition ofRgb (c : rgb) : color := mkColor (truncZ (255 * red c)) (truncZ (255 * green c)) (truncZ (255 * blue c)).

(** common/color.go:182-188; [s] and [v] are the draws of RandFloat64. *)
Definition randTone (h s v : R) : color := ofRgb (hsv2rgb h s v).

(** common/color.go:191-198. *)
Definition randColorScale (p max h s minB : R) : color := ofRgb (hsv2rgb h s ((1 - minB) * p / max + minB)).
