(** ImgCmplToPGM of /repo/io/pgm.go and ImgCmplToPPM of /repo/io/pbm.go: an image and its completion in
    one picture with a red line. Sizes are not negative. *)
From Coq Require Import Ascii String.
From Verif Require Import Base Res GoMap Text Img Misc.
Local Open Scope string_scope.
Local Open Scope Z_scope.

(** common/color.go:10-14 and 38-44. *)
Definition color := (Z * Z * Z)%type.
Definition Red : color := (255, 0, 0).
Definition Green : color := (0, 255, 0).
Definition Blue : color := (0, 0, 255).
Definition White : color := (255, 255, 255).

(** io/pgm.go:568-580 (io/pbm.go:426-438): the sizes with the line, and the pixels of the line. p%w is
    evaluated with w at least 1. *)
Definition horizontal (typ : cmplType) : bool := match typ with Top | Bottom => true | _ => false end.
Definition grown (typ : cmplType) (w h : Z) : Z * Z := if horizontal typ then (w, h + 1) else (w + 1, h).
Definition mid (typ : cmplType) (w h p : Z) : bool :=
  if horizontal typ then let q := w * Z.quot h 2 in (q <=? p) && (p <? q + w) else Z.rem p w =? Z.quot w 2.

(** io/pgm.go:585-602 (io/pbm.go:442-467): the colours, [show j] that of pixel j. *)
Fixpoint cmplLoop (show : Z -> color) (isMid : Z -> bool) (is_ : list Z) (j : Z) : list (Z * color) :=
  match is_ with
  | [] => []
  | i :: t => if isMid i then (i, Red) :: cmplLoop show isMid t j else (i, show j) :: cmplLoop show isMid t (j + 1)
  end.
(** io/pgm.go:588, 598-601; common/color.go:164-171: a colour, a blank, and a newline after the pixels
    that w divides, except 0. *)
Definition drawAt (w : Z) (ic : Z * color) : string :=
  let '(i, (r, g, b)) := ic in
  drawRGB r g b ++ " " ++ (if negb (i =? 0) && (Z.rem i w =? 0) then newline else "").

(** io/pgm.go:590-595. *)
Definition showGray (orig cmpl : gmap) (j : Z) : color :=
  match get orig j with Some v => (v, v, v) | None => (0, get0 cmpl j, 0) end.
(** io/pgm.go:560-603. *)
Definition imgCmplToPGM (orig cmpl : gmap) (typ : cmplType) (w h max : Z) : string :=
  let (w, h) := grown typ w h in
  let max := max - 1 in
  "P3" ++ newline ++ itoa w ++ " " ++ itoa h ++ newline ++ itoa max ++ newline ++
  prints (drawAt w) (cmplLoop (showGray orig cmpl) (mid typ w h) (upto (w * h)) 0).

(** io/pbm.go:447-459. *)
Definition showBit (orig cmpl : gmap) (j : Z) : color :=
  match get orig j with
  | Some v => if v =? 1 then Blue else White
  | None => if get0 cmpl j =? 1 then Green else White
  end.
(** io/pbm.go:418-468. *)
Definition imgCmplToPPM (orig cmpl : gmap) (typ : cmplType) (w h : Z) : string :=
  let (w, h) := grown typ w h in
  "P3" ++ newline ++ itoa w ++ " " ++ itoa h ++ newline ++ "255" ++ newline ++
  prints (drawAt w) (cmplLoop (showBit orig cmpl) (mid typ w h) (upto (w * h)) 0).
