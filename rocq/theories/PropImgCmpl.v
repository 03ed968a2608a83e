(** C97: pictures of a completed image. *)
From Coq Require Import Ascii String.
From Verif Require Import Base Res GoMap Misc MiscSpec ImgSpec ImgCmpl ImgCmplSpec ImgCmplLemmas ImgCases.
Local Open Scope string_scope.
Local Open Scope Z_scope.

(** C97: the red line separates the completed half from the rest. Refuted for odd sizes: of three rows with the top
    one completed, the line is below the second. *)
Theorem cmpl_line_refuted : exists orig cmpl typ (w h : nat) max,
  (forall p, pixel w h p -> get orig p = None <-> region typ w h p) /\ (forall p, pixel w h p -> get cmpl p <> None <-> region typ w h p) /\
  ~ exists px, plain_ppm (full_width typ (Z.of_nat w)) (full_height typ (Z.of_nat h)) (max - 1) px (imgCmplToPGM orig cmpl typ (Z.of_nat w) (Z.of_nat h) max) /\
    exists s, forall x y, off_line typ (Z.of_nat w) (Z.of_nat h) s x y ->
      (completed_side typ s x y -> exists u, pixel_at (full_width typ (Z.of_nat w)) px x y = Some (0, u, 0)) /\
      (~ completed_side typ s x y -> exists v, pixel_at (full_width typ (Z.of_nat w)) px x y = Some (v, v, v)).
Proof. exact cmpl_odd_refuted_l. Qed.
Print Assumptions cmpl_line_refuted.

(** C97, when the halved size is even. *)
Theorem cmpl_line_partial : forall orig cmpl typ (w h : nat) max,
  (forall p, pixel w h p -> get orig p = None <-> region typ w h p) -> Z.even (halved typ (Z.of_nat w) (Z.of_nat h)) = true ->
  exists px, plain_ppm (full_width typ (Z.of_nat w)) (full_height typ (Z.of_nat h)) (max - 1) px (imgCmplToPGM orig cmpl typ (Z.of_nat w) (Z.of_nat h) max) /\
    forall x y, let s := (halved typ (Z.of_nat w) (Z.of_nat h) + 1) / 2 in off_line typ (Z.of_nat w) (Z.of_nat h) s x y ->
      (completed_side typ s x y -> exists u, pixel_at (full_width typ (Z.of_nat w)) px x y = Some (0, u, 0)) /\
      (~ completed_side typ s x y -> exists v, pixel_at (full_width typ (Z.of_nat w)) px x y = Some (v, v, v)).
Proof. exact cmpl_sides_l. Qed.
Print Assumptions cmpl_line_partial.

(** C97, for all sizes: the picture is the image with one red row or column inserted, known pixels in grey and
    completed ones in green. *)
Theorem cmpl_picture : forall orig cmpl typ w h max, 0 <= w -> 0 <= h ->
  exists px, plain_ppm (full_width typ w) (full_height typ h) (max - 1) px (imgCmplToPGM orig cmpl typ w h max) /\
    (across typ -> with_row w h ((h + 1) / 2) (grey_or_green orig cmpl) px) /\ (~ across typ -> with_column w h ((w + 1) / 2) (grey_or_green orig cmpl) px).
Proof. exact cmpl_pgm_spec_l. Qed.
Print Assumptions cmpl_picture.
(** C97: the same for bitmaps, in blue, green and white. *)
Theorem cmpl_bit_picture : forall orig cmpl typ w h, 0 <= w -> 0 <= h ->
  exists px, plain_ppm (full_width typ w) (full_height typ h) 255 px (imgCmplToPPM orig cmpl typ w h) /\
    (across typ -> with_row w h ((h + 1) / 2) (blue_or_green orig cmpl) px) /\ (~ across typ -> with_column w h ((w + 1) / 2) (blue_or_green orig cmpl) px).
Proof. exact cmpl_ppm_spec_l. Qed.
Print Assumptions cmpl_bit_picture.

(** C97: no component exceeds the maximum in the header. Refuted when there are less than 256 values: red is 255. *)
Theorem cmpl_maximum_refuted : exists orig cmpl typ w h max, 0 < w /\ 0 < h /\
  (forall p v, get orig p = Some v \/ get cmpl p = Some v -> 0 <= v < max) /\
  ~ exists px, plain_ppm (full_width typ w) (full_height typ h) (max - 1) px (imgCmplToPGM orig cmpl typ w h max) /\ within (max - 1) px.
Proof. exact cmpl_max_refuted_l. Qed.
Print Assumptions cmpl_maximum_refuted.
Theorem cmpl_maximum_partial : forall orig cmpl typ w h max, 0 <= w -> 0 <= h -> 256 <= max ->
  (forall p v, get orig p = Some v \/ get cmpl p = Some v -> 0 <= v < max) ->
  exists px, plain_ppm (full_width typ w) (full_height typ h) (max - 1) px (imgCmplToPGM orig cmpl typ w h max) /\ within (max - 1) px.
Proof. exact cmpl_within_l. Qed.
Print Assumptions cmpl_maximum_partial.
Theorem cmpl_bit_maximum : forall orig cmpl typ w h, 0 <= w -> 0 <= h ->
  exists px, plain_ppm (full_width typ w) (full_height typ h) 255 px (imgCmplToPPM orig cmpl typ w h) /\ within 255 px.
Proof. exact cmpl_ppm_within_l. Qed.
Print Assumptions cmpl_bit_maximum.

Example cmpl_case :
  (forall p, pixel 2 2 p -> get [(1, 5); (3, 6)] p = None <-> region Left 2 2 p) /\ Z.even (halved Left 2 2) = true /\
  imgCmplToPGM [(1, 5); (3, 6)] [(0, 4); (2, 9)] Left 2 2 256 =
    "P3" ++ nl ++ "3 2" ++ nl ++ "255" ++ nl ++ "0 4 0 255 0 0 5 5 5 0 9 0 " ++ nl ++ "255 0 0 6 6 6 ".
Proof. exact ImgCases.cmpl_case. Qed.
