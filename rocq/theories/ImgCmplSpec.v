(** What the picture of a completion should show. *)
From Coq Require Import Ascii String.
From Verif Require Import Base GoMap Misc TextSpec ImgSpec.
Local Open Scope string_scope.
Local Open Scope Z_scope.

(** The plain colour format: white space between the words; [px] the pixels, from left to right and
    top to bottom. *)
Definition plain_ppm (w h max : Z) (px : list (Z * Z * Z)) (s : string) : Prop :=
  words ("P3" :: map numeral (w :: h :: max :: flat_map (fun '(r, g, b) => [r; g; b]) px)) s /\ Z.of_nat (List.length px) = w * h.
(** The pixel in column [x] and row [y]. *)
Definition pixel_at (w : Z) (px : list (Z * Z * Z)) (x y : Z) : option (Z * Z * Z) := nth_error px (Z.to_nat (w * y + x)).

(** Completions of the top or bottom half have the line across, the others upright. *)
Definition across (t : cmplType) : Prop := t = Top \/ t = Bottom.
Definition red : Z * Z * Z := (255, 0, 0).

(** An image of width [w] and height [h], shown by [col] from the number of its pixels, with a red line
    at row (or column) [s]; everything beyond is moved by one. *)
Definition with_row (w h s : Z) (col : Z -> Z * Z * Z) (px : list (Z * Z * Z)) : Prop :=
  forall x y, 0 <= x < w -> 0 <= y <= h ->
    pixel_at w px x y = Some (if y =? s then red else col (w * (if y <? s then y else y - 1) + x)).
Definition with_column (w h s : Z) (col : Z -> Z * Z * Z) (px : list (Z * Z * Z)) : Prop :=
  forall x y, 0 <= x <= w -> 0 <= y < h ->
    pixel_at (w + 1) px x y = Some (if x =? s then red else col (w * y + (if x <? s then x else x - 1))).

(** The side of the line on which the completed half should be. *)
Definition completed_side (t : cmplType) (s x y : Z) : Prop :=
  match t with Top => y < s | Bottom => s < y | Left => x < s | Right => s < x end.
(** The size that is halved. *)
Definition halved (t : cmplType) (w h : Z) : Z := match t with Top | Bottom => h | _ => w end.
(** Column and row of the picture, not on the line. *)
Definition off_line (t : cmplType) (w h s x y : Z) : Prop :=
  match t with
  | Top | Bottom => 0 <= x < w /\ 0 <= y <= h /\ y <> s
  | _ => 0 <= x <= w /\ 0 <= y < h /\ x <> s
  end.
Definition full_width (t : cmplType) (w : Z) : Z := match t with Top | Bottom => w | _ => w + 1 end.
Definition full_height (t : cmplType) (h : Z) : Z := match t with Top | Bottom => h + 1 | _ => h end.
(** Every component within the declared maximum. *)
Definition within (max : Z) (px : list (Z * Z * Z)) : Prop :=
  forall r g b, In (r, g, b) px -> (0 <= r <= max) /\ (0 <= g <= max) /\ (0 <= b <= max).

(** Known pixels in grey, completed ones in green; of a bitmap known ones in blue and completed ones in
    green, and zeros in white. *)
Definition grey_or_green (orig cmpl : gmap) (p : Z) : Z * Z * Z :=
  match get orig p, get cmpl p with
  | Some v, _ => (v, v, v)
  | None, Some u => (0, u, 0)
  | None, None => (0, 0, 0)
  end.
Definition blue_or_green (orig cmpl : gmap) (p : Z) : Z * Z * Z :=
  match get orig p, get cmpl p with
  | Some 1, _ => (0, 0, 255)
  | None, Some 1 => (0, 255, 0)
  | _, _ => (255, 255, 255)
  end.
