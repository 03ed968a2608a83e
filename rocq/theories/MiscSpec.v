(** What the functions of Misc.v should do. *)
From Coq Require Import Reals.
From Verif Require Import Base GoMap Misc.

(** Shares of [n] among [k] that differ by at most one. *)
Definition even_shares (n k : nat) (q : list nat) : Prop :=
  length q = k /\ list_sum q = n /\ forall x y, In x q -> In y q -> x <= y + 1.

(** [a] is a part of [b] in the same order. *)
Inductive part_of {T} : list T -> list T -> Prop :=
| part_nil : part_of [] []
| part_skip : forall x a b, part_of a b -> part_of a (x :: b)
| part_take : forall x a b, part_of a b -> part_of (x :: a) (x :: b).

(** The row of a file holds the instance and, in its last column, the label. *)
Definition row_is (row : list Z) (il : gmap * Z) : Prop :=
  exists a, row = a ++ [snd il] /\ forall k, get (fst il) k = if (k <? 0)%Z then None else nth_error a (Z.to_nat k).

(** Number of rows with label [l]. *)
Definition labelled (rows : list (list Z)) (l : Z) : nat := length (filter (fun r => Z.eqb (last r 0%Z) l) rows).

(** Exactly one of the maps has the pixel, with the image's value (0 when it has none). *)
Definition in_one (O P Q : gmap) (p : Z) : Prop :=
  (get P p = Some (get0 O p) /\ get Q p = None) \/ (get P p = None /\ get Q p = Some (get0 O p)).
Definition in_neither (P Q : gmap) (p : Z) : Prop := get P p = None /\ get Q p = None.

(** Pixel [p] of an image of width [w] and height [h]. *)
Definition pixel (w h : nat) (p : Z) : Prop := (0 <= p < Z.of_nat (w * h))%Z.

(** The half of the image that halfImg completes: whole rows or whole columns. *)
Definition region (t : cmplType) (w h : nat) (p : Z) : Prop :=
  match t with
  | Top => (p / Z.of_nat w < Z.of_nat h / 2)%Z
  | Bottom => ~ (p / Z.of_nat w < Z.of_nat h / 2)%Z
  | Left => (p mod Z.of_nat w < Z.of_nat w / 2)%Z
  | Right => ~ (p mod Z.of_nat w < Z.of_nat w / 2)%Z
  end.

(** Largest and smallest channel of a colour. *)
Definition channel_max (c : rgb) : R := Rmax (red c) (Rmax (green c) (blue c)).
Definition channel_min (c : rgb) : R := Rmin (red c) (Rmin (green c) (blue c)).

(** The usual closed form of the conversion: with k = (n + h/60) mod 6 the channel is
    v - v s max(0, min(k, 4-k, 1)), for red n = 5, green n = 3, blue n = 1. *)
Definition turn (x : R) : R := if Rlt_dec x 6 then x else x - 6.
Definition shade (n h s v : R) : R := let k := turn (n + h / 60) in v - v * s * Rmax 0 (Rmin k (Rmin (4 - k) 1)).
