(** C63-C66: balanced reading, image halves, random pairs, hue conversion. *)
From Coq Require Import Reals Lra.
From Verif Require Import Base Res GoMap Misc MiscSpec MiscLemmas.

(** C63: the quotas. *)
Theorem new_counts_even :
  forall n k, 0 < k -> exists q, newCounts n k = Ok q /\ even_shares n k q /\
  forall i x, nth_error q i = Some x -> forall m, n <= k * m -> x <= m.
Proof. exact newCounts_l. Qed.
Print Assumptions new_counts_even.

Example new_counts_case : newCounts 11 4 = Ok [3; 3; 3; 2].
Proof. reflexivity. Qed.

(** C63: what ReadBalanced returns: every class has its quota, taken from the file in order. *)
Theorem read_balanced :
  forall rows n c D, readBalanced rows n c = Ok (Some D) ->
  exists q, even_shares n c q /\ length D = n /\
    (forall i x, nth_error q i = Some x -> count_occ Z.eq_dec (map snd D) (Z.of_nat i) = x) /\
    (forall l, In l (map snd D) -> (0 <= l < Z.of_nat c)%Z) /\
    exists rs, part_of rs rows /\ Forall2 row_is rs D.
Proof. exact readBalanced_l. Qed.
Print Assumptions read_balanced.

(** C63: it returns when the file has enough rows of every class. *)
Theorem read_balanced_total :
  forall rows n c, 0 < c ->
  (forall r, In r rows -> r <> [] /\ (0 <= last r 0 < Z.of_nat c)%Z) ->
  (forall l, l < c -> n <= c * labelled rows (Z.of_nat l)) ->
  exists D, readBalanced rows n c = Ok (Some D).
Proof. exact readBalanced_total_l. Qed.
Print Assumptions read_balanced_total.

Example read_balanced_case :
  readBalanced [[7; 0]; [8; 0]; [9; 0]; [5; 1]; [6; 0]; [4; 1]]%Z 3 2 =
    Ok (Some [([(0, 7)], 0); ([(0, 8)], 0); ([(0, 5)], 1)])%Z.
Proof. reflexivity. Qed.

(** C64: for every image, orientation and size, the two parts share out the pixels. *)
Theorem split_half_partition :
  forall O t w h P Q, splitHalf O t w h = (P, Q) ->
  (forall p, pixel w h p -> in_one O P Q p) /\ (forall p, ~ pixel w h p -> in_neither P Q p) /\
  (forall p, p < w * h -> get P (Z.of_nat p) <> None <->
     match t with Top => p < w * h / 2 | Bottom => w * h / 2 <= p | Left => p mod w < w / 2 | Right => w / 2 <= p mod w end).
Proof. exact splitHalf_l. Qed.
Print Assumptions split_half_partition.

Example split_half_case : splitHalf [(0, 4); (1, 5); (2, 6); (3, 7)]%Z Right 2 2 = ([(3, 7); (1, 5)], [(2, 6); (0, 4)])%Z.
Proof. reflexivity. Qed.

(** The top part is made of whole rows when the height is even ... *)
Theorem split_half_rows_partial :
  forall O w h P Q, Nat.even h = true -> splitHalf O Top w h = (P, Q) ->
  forall p, p < w * h -> (get P (Z.of_nat p) <> None <-> p / w < h / 2).
Proof. exact splitHalf_rows_l. Qed.
Print Assumptions split_half_rows_partial.

(** ... but not in general: with 3 x 3 pixels the middle row is cut. *)
Theorem split_half_rows_refuted :
  exists O w h P Q p q, splitHalf O Top w h = (P, Q) /\ p < w * h /\ q < w * h /\
  p / w = q / w /\ get P (Z.of_nat p) <> None /\ get P (Z.of_nat q) = None.
Proof. exact splitHalf_rows_refuted_l. Qed.
Print Assumptions split_half_rows_refuted.

(** C64: halfImg, when MAP inference assigns every pixel. *)
Theorem half_img_partition :
  forall map_ set typ w h, 0 < w -> NoDup (keys set) -> (forall p, get set p <> None <-> pixel w h p) ->
  (forall half, exists M, map_ half = Ok M /\ forall p, get M p <> None <-> pixel w h p) ->
  exists cmpl half, halfImg map_ set typ w h = Ok (cmpl, half) /\
    (forall p, pixel w h p -> region typ w h p -> get cmpl p <> None /\ get half p = None) /\
    (forall p, pixel w h p -> ~ region typ w h p -> get cmpl p = None /\ get half p = get set p) /\
    (forall p, ~ pixel w h p -> get cmpl p = None /\ get half p = None).
Proof. exact halfImg_l. Qed.
Print Assumptions half_img_partition.

Example half_img_case :
  halfImg (fun half => Ok (half ++ [(0, 9); (1, 9)]%Z)) [(3, 7); (0, 4); (1, 5); (2, 6)]%Z Top 2 2 =
    Ok ([(0, 9); (1, 9)], [(2, 6); (3, 7)])%Z.
Proof. reflexivity. Qed.

(** C65: for every permutation drawn. *)
Theorem random_comb_distinct :
  forall K u v m, Permutation K (seq 0 (u * v)) -> m <= u * v ->
  exists D, randomComb K u v m = Ok D /\ length D = m /\ NoDup D /\ forall i j, In (i, j) D -> i < u /\ j < v.
Proof. exact randomComb_l. Qed.
Print Assumptions random_comb_distinct.

(** C65: no combination is excluded. *)
Theorem random_comb_all :
  forall u v D, NoDup D -> (forall i j, In (i, j) D -> i < u /\ j < v) ->
  exists K, Permutation K (seq 0 (u * v)) /\ randomComb K u v (length D) = Ok D.
Proof. exact randomComb_all_l. Qed.
Print Assumptions random_comb_all.

(** C65: asking for more pairs than there are panics. *)
Theorem random_comb_panics :
  forall K u v m, Permutation K (seq 0 (u * v)) -> u * v < m -> randomComb K u v m = Panic.
Proof. exact randomComb_panics_l. Qed.
Print Assumptions random_comb_panics.

Example random_comb_case : randomComb [4; 0; 3; 1; 5; 2] 2 3 4 = Ok [(1, 1); (0, 0); (1, 0); (0, 1)].
Proof. reflexivity. Qed.

Local Open Scope R_scope.
(** C66: false for magenta hues: the colour is black. *)
Theorem hue_refuted : exists h s v, 0 <= h < 360 /\ 0 <= s <= 1 /\ 0 < v /\ channel_max (hsv2rgb h s v) <> v.
Proof. exact hue_refuted_l. Qed.
Print Assumptions hue_refuted.

Theorem hue_magenta_black : forall h s v, 0 < s -> 300 <= h < 360 -> hsv2rgb h s v = mkRgb 0 0 0.
Proof. exact hue_black. Qed.
Print Assumptions hue_magenta_black.

(** C66: holds below 300 degrees; the smallest channel is right as well. Missing: [300, 360), where
    it is false. *)
Theorem hue_partial : forall h s v, 0 <= h < 300 -> 0 <= s <= 1 -> 0 <= v ->
  channel_max (hsv2rgb h s v) = v /\ channel_min (hsv2rgb h s v) = v * (1 - s).
Proof. exact hue_ok_l. Qed.
Print Assumptions hue_partial.

(** C66: all three channels, against the closed form of the conversion. *)
Theorem hue_channels_partial : forall h s v, 0 <= h < 300 -> 0 <= s <= 1 -> 0 <= v ->
  hsv2rgb h s v = mkRgb (shade 5 h s v) (shade 3 h s v) (shade 1 h s v).
Proof. exact hue_shades_l. Qed.
Print Assumptions hue_channels_partial.

Example hue_case : 0 <= 45 < 300 /\ 0 <= / 2 <= 1 /\ 0 <= / 4.
Proof. lra. Qed.
