(** C113: scaled colours. *)
From Coq Require Import Reals.
From Verif Require Import Base Misc Colors ColorsSpec ColorsLemmas.
Local Open Scope R_scope.

(** The channels are bytes, for every hue that is not negative. *)
Theorem tone_in_range : forall h s v, 0 <= h -> unit s -> unit v -> bytes (randTone h s v).
Proof. exact tone_bytes. Qed.
Print Assumptions tone_in_range.
Theorem scale_in_range : forall p max h s minB, 0 <= h -> unit s -> 0 < max -> 0 <= p <= max -> unit minB -> bytes (randColorScale p max h s minB).
Proof. exact scale_bytes_l. Qed.
Print Assumptions scale_in_range.

(** A larger point is never darker. *)
Theorem scale_monotone : forall p p' max h s minB, 0 <= h -> unit s -> 0 < max -> 0 <= p <= p' -> p' <= max -> unit minB ->
  darker (randColorScale p max h s minB) (randColorScale p' max h s minB).
Proof. exact scale_mono_l. Qed.
Print Assumptions scale_monotone.

(** The brightest channel is the point scaled to [minB, 1], outside the hues from 300 to 360. *)
Theorem scale_brightness_partial : forall p max h s minB, 0 <= h -> ~ 300 <= h < 360 -> unit s -> 0 < max -> 0 <= p <= max -> unit minB ->
  brightest (randColorScale p max h s minB) = truncZ (255 * ((1 - minB) * p / max + minB)) /\
  (truncZ (255 * minB) <= brightest (randColorScale p max h s minB))%Z.
Proof. exact scale_bright_l. Qed.
Print Assumptions scale_brightness_partial.

Example scale_case : 0 <= 120 /\ ~ 300 <= 120 < 360 /\ unit (1 / 2) /\ 0 < 10 /\ 0 <= 4 <= 10 /\ unit (1 / 5) /\
  brightest (randColorScale 4 10 120 (1 / 2) (1 / 5)) = 132%Z.
Proof. exact scale_case_l. Qed.

(** Full statement, for all hues. False: from 300 to 360 every point is black, whatever the least brightness. *)
Theorem scale_brightness_refuted : forall p max h s minB, 300 <= h < 360 -> 0 < s -> randColorScale p max h s minB = mkColor 0 0 0.
Proof. exact scale_black_l. Qed.
Print Assumptions scale_brightness_refuted.
Example scale_black_case : 300 <= 320 < 360 /\ 0 < 1 /\ randColorScale 4 10 320 1 (1 / 5) = mkColor 0 0 0.
Proof. exact scale_black_case_l. Qed.

(** Negative hues give channels that are not bytes. *)
Theorem tone_in_range_refuted : exists h s v, unit s /\ unit v /\ ~ bytes (randTone h s v).
Proof. exact negative_l. Qed.
Print Assumptions tone_in_range_refuted.
