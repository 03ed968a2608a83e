(** Colours. *)
From Coq Require Import Reals Lra.
From Verif Require Import Base Misc MiscSpec MiscLemmas Colors ColorsSpec.
Local Open Scope R_scope.

Lemma trunc_pos x : 0 <= x -> IZR (truncZ x) <= x < IZR (truncZ x) + 1.
Proof. intros H. unfold truncZ. destruct (Rle_dec 0 x); [|lra]. destruct (base_Int_part x). lra. Qed.
Lemma trunc_mono x y : 0 <= x <= y -> (0 <= truncZ x <= truncZ y)%Z.
Proof.
  intros (H1 & H2). pose proof (trunc_pos x H1). pose proof (trunc_pos y ltac:(lra)). split.
  - apply le_IZR. assert (IZR (-1) < IZR (truncZ x)) by (simpl; lra). apply lt_IZR in H3. apply IZR_le. lia.
  - assert (IZR (truncZ x) < IZR (truncZ y + 1)) by (rewrite plus_IZR; lra). apply lt_IZR in H3. lia.
Qed.
Lemma trunc_255 : truncZ 255 = 255%Z.
Proof.
  pose proof (trunc_pos 255 ltac:(lra)) as (A & B). assert (IZR (truncZ 255) < IZR 256) by lra. assert (IZR 254 < IZR (truncZ 255)) by lra.
  apply lt_IZR in H, H0. lia.
Qed.

Definition unit (x : R) : Prop := 0 <= x <= 1.

(** For a hue and a saturation the channels are fixed shares of the brightness. *)
Lemma shares h s : 0 <= h -> unit s -> exists a b c, unit a /\ unit b /\ unit c /\
  (forall v, hsv2rgb h s v = mkRgb (v * a) (v * b) (v * c)) /\ (~ 300 <= h < 360 -> a = 1 \/ b = 1 \/ c = 1).
Proof.
  intros Hh Hs. unfold unit in *. unfold hsv2rgb. destruct (Rle_dec s 0).
  { exists 1, 1, 1. repeat split; try lra. intros v. f_equal; ring. }
  set (x := (if Rle_dec 360 h then 0 else h) / 60).
  assert (Hx : 0 <= x < 6) by (unfold x; destruct (Rle_dec 360 h); lra).
  assert (Hx5 : ~ 300 <= h < 360 -> x < 5) by (unfold x; destruct (Rle_dec 360 h); lra).
  clearbody x. cbv zeta. pose proof (trunc_pos x ltac:(lra)) as (B1 & B2). set (i := truncZ x) in *.
  assert (Hi : (0 <= i <= 5)%Z).
  { assert (IZR (-1) < IZR i) by (simpl; lra). assert (IZR i < IZR 6) by lra. apply lt_IZR in H, H0. lia. }
  set (f := x - IZR i) in *. assert (Hf : 0 <= f < 1) by (unfold f; lra).
  assert (P : 0 <= 1 - s <= 1) by lra.
  assert (Q : 0 <= 1 - s * f <= 1) by nra.
  assert (T : 0 <= 1 - s * (1 - f) <= 1) by nra.
  assert (C : i = 0%Z \/ i = 1%Z \/ i = 2%Z \/ i = 3%Z \/ i = 4%Z \/ i = 5%Z) by lia.
  clearbody f. clearbody i.
  destruct C as [-> | [-> | [-> | [-> | [-> | ->]]]]].
  - exists 1, (1 - s * (1 - f)), (1 - s). repeat split; try lra. intros v. f_equal; ring.
  - exists (1 - s * f), 1, (1 - s). repeat split; try lra. intros v. f_equal; ring.
  - exists (1 - s), 1, (1 - s * (1 - f)). repeat split; try lra. intros v. f_equal; ring.
  - exists (1 - s), (1 - s * f), 1. repeat split; try lra. intros v. f_equal; ring.
  - exists (1 - s * (1 - f)), (1 - s), 1. repeat split; try lra. intros v. f_equal; ring.
  - exists 0, 0, 0. repeat split; try lra. intros v. f_equal; ring.
Qed.

Lemma tone_bytes h s v : 0 <= h -> unit s -> unit v -> bytes (ofRgb (hsv2rgb h s v)).
Proof.
  intros Hh Hs (Hv1 & Hv2). destruct (shares h s Hh Hs) as (a & b & c & (Ha1 & Ha2) & (Hb1 & Hb2) & (Hc1 & Hc2) & E & _). rewrite E. unfold bytes, ofRgb. cbn [cr cg cb red green blue].
  assert (K : forall y, 0 <= y <= 1 -> (0 <= truncZ (255 * (v * y)) <= 255)%Z) by (intros y Hy; pose proof (trunc_mono (255 * (v * y)) 255 ltac:(nra)) as K; rewrite trunc_255 in K; exact K).
  split; [|split]; apply K; split; assumption.
Qed.
Lemma tone_mono h s v w : 0 <= h -> unit s -> 0 <= v <= w -> darker (ofRgb (hsv2rgb h s v)) (ofRgb (hsv2rgb h s w)).
Proof.
  intros Hh Hs (Hv1 & Hv2). destruct (shares h s Hh Hs) as (a & b & c & (Ha1 & Ha2) & (Hb1 & Hb2) & (Hc1 & Hc2) & E & _). rewrite !E. unfold darker, ofRgb. cbn [cr cg cb red green blue].
  repeat split; apply trunc_mono; nra.
Qed.
Lemma tone_bright h s v : 0 <= h -> ~ 300 <= h < 360 -> unit s -> unit v -> brightest (ofRgb (hsv2rgb h s v)) = truncZ (255 * v).
Proof.
  intros Hh Hn Hs (Hv1 & Hv2). destruct (shares h s Hh Hs) as (a & b & c & (Ha1 & Ha2) & (Hb1 & Hb2) & (Hc1 & Hc2) & E & M). rewrite E. unfold brightest, ofRgb. cbn [cr cg cb red green blue].
  assert (K : forall y, 0 <= y <= 1 -> (truncZ (255 * (v * y)) <= truncZ (255 * v))%Z) by (intros y Hy; apply trunc_mono; nra).
  pose proof (K a (conj Ha1 Ha2)). pose proof (K b (conj Hb1 Hb2)). pose proof (K c (conj Hc1 Hc2)).
  destruct (M Hn) as [-> | [-> | ->]]; rewrite Rmult_1_r in *; lia.
Qed.

Lemma scale_unit p max minB : 0 < max -> 0 <= p <= max -> unit minB -> unit ((1 - minB) * p / max + minB) /\ minB <= (1 - minB) * p / max + minB.
Proof.
  intros Hm Hp (H1 & H2). assert (Hq : 0 <= p / max <= 1).
  { split; [apply Rmult_le_pos; [lra|left; apply Rinv_0_lt_compat; auto]|]. apply (Rmult_le_reg_r max); auto. unfold Rdiv. rewrite Rmult_assoc, Rinv_l by lra. lra. }
  replace ((1 - minB) * p / max) with ((1 - minB) * (p / max)) by (unfold Rdiv; ring). unfold unit. split; nra.
Qed.
Lemma scale_mono p p' max minB : 0 < max -> 0 <= p <= p' -> unit minB -> (1 - minB) * p / max + minB <= (1 - minB) * p' / max + minB.
Proof.
  intros Hm Hp (H1 & H2). apply Rplus_le_compat_r. unfold Rdiv. apply Rmult_le_compat_r; [left; apply Rinv_0_lt_compat; auto|]. nra.
Qed.

Lemma scale_bytes_l p max h s minB : 0 <= h -> unit s -> 0 < max -> 0 <= p <= max -> unit minB -> bytes (randColorScale p max h s minB).
Proof. intros. apply tone_bytes; auto. apply scale_unit; auto. Qed.
Lemma scale_mono_l p p' max h s minB : 0 <= h -> unit s -> 0 < max -> 0 <= p <= p' -> p' <= max -> unit minB -> darker (randColorScale p max h s minB) (randColorScale p' max h s minB).
Proof.
  intros Hh Hs Hm Hp Hp' Hb. apply tone_mono; auto. split; [|apply scale_mono; auto]. destruct (scale_unit p max minB) as ((A & _) & _); auto; lra.
Qed.
Lemma scale_bright_l p max h s minB : 0 <= h -> ~ 300 <= h < 360 -> unit s -> 0 < max -> 0 <= p <= max -> unit minB ->
  brightest (randColorScale p max h s minB) = truncZ (255 * ((1 - minB) * p / max + minB)) /\ (truncZ (255 * minB) <= brightest (randColorScale p max h s minB))%Z.
Proof.
  intros Hh Hn Hs Hm Hp Hb. destruct (scale_unit p max minB Hm Hp Hb) as (U & L). unfold randColorScale. rewrite tone_bright by auto. split; auto.
  destruct Hb. apply trunc_mono. lra.
Qed.
Lemma trunc_0 : truncZ (255 * 0) = 0%Z.
Proof.
  pose proof (trunc_pos (255 * 0) ltac:(lra)) as (A & B). assert (IZR (truncZ (255 * 0)) < IZR 1) by lra. assert (IZR (-1) < IZR (truncZ (255 * 0))) by lra.
  apply lt_IZR in H, H0. lia.
Qed.
Lemma scale_black_l p max h s minB : 300 <= h < 360 -> 0 < s -> randColorScale p max h s minB = mkColor 0 0 0.
Proof. intros Hh Hs. unfold randColorScale. rewrite hue_black by auto. unfold ofRgb. cbn [red green blue]. rewrite trunc_0. reflexivity. Qed.

Lemma negative_l : exists h s v, unit s /\ unit v /\ ~ bytes (randTone h s v).
Proof.
  exists (-30), 1, 1. split; [unfold unit; lra|]. split; [unfold unit; lra|]. unfold randTone, hsv2rgb. destruct (Rle_dec 1 0); [lra|]. destruct (Rle_dec 360 (-30)); [lra|].
  assert (Et : truncZ (-30 / 60) = 0%Z).
  { unfold truncZ. destruct (Rle_dec 0 (-30 / 60)); [lra|]. replace (- (-30 / 60)) with (/ 2) by lra.
    assert (I : Int_part (/ 2) = 0%Z). { destruct (base_Int_part (/ 2)) as (A & B). assert (IZR (Int_part (/ 2)) < IZR 1) by lra. assert (IZR (-1) < IZR (Int_part (/ 2))) by lra. apply lt_IZR in H, H0. lia. }
    rewrite I. reflexivity. }
  rewrite Et. cbv zeta. unfold bytes, ofRgb. cbn [cr cg cb red green blue]. intros (_ & (H & _) & _). revert H.
  unfold truncZ. destruct (Rle_dec 0 (255 * (1 * (1 - 1 * (1 - (-30 / 60 - 0)))))); [exfalso; lra|].
  destruct (base_Int_part (- (255 * (1 * (1 - 1 * (1 - (-30 / 60 - 0))))))) as (A & B). set (k := Int_part _) in *. assert (IZR 126 < IZR k) by lra. apply lt_IZR in H. lia.
Qed.

Lemma scale_case_l : 0 <= 120 /\ ~ 300 <= 120 < 360 /\ unit (1 / 2) /\ 0 < 10 /\ 0 <= 4 <= 10 /\ unit (1 / 5) /\
  brightest (randColorScale 4 10 120 (1 / 2) (1 / 5)) = 132%Z.
Proof.
  unfold unit. repeat (split; [lra|]). destruct (scale_bright_l 4 10 120 (1 / 2) (1 / 5)) as (E & _); unfold unit; try lra. rewrite E. apply truncZ_in; [lia|]. simpl. lra.
Qed.
Lemma scale_black_case_l : 300 <= 320 < 360 /\ 0 < 1 /\ randColorScale 4 10 320 1 (1 / 5) = mkColor 0 0 0.
Proof. split; [lra|]. split; [lra|]. apply scale_black_l; lra. Qed.
