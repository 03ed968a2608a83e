(** Proofs about region codes and the loops over regions. *)
From Verif Require Import Base Res Poon PoonSpec.
Local Open Scope Z_scope.

Lemma u64_id z : 0 <= z < 18446744073709551616 -> u64 z = z.
Proof. intros H. unfold u64. apply Z.mod_small. lia. Qed.

Lemma i64_id z : 0 <= z < 9223372036854775808 -> i64 z = z.
Proof.
  intros H. unfold i64. cbv zeta. rewrite u64_id by lia.
  destruct (Z.ltb_spec z 9223372036854775808); lia.
Qed.

Lemma u64_add a b : u64 (u64 a + u64 b) = u64 (a + b).
Proof. unfold u64. symmetry. apply Z.add_mod. lia. Qed.
Lemma u64_mul a b : u64 (u64 a * u64 b) = u64 (a * b).
Proof. unfold u64. symmetry. apply Z.mul_mod. lia. Qed.

(** Plain mixed-radix code. *)
Definition plain (W H x1 y1 x2 y2 : Z) : Z := ((y1 * W + x1) * W + x2) * H + y2.

Lemma encode_mod w h x1 y1 x2 y2 :
  encode w h x1 y1 x2 y2 = u64 (plain (w + 1) (h + 1) x1 y1 x2 y2).
Proof. unfold encode, plain. cbv zeta. rewrite (u64_mul y1), (u64_add _ x1), (u64_mul (y1 * (w + 1) + x1)), (u64_add _ x2),
    (u64_mul ((y1 * (w + 1) + x1) * (w + 1) + x2)), (u64_add _ y2). reflexivity. Qed.

Section Codes.
Variables w h : Z.
Hypothesis w0 : 0 <= w.
Hypothesis h0 : 0 <= h.

Lemma fit_bounds W H N : W = w + 1 -> H = h + 1 -> W * W * (H * H) <= N ->
  1 <= W /\ 1 <= H /\ H * W <= N /\ H * W * W <= N /\ H * W * W * H <= N.
Proof.
  intros EW EH Hn. assert (1 <= W) by lia. assert (1 <= H) by lia.
  assert (1 <= W * W) by nia. assert (1 <= H * H) by nia.
  assert (H * W <= H * W * W) by nia. assert (H * W * W <= H * W * W * H) by nia.
  assert (H * W * W * H = W * W * (H * H)) by ring.
  repeat split; lia.
Qed.

Lemma digits W H x1 y1 x2 y2 :
  1 <= W -> 1 <= H -> 0 <= x1 < W -> 0 <= x2 < W -> 0 <= y1 < H -> 0 <= y2 < H ->
  0 <= y1 * W <= y1 * W + x1 /\ y1 * W + x1 < H * W /\
  0 <= (y1 * W + x1) * W <= (y1 * W + x1) * W + x2 /\ (y1 * W + x1) * W + x2 < H * W * W /\
  0 <= ((y1 * W + x1) * W + x2) * H <= ((y1 * W + x1) * W + x2) * H + y2 /\
  ((y1 * W + x1) * W + x2) * H + y2 < H * W * W * H.
Proof.
  intros HW HH X1 X2 Y1 Y2.
  assert (A0 : 0 <= y1 * W) by nia.
  assert (A : y1 * W + x1 < H * W) by nia.
  set (a := y1 * W + x1) in *. assert (0 <= a) by (unfold a; lia).
  assert (B0 : 0 <= a * W) by nia.
  assert (B : a * W + x2 < H * W * W) by nia.
  set (b := a * W + x2) in *. assert (0 <= b) by (unfold b; lia).
  assert (C0 : 0 <= b * H) by nia.
  assert (C : b * H + y2 < H * W * W * H) by nia.
  repeat split; try lia.
Qed.

Section Fit.
Hypothesis fit : codes_fit w h.

Lemma fit' : (w + 1) * (w + 1) * ((h + 1) * (h + 1)) <= 18446744073709551616.
Proof. exact fit. Qed.

Lemma encode_plain x1 y1 x2 y2 :
  0 <= x1 <= w -> 0 <= x2 <= w -> 0 <= y1 <= h -> 0 <= y2 <= h ->
  encode w h x1 y1 x2 y2 = plain (w + 1) (h + 1) x1 y1 x2 y2.
Proof.
  intros X1 X2 Y1 Y2. pose proof fit' as Ft.
  destruct (fit_bounds (w + 1) (h + 1) _ eq_refl eq_refl Ft) as (W1 & H1 & B1 & B2 & B3).
  destruct (digits (w + 1) (h + 1) x1 y1 x2 y2) as (D1 & D2 & D3 & D4 & D5 & D6); try lia.
  assert (w + 1 <= 18446744073709551616) by nia.
  assert (h + 1 <= 18446744073709551616) by nia.
  assert (WS : w + 1 < 18446744073709551616 \/ w + 1 = 18446744073709551616) by lia.
  assert (HS : h + 1 < 18446744073709551616 \/ h + 1 = 18446744073709551616) by lia.
  destruct WS as [WS|WS]; [|exfalso; rewrite WS in Ft; nia].
  destruct HS as [HS|HS]; [|exfalso; rewrite HS in Ft; nia].
  unfold encode, plain. cbv zeta.
  rewrite (u64_id (w + 1)), (u64_id (h + 1)), (u64_id y1), (u64_id x1), (u64_id x2), (u64_id y2) by lia.
  rewrite (u64_id (y1 * (w + 1))) by lia.
  rewrite (u64_id (y1 * (w + 1) + x1)) by lia.
  rewrite (u64_id ((y1 * (w + 1) + x1) * (w + 1))) by lia.
  rewrite (u64_id ((y1 * (w + 1) + x1) * (w + 1) + x2)) by lia.
  rewrite (u64_id (((y1 * (w + 1) + x1) * (w + 1) + x2) * (h + 1))) by lia.
  apply u64_id. lia.
Qed.

Lemma side_small : w + 1 < 9223372036854775808 /\ h + 1 < 9223372036854775808.
Proof.
  pose proof fit' as Ft. split.
  - destruct (Z.lt_ge_cases (w + 1) 9223372036854775808) as [|G]; auto. exfalso.
    assert (9223372036854775808 * 9223372036854775808 <= (w + 1) * (w + 1)) by nia.
    assert (1 <= (h + 1) * (h + 1)) by nia. nia.
  - destruct (Z.lt_ge_cases (h + 1) 9223372036854775808) as [|G]; auto. exfalso.
    assert (9223372036854775808 * 9223372036854775808 <= (h + 1) * (h + 1)) by nia.
    assert (1 <= (w + 1) * (w + 1)) by nia. nia.
Qed.

Lemma div_exact a d x : 0 < d -> 0 <= x < d -> (a * d + x) mod d = x /\ (a * d + x - x) / d = a.
Proof.
  intros Hd Hx. split.
  - rewrite Z.add_comm, Z_mod_plus_full. apply Z.mod_small; auto.
  - replace (a * d + x - x) with (a * d) by lia. apply Z.div_mul. lia.
Qed.

Lemma decode_encode_l x1 y1 x2 y2 :
  0 <= x1 <= w -> 0 <= x2 <= w -> 0 <= y1 <= h -> 0 <= y2 <= h ->
  decode w h (encode w h x1 y1 x2 y2) = Ok (x1, y1, x2, y2).
Proof.
  intros X1 X2 Y1 Y2. rewrite encode_plain by auto. pose proof fit' as Ft.
  destruct (fit_bounds (w + 1) (h + 1) _ eq_refl eq_refl Ft) as (W1 & H1 & B1 & B2 & B3).
  destruct (digits (w + 1) (h + 1) x1 y1 x2 y2) as (D1 & D2 & D3 & D4 & D5 & D6); try lia.
  destruct side_small as [Sw Sh].
  unfold decode. cbv zeta. rewrite (u64_id (w + 1)), (u64_id (h + 1)) by lia.
  destruct (Z.eqb_spec (w + 1) 0); [lia|]. destruct (Z.eqb_spec (h + 1) 0); [lia|]. cbn [orb].
  unfold plain.
  set (b := (y1 * (w + 1) + x1) * (w + 1) + x2) in *.
  destruct (div_exact b (h + 1) y2) as [M1 Q1]; [lia|lia|]. rewrite M1, (i64_id y2), (u64_id y2) by lia.
  rewrite (u64_id (b * (h + 1) + y2 - y2)) by lia. rewrite Q1. subst b.
  set (a := y1 * (w + 1) + x1) in *.
  destruct (div_exact a (w + 1) x2) as [M2 Q2]; [lia|lia|]. rewrite M2, (i64_id x2), (u64_id x2) by lia.
  rewrite (u64_id (a * (w + 1) + x2 - x2)) by lia. rewrite Q2. subst a.
  destruct (div_exact y1 (w + 1) x1) as [M3 Q3]; [lia|lia|]. rewrite M3, (i64_id x1), (u64_id x1) by lia.
  rewrite (u64_id (y1 * (w + 1) + x1 - x1)) by lia. rewrite Q3, (i64_id y1) by lia. reflexivity.
Qed.

Lemma encode_inj_l x1 y1 x2 y2 x1' y1' x2' y2' :
  0 <= x1 <= w -> 0 <= x2 <= w -> 0 <= y1 <= h -> 0 <= y2 <= h ->
  0 <= x1' <= w -> 0 <= x2' <= w -> 0 <= y1' <= h -> 0 <= y2' <= h ->
  encode w h x1 y1 x2 y2 = encode w h x1' y1' x2' y2' ->
  (x1, y1, x2, y2) = (x1', y1', x2', y2').
Proof.
  intros. assert (Ok (x1, y1, x2, y2) = Ok (x1', y1', x2', y2')) as E; [|congruence].
  rewrite <- !decode_encode_l by auto. congruence.
Qed.
End Fit.

(** Beyond the bound some code is used twice: the digits of 2^64 have code 0. *)
Lemma encode_overflow_l :
  w < 2 ^ 63 - 1 -> h < 2 ^ 63 - 1 -> ~ codes_fit w h ->
  exists x1 y1 x2 y2, 0 <= x1 <= w /\ 0 <= x2 <= w /\ 0 <= y1 <= h /\ 0 <= y2 <= h /\
    (x1, y1, x2, y2) <> (0, 0, 0, 0) /\ encode w h x1 y1 x2 y2 = encode w h 0 0 0 0.
Proof.
  change (2 ^ 63 - 1) with 9223372036854775807. intros Sw Sh Nf.
  assert (Big : 18446744073709551616 < (w + 1) * (w + 1) * ((h + 1) * (h + 1))).
  { destruct (Z.lt_ge_cases 18446744073709551616 ((w + 1) * (w + 1) * ((h + 1) * (h + 1)))); auto.
    exfalso. apply Nf. unfold codes_fit. change (2 ^ 64) with 18446744073709551616. lia. }
  set (N := 18446744073709551616) in *.
  set (W := w + 1) in *. set (H := h + 1) in *.
  assert (W1 : 1 <= W) by (unfold W; lia). assert (H1 : 1 <= H) by (unfold H; lia).
  set (y2 := N mod H). set (b := N / H). set (x2 := b mod W). set (a := b / W).
  set (x1 := a mod W). set (y1 := a / W).
  assert (E1 : N = b * H + y2) by (unfold b, y2; rewrite Z.mul_comm; apply Z.div_mod; lia).
  assert (E2 : b = a * W + x2) by (unfold a, x2; rewrite Z.mul_comm; apply Z.div_mod; lia).
  assert (E3 : a = y1 * W + x1) by (unfold y1, x1; rewrite Z.mul_comm; apply Z.div_mod; lia).
  assert (R1 : 0 <= y2 < H) by (apply Z.mod_pos_bound; lia).
  assert (R2 : 0 <= x2 < W) by (apply Z.mod_pos_bound; lia).
  assert (R3 : 0 <= x1 < W) by (apply Z.mod_pos_bound; lia).
  assert (P0 : 0 <= b) by (apply Z.div_pos; unfold N; lia).
  assert (P1 : 0 <= a) by (apply Z.div_pos; lia).
  assert (P2 : 0 <= y1) by (apply Z.div_pos; lia).
  assert (Y1 : y1 < H).
  { destruct (Z.lt_ge_cases y1 H) as [|G]; auto. exfalso.
    assert (H * W <= a) by nia. assert (H * W * W <= b) by nia. assert (H * W * W * H <= N) by nia.
    assert (H * W * W * H = W * W * (H * H)) by ring. lia. }
  exists x1, y1, x2, y2.
  split; [unfold W in *; lia|]. split; [unfold W in *; lia|]. split; [unfold H in *; lia|].
  split; [unfold H in *; lia|]. split.
  - intros E. injection E as -> -> -> ->. unfold N in E1. lia.
  - rewrite !encode_mod. fold W H. unfold plain. rewrite <- E3, <- E2, <- E1. reflexivity.
Qed.
End Codes.
