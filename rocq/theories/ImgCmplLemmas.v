From Coq Require Import Ascii String.
From Verif Require Import Base Res GoMap Misc MiscSpec Text TextSpec TextLemmas Img ImgSpec ImgLemmas ImgData ImgWrite ImgCmpl ImgCmplSpec.
Local Open Scope string_scope.
Local Open Scope Z_scope.

Lemma cmplLoop_map (show : Z -> color) (isMid : Z -> bool) (jof : Z -> Z) n : forall i,
  (forall p, Z.of_nat i <= p < Z.of_nat (i + n) -> jof (p + 1) = if isMid p then jof p else jof p + 1) ->
  cmplLoop show isMid (map Z.of_nat (seq i n)) (jof (Z.of_nat i)) =
  map (fun p => (p, if isMid p then Red else show (jof p))) (map Z.of_nat (seq i n)).
Proof.
  induction n as [|n IH]; intros i H; auto. cbn [seq map cmplLoop].
  pose proof (H (Z.of_nat i) ltac:(lia)) as E. replace (Z.of_nat i + 1) with (Z.of_nat (S i)) in E by lia.
  destruct (isMid (Z.of_nat i)); f_equal; rewrite <- E; apply IH; intros p Hp; apply H; lia.
Qed.
Definition pictures (show : Z -> color) (isMid : Z -> bool) (jof : Z -> Z) (n : Z) : list (Z * Z * Z) :=
  map (fun p => if isMid p then Red else show (jof p)) (upto n).
Lemma cmplLoop_pixels (show : Z -> color) (isMid : Z -> bool) (jof : Z -> Z) n : jof 0 = 0 -> (forall p, 0 <= p < n -> jof (p + 1) = if isMid p then jof p else jof p + 1) ->
  cmplLoop show isMid (upto n) 0 = map (fun p => (p, if isMid p then Red else show (jof p))) (upto n).
Proof.
  intros H0 H. unfold upto. rewrite <- H0 at 1. apply (cmplLoop_map show isMid jof (Z.to_nat n) 0). intros p Hp. apply H. lia.
Qed.
Lemma nth_pictures (show : Z -> color) (isMid : Z -> bool) (jof : Z -> Z) n k : 0 <= k < n -> nth_error (pictures show isMid jof n) (Z.to_nat k) = Some (if isMid k then Red else show (jof k)).
Proof.
  intros H. unfold pictures, upto. rewrite map_map, nth_error_map.
  rewrite (nth_error_nth' _ 0%nat) by (rewrite seq_length; lia). rewrite seq_nth by lia. cbn [option_map]. rewrite Nat.add_0_l, Z2Nat.id by lia. auto.
Qed.

(** The text. *)
Lemma words_colors w l : forall s, whites s -> words (map numeral (flat_map (fun '(r, g, b) => [r; g; b]) (map snd l))) (s ++ prints (drawAt w) l).
Proof.
  induction l as [|[i [[r g] b]] l IH]; intros s Hs.
  - cbn [map flat_map]. rewrite prints_nil, append_nil. constructor. auto.
  - cbn [map flat_map snd app]. rewrite prints_cons. unfold drawAt at 1, drawRGB. rewrite !append_ass.
    change (itoa r) with (numeral r). change (itoa g) with (numeral g). change (itoa b) with (numeral b).
    apply words_next; auto; [left; auto|]. apply (words_next " "); [split; [left; auto|exact Logic.I]|left; auto|].
    apply (words_next " "); [split; [left; auto|exact Logic.I]|left; auto|].
    set (e := if negb (i =? 0) && (Z.rem i w =? 0) then newline else "").
    apply (IH (String " " e)). split; [left; auto|]. unfold e. destruct (_ && _); [|exact Logic.I]. split; [right; right; left; reflexivity|exact Logic.I].
Qed.
Lemma words_header w h max l wd : words ("P3" :: map numeral (w :: h :: max :: flat_map (fun '(r, g, b) => [r; g; b]) (map snd l)))
  ("P3" ++ newline ++ itoa w ++ " " ++ itoa h ++ newline ++ itoa max ++ newline ++ prints (drawAt wd) l).
Proof.
  change (itoa w) with (numeral w). change (itoa h) with (numeral h). change (itoa max) with (numeral max). cbn [map].
  assert (Hb : whites " ") by (split; [left; auto|exact Logic.I]).
  assert (Hn : whites newline) by (split; [right; right; left; auto|exact Logic.I]).
  apply (words_next "" "P3"); [exact Logic.I|right; right; left; auto|].
  apply (words_next newline); [auto|left; auto|]. apply (words_next " "); [auto|right; right; left; auto|].
  apply (words_next newline); [auto|right; right; left; auto|]. apply (words_colors wd l newline). auto.
Qed.

(** The line across. *)
Definition jrow (w q p : Z) : Z := if p <? q then p else if p <? q + w then q else p - w.
Lemma jrow_step typ w h p : horizontal typ = true -> 0 <= w ->
  jrow w (w * Z.quot h 2) (p + 1) = if mid typ w h p then jrow w (w * Z.quot h 2) p else jrow w (w * Z.quot h 2) p + 1.
Proof.
  intros Ht Hw. unfold mid, jrow. rewrite Ht. set (q := w * Z.quot h 2). clearbody q.
  destruct (Z.leb_spec q p); cbn [andb].
  - destruct (Z.ltb_spec p (q + w)); destruct (Z.ltb_spec (p + 1) q), (Z.ltb_spec p q), (Z.ltb_spec (p + 1) (q + w)); lia.
  - destruct (Z.ltb_spec (p + 1) q), (Z.ltb_spec p q), (Z.ltb_spec (p + 1) (q + w)); lia.
Qed.
Lemma row_raster typ w h show : horizontal typ = true -> 0 <= w -> 0 <= h ->
  with_row w h ((h + 1) / 2) show (pictures show (mid typ w (h + 1)) (jrow w (w * Z.quot (h + 1) 2)) (w * (h + 1))).
Proof.
  intros Ht Hw Hh x y Hx Hy. unfold pixel_at. rewrite nth_pictures by nia. f_equal. unfold mid. rewrite Ht.
  rewrite Z.quot_div_nonneg by lia. set (s := (h + 1) / 2). unfold jrow.
  destruct (Z.eqb_spec y s) as [->|Hne].
  - destruct (Z.leb_spec (w * s) (w * s + x)); [|lia]. destruct (Z.ltb_spec (w * s + x) (w * s + w)); [|lia]. auto.
  - destruct (Z.ltb_spec y s).
    + destruct (Z.leb_spec (w * s) (w * y + x)); [nia|]. cbn [andb]. destruct (Z.ltb_spec (w * y + x) (w * s)); [auto|lia].
    + destruct (Z.leb_spec (w * s) (w * y + x)); [|nia]. destruct (Z.ltb_spec (w * y + x) (w * s + w)); [nia|]. cbn [andb].
      destruct (Z.ltb_spec (w * y + x) (w * s)); [lia|]. f_equal. lia.
Qed.

(** The line upright. [w] is the width without the line. *)
Definition jcol (w p : Z) : Z := let x := p mod (w + 1) in w * (p / (w + 1)) + (if x <=? (w + 1) / 2 then x else x - 1).
Lemma jcol_at w x y : 0 <= x <= w -> jcol w ((w + 1) * y + x) = w * y + (if x <=? (w + 1) / 2 then x else x - 1).
Proof.
  intros H. unfold jcol. replace ((w + 1) * y + x) with (x + y * (w + 1)) by lia. rewrite Z.mod_add, Z.div_add by lia. rewrite Z.mod_small, Z.div_small by lia. rewrite Z.add_0_l. auto.
Qed.
Lemma half_bound w : 0 <= w -> 2 * ((w + 1) / 2) <= w + 1 < 2 * ((w + 1) / 2) + 2.
Proof. intros H. pose proof (Z.div_mod (w + 1) 2 ltac:(lia)). pose proof (Z.mod_pos_bound (w + 1) 2 ltac:(lia)). lia. Qed.
Lemma mid_col typ w h x y : horizontal typ = false -> 0 <= x <= w -> 0 <= y -> mid typ (w + 1) h ((w + 1) * y + x) = (x =? (w + 1) / 2).
Proof.
  intros Ht Hx Hy. unfold mid. rewrite Ht. rewrite Z.quot_div_nonneg by lia. rewrite Z.rem_mod_nonneg by nia.
  replace ((w + 1) * y + x) with (x + y * (w + 1)) by lia. rewrite Z.mod_add by lia. rewrite Z.mod_small by lia. auto.
Qed.
Lemma jcol_step typ w h p : horizontal typ = false -> 0 <= w -> 0 <= p ->
  jcol w (p + 1) = if mid typ (w + 1) h p then jcol w p else jcol w p + 1.
Proof.
  intros Ht Hw Hp. rewrite (Z.div_mod p (w + 1)) by lia. set (y := p / (w + 1)). pose proof (Z.mod_pos_bound p (w + 1) ltac:(lia)) as Hx.
  assert (Hy : 0 <= y) by (apply Z.div_pos; lia).
  set (x := p mod (w + 1)) in *. rewrite mid_col, jcol_at by (auto; lia). pose proof (half_bound w Hw) as Hb. set (s := (w + 1) / 2) in *.
  destruct (Z.eq_dec x w) as [E|E].
  - replace ((w + 1) * y + x + 1) with ((w + 1) * (y + 1) + 0) by lia. rewrite jcol_at by lia. fold s.
    destruct (Z.leb_spec 0 s); [|lia]. destruct (Z.eqb_spec x s), (Z.leb_spec x s); lia.
  - replace ((w + 1) * y + x + 1) with ((w + 1) * y + (x + 1)) by lia. rewrite jcol_at by lia. fold s.
    destruct (Z.leb_spec (x + 1) s), (Z.eqb_spec x s), (Z.leb_spec x s); lia.
Qed.
Lemma col_raster typ w h show : horizontal typ = false -> 0 <= w -> 0 <= h ->
  with_column w h ((w + 1) / 2) show (pictures show (mid typ (w + 1) h) (jcol w) ((w + 1) * h)).
Proof.
  intros Ht Hw Hh x y Hx Hy. unfold pixel_at. rewrite nth_pictures by nia. f_equal. rewrite mid_col, jcol_at by (auto; lia).
  destruct (Z.eqb_spec x ((w + 1) / 2)); [auto|]. destruct (Z.leb_spec x ((w + 1) / 2)), (Z.ltb_spec x ((w + 1) / 2)); auto; lia.
Qed.
Lemma across_h typ : across typ <-> horizontal typ = true.
Proof. destruct typ; cbn; unfold across; split; auto; try discriminate; intros [|]; discriminate. Qed.
Lemma pictures_loop (show : Z -> color) (isMid : Z -> bool) (jof : Z -> Z) n : jof 0 = 0 -> (forall p, 0 <= p < n -> jof (p + 1) = if isMid p then jof p else jof p + 1) ->
  map snd (cmplLoop show isMid (upto n) 0) = pictures show isMid jof n.
Proof. intros H0 H. rewrite (cmplLoop_pixels show isMid jof n) by auto. rewrite map_map. cbn [snd]. reflexivity. Qed.

Lemma picture_l show typ w h max : 0 <= w -> 0 <= h -> let (w', h') := grown typ w h in
  exists px, plain_ppm w' h' max px ("P3" ++ newline ++ itoa w' ++ " " ++ itoa h' ++ newline ++ itoa max ++ newline ++
    prints (drawAt w') (cmplLoop show (mid typ w' h') (upto (w' * h')) 0)) /\
    (across typ -> with_row w h ((h + 1) / 2) show px) /\ (~ across typ -> with_column w h ((w + 1) / 2) show px).
Proof.
  intros Hw Hh. unfold grown. destruct (horizontal typ) eqn:Ht.
  - exists (map snd (cmplLoop show (mid typ w (h + 1)) (upto (w * (h + 1))) 0)). split; [|split].
    + split; [apply words_header|]. rewrite (pictures_loop show _ (jrow w (w * Z.quot (h + 1) 2))).
      * unfold pictures. rewrite map_length, upto_len. nia.
      * unfold jrow. rewrite Z.quot_div_nonneg by lia. pose proof (Z.div_pos (h + 1) 2 ltac:(lia) ltac:(lia)).
        destruct (Z.ltb_spec 0 (w * ((h + 1) / 2))); auto. destruct (Z.ltb_spec 0 (w * ((h + 1) / 2) + w)); nia.
      * intros p _. apply jrow_step; auto.
    + intros _. rewrite (pictures_loop show _ (jrow w (w * Z.quot (h + 1) 2))).
      * apply row_raster; auto.
      * unfold jrow. rewrite Z.quot_div_nonneg by lia. pose proof (Z.div_pos (h + 1) 2 ltac:(lia) ltac:(lia)).
        destruct (Z.ltb_spec 0 (w * ((h + 1) / 2))); auto. destruct (Z.ltb_spec 0 (w * ((h + 1) / 2) + w)); nia.
      * intros p _. apply jrow_step; auto.
    + intros H. destruct H. apply across_h. auto.
  - exists (map snd (cmplLoop show (mid typ (w + 1) h) (upto ((w + 1) * h)) 0)).
    assert (Hj : jcol w 0 = 0) by (replace 0 with ((w + 1) * 0 + 0) at 1 by lia; rewrite jcol_at by lia; pose proof (half_bound w Hw); destruct (Z.leb_spec 0 ((w + 1) / 2)); lia).
    split; [|split].
    + split; [apply words_header|]. rewrite (pictures_loop show _ (jcol w)); auto.
      * unfold pictures. rewrite map_length, upto_len. nia.
      * intros p Hp. apply jcol_step; auto. lia.
    + intros H. apply across_h in H. congruence.
    + intros _. rewrite (pictures_loop show _ (jcol w)); auto.
      * apply col_raster; auto.
      * intros p Hp. apply jcol_step; auto. lia.
Qed.
Lemma grown_full typ w h : grown typ w h = (full_width typ w, full_height typ h).
Proof. destruct typ; reflexivity. Qed.

Lemma cmpl_pgm_l orig cmpl typ w h max : 0 <= w -> 0 <= h ->
  exists px, plain_ppm (full_width typ w) (full_height typ h) (max - 1) px (imgCmplToPGM orig cmpl typ w h max) /\
    (across typ -> with_row w h ((h + 1) / 2) (showGray orig cmpl) px) /\ (~ across typ -> with_column w h ((w + 1) / 2) (showGray orig cmpl) px).
Proof.
  intros Hw Hh. pose proof (picture_l (showGray orig cmpl) typ w h (max - 1) Hw Hh) as H. unfold imgCmplToPGM. rewrite grown_full in *. exact H.
Qed.
Lemma cmpl_ppm_l orig cmpl typ w h : 0 <= w -> 0 <= h ->
  exists px, plain_ppm (full_width typ w) (full_height typ h) 255 px (imgCmplToPPM orig cmpl typ w h) /\
    (across typ -> with_row w h ((h + 1) / 2) (showBit orig cmpl) px) /\ (~ across typ -> with_column w h ((w + 1) / 2) (showBit orig cmpl) px).
Proof.
  intros Hw Hh. pose proof (picture_l (showBit orig cmpl) typ w h 255 Hw Hh) as H. unfold imgCmplToPPM. rewrite grown_full in *. exact H.
Qed.

(** Sides. *)
Lemma region_side_row (typ : cmplType) (w h : nat) x y : across typ -> Z.even (Z.of_nat h) = true -> 0 <= x < Z.of_nat w -> 0 <= y <= Z.of_nat h ->
  y <> (Z.of_nat h + 1) / 2 -> let p := Z.of_nat w * (if y <? (Z.of_nat h + 1) / 2 then y else y - 1) + x in
  pixel w h p /\ (region typ w h p <-> completed_side typ ((Z.of_nat h + 1) / 2) x y).
Proof.
  intros Ht He Hx Hy Hne p. apply Zeven_bool_iff, Zeven_ex in He as (k & Hk).
  assert (E1 : (Z.of_nat h + 1) / 2 = k) by (rewrite Hk; replace (2 * k + 1) with (1 + k * 2) by lia; rewrite Z.div_add by lia; auto).
  assert (E2 : Z.of_nat h / 2 = k) by (rewrite Hk, Z.mul_comm, Z.div_mul; lia).
  unfold p; clear p. rewrite E1 in *. set (q := if y <? k then y else y - 1). assert (Hq : 0 <= q < Z.of_nat h /\ (q < k <-> y < k)) by (unfold q; destruct (Z.ltb_spec y k); lia).
  clearbody q. destruct Hq as (Hq & Hqk).
  split.
  { unfold pixel. rewrite Nat2Z.inj_mul. assert (Z.of_nat w * (q + 1) <= Z.of_nat w * Z.of_nat h) by (apply Z.mul_le_mono_nonneg_l; lia).
    assert (0 <= Z.of_nat w * q) by (apply Z.mul_nonneg_nonneg; lia). rewrite Z.mul_add_distr_l, Z.mul_1_r in *. clear - Hx H H0. lia. }
  assert (Hd : (Z.of_nat w * q + x) / Z.of_nat w = q) by (rewrite Z.mul_comm, Z.div_add_l by lia; rewrite Z.div_small by lia; lia).
  destruct Ht as [-> | ->]; cbn [region completed_side]; rewrite Hd, E2; lia.
Qed.
Lemma region_side_col (typ : cmplType) (w h : nat) x y : ~ across typ -> Z.even (Z.of_nat w) = true -> 0 <= x <= Z.of_nat w -> 0 <= y < Z.of_nat h ->
  x <> (Z.of_nat w + 1) / 2 -> let p := Z.of_nat w * y + (if x <? (Z.of_nat w + 1) / 2 then x else x - 1) in
  pixel w h p /\ (region typ w h p <-> completed_side typ ((Z.of_nat w + 1) / 2) x y).
Proof.
  intros Ht He Hx Hy Hne p. apply Zeven_bool_iff, Zeven_ex in He as (k & Hk).
  assert (E1 : (Z.of_nat w + 1) / 2 = k) by (rewrite Hk; replace (2 * k + 1) with (1 + k * 2) by lia; rewrite Z.div_add by lia; auto).
  assert (E2 : Z.of_nat w / 2 = k) by (rewrite Hk, Z.mul_comm, Z.div_mul; lia).
  unfold p; clear p. rewrite E1 in *. set (q := if x <? k then x else x - 1). assert (Hq : 0 <= q < Z.of_nat w /\ (q < k <-> x < k)) by (unfold q; destruct (Z.ltb_spec x k); lia).
  clearbody q. destruct Hq as (Hq & Hqk).
  split.
  { unfold pixel. rewrite Nat2Z.inj_mul. assert (Z.of_nat w * (y + 1) <= Z.of_nat w * Z.of_nat h) by (apply Z.mul_le_mono_nonneg_l; lia).
    assert (0 <= Z.of_nat w * y) by (apply Z.mul_nonneg_nonneg; lia). rewrite Z.mul_add_distr_l, Z.mul_1_r in *. clear - Hq H H0. lia. }
  assert (Hd : (Z.of_nat w * y + q) mod Z.of_nat w = q) by (rewrite Z.add_comm, Z.mul_comm, Z.mod_add by lia; apply Z.mod_small; lia).
  destruct typ; try (exfalso; apply Ht; unfold across; auto; fail); cbn [region completed_side]; rewrite Hd, E2; lia.
Qed.
Lemma cmpl_sides_l orig cmpl typ (w h : nat) max :
  (forall p, pixel w h p -> get orig p = None <-> region typ w h p) -> Z.even (halved typ (Z.of_nat w) (Z.of_nat h)) = true ->
  exists px, plain_ppm (full_width typ (Z.of_nat w)) (full_height typ (Z.of_nat h)) (max - 1) px (imgCmplToPGM orig cmpl typ (Z.of_nat w) (Z.of_nat h) max) /\
    forall x y, let s := (halved typ (Z.of_nat w) (Z.of_nat h) + 1) / 2 in off_line typ (Z.of_nat w) (Z.of_nat h) s x y ->
      (completed_side typ s x y -> exists u, pixel_at (full_width typ (Z.of_nat w)) px x y = Some (0, u, 0)) /\
      (~ completed_side typ s x y -> exists v, pixel_at (full_width typ (Z.of_nat w)) px x y = Some (v, v, v)).
Proof.
  intros Ho He. destruct (cmpl_pgm_l orig cmpl typ (Z.of_nat w) (Z.of_nat h) max ltac:(lia) ltac:(lia)) as (px & Hp & Hr & Hc). exists px. split; auto.
  intros x y s Hoff.
  assert (G : exists p, pixel w h p /\ (region typ w h p <-> completed_side typ s x y) /\ pixel_at (full_width typ (Z.of_nat w)) px x y = Some (showGray orig cmpl p)).
  { destruct (horizontal typ) eqn:Ht.
    - assert (Ha : across typ) by (apply across_h; auto). specialize (Hr Ha). clear Hc.
      assert (Eh : halved typ (Z.of_nat w) (Z.of_nat h) = Z.of_nat h /\ full_width typ (Z.of_nat w) = Z.of_nat w /\ 0 <= x < Z.of_nat w /\ 0 <= y <= Z.of_nat h /\ y <> s)
        by (unfold off_line in Hoff; destruct typ; try discriminate; cbn; tauto).
      unfold s in *. destruct Eh as (E1 & E2 & Hx & Hy & Hne). rewrite E1, E2 in *.
      destruct (region_side_row typ w h x y Ha He Hx Hy Hne) as (H1 & H2). eexists. split; [exact H1|]. split; [exact H2|].
      rewrite Hr by auto. destruct (Z.eqb_spec y ((Z.of_nat h + 1) / 2)); [congruence|auto].
    - assert (Ha : ~ across typ) by (intros H; apply across_h in H; congruence). specialize (Hc Ha). clear Hr.
      assert (Eh : halved typ (Z.of_nat w) (Z.of_nat h) = Z.of_nat w /\ full_width typ (Z.of_nat w) = Z.of_nat w + 1 /\ 0 <= x <= Z.of_nat w /\ 0 <= y < Z.of_nat h /\ x <> s)
        by (unfold off_line in Hoff; destruct typ; try discriminate; cbn; tauto).
      unfold s in *. destruct Eh as (E1 & E2 & Hx & Hy & Hne). rewrite E1, E2 in *.
      destruct (region_side_col typ w h x y Ha He Hx Hy Hne) as (H1 & H2). eexists. split; [exact H1|]. split; [exact H2|].
      rewrite Hc by auto. destruct (Z.eqb_spec x ((Z.of_nat w + 1) / 2)); [congruence|auto]. }
  destruct G as (p & Hpx & Hrs & E). rewrite E. unfold showGray. specialize (Ho p Hpx). destruct (get orig p) as [v|] eqn:G.
  - split; [|eauto]. intros Hs. apply Hrs, Ho in Hs. discriminate.
  - split; [eauto|]. intros Hs. exfalso. apply Hs, Hrs, Ho. auto.
Qed.

(** Components. *)
Lemma cmplLoop_colors show isMid is_ : forall j c, In c (map snd (cmplLoop show isMid is_ j)) -> c = Red \/ exists k, c = show k.
Proof.
  induction is_ as [|i t IH]; intros j c H; [destruct H|]. cbn [cmplLoop] in H. destruct (isMid i); cbn [map snd In] in H.
  - destruct H as [<-|H]; eauto.
  - destruct H as [<-|H]; eauto.
Qed.
Lemma picture_raw_l show typ w h max : 0 <= w -> 0 <= h ->
  plain_ppm (full_width typ w) (full_height typ h) max (map snd (cmplLoop show (mid typ (full_width typ w) (full_height typ h)) (upto (full_width typ w * full_height typ h)) 0))
    ("P3" ++ newline ++ itoa (full_width typ w) ++ " " ++ itoa (full_height typ h) ++ newline ++ itoa max ++ newline ++
     prints (drawAt (full_width typ w)) (cmplLoop show (mid typ (full_width typ w) (full_height typ h)) (upto (full_width typ w * full_height typ h)) 0)).
Proof.
  intros Hw Hh. split; [apply words_header|]. rewrite map_length.
  assert (L : forall l j, List.length (cmplLoop show (mid typ (full_width typ w) (full_height typ h)) l j) = List.length l).
  { induction l as [|i l IH]; intros j; auto. cbn [cmplLoop]. destruct (mid _ _ _ i); cbn [List.length]; rewrite IH; auto. }
  rewrite L, upto_len. assert (0 <= full_width typ w /\ 0 <= full_height typ h) by (destruct typ; cbn; lia). nia.
Qed.
Lemma cmpl_within_l orig cmpl typ w h max : 0 <= w -> 0 <= h -> 256 <= max ->
  (forall p v, get orig p = Some v \/ get cmpl p = Some v -> 0 <= v < max) ->
  exists px, plain_ppm (full_width typ w) (full_height typ h) (max - 1) px (imgCmplToPGM orig cmpl typ w h max) /\ within (max - 1) px.
Proof.
  intros Hw Hh Hm Hv. eexists. split; [unfold imgCmplToPGM; rewrite grown_full; apply picture_raw_l; auto|].
  intros r g b H. apply cmplLoop_colors in H as [H|(k & H)].
  - injection H as -> -> ->. lia.
  - unfold showGray in H. destruct (get orig k) as [v|] eqn:G.
    + injection H as -> -> ->. specialize (Hv k v (or_introl G)). lia.
    + injection H as -> -> ->. unfold get0. destruct (get cmpl k) as [u|] eqn:G2; [|lia]. specialize (Hv k u (or_intror G2)). lia.
Qed.
Lemma cmpl_ppm_within_l orig cmpl typ w h : 0 <= w -> 0 <= h ->
  exists px, plain_ppm (full_width typ w) (full_height typ h) 255 px (imgCmplToPPM orig cmpl typ w h) /\ within 255 px.
Proof.
  intros Hw Hh. eexists. split; [unfold imgCmplToPPM; rewrite grown_full; apply picture_raw_l; auto|].
  intros r g b H. apply cmplLoop_colors in H as [H|(k & H)]; [injection H as -> -> ->; lia|].
  unfold showBit in H. destruct (get orig k) as [v|]; [destruct (v =? 1)|destruct (get0 cmpl k =? 1)]; injection H as -> -> ->; lia.
Qed.

(** The same in the words of the specification. *)
Lemma showGray_spec orig cmpl p : showGray orig cmpl p = grey_or_green orig cmpl p.
Proof. unfold showGray, grey_or_green, get0. destruct (get orig p), (get cmpl p); auto. Qed.
Lemma showBit_spec orig cmpl p : showBit orig cmpl p = blue_or_green orig cmpl p.
Proof.
  unfold showBit, blue_or_green, get0. destruct (get orig p) as [v|].
  - destruct (Z.eqb_spec v 1) as [->|Hv]; [reflexivity|]. destruct v as [|[p'|p'|]|]; try reflexivity; congruence.
  - destruct (get cmpl p) as [v|]; [|reflexivity]. destruct (Z.eqb_spec v 1) as [->|Hv]; [reflexivity|]. destruct v as [|[p'|p'|]|]; try reflexivity; congruence.
Qed.
Lemma with_row_ext w h s f g px : (forall p, f p = g p) -> with_row w h s f px -> with_row w h s g px.
Proof. intros E H x y Hx Hy. rewrite H by auto. destruct (y =? s); auto. rewrite E. auto. Qed.
Lemma with_column_ext w h s f g px : (forall p, f p = g p) -> with_column w h s f px -> with_column w h s g px.
Proof. intros E H x y Hx Hy. rewrite H by auto. destruct (x =? s); auto. rewrite E. auto. Qed.
Lemma cmpl_pgm_spec_l orig cmpl typ w h max : 0 <= w -> 0 <= h ->
  exists px, plain_ppm (full_width typ w) (full_height typ h) (max - 1) px (imgCmplToPGM orig cmpl typ w h max) /\
    (across typ -> with_row w h ((h + 1) / 2) (grey_or_green orig cmpl) px) /\ (~ across typ -> with_column w h ((w + 1) / 2) (grey_or_green orig cmpl) px).
Proof.
  intros Hw Hh. destruct (cmpl_pgm_l orig cmpl typ w h max Hw Hh) as (px & H1 & H2 & H3). exists px. split; auto. split; intros Ha.
  - eapply with_row_ext; [apply showGray_spec|auto].
  - eapply with_column_ext; [apply showGray_spec|auto].
Qed.
Lemma cmpl_ppm_spec_l orig cmpl typ w h : 0 <= w -> 0 <= h ->
  exists px, plain_ppm (full_width typ w) (full_height typ h) 255 px (imgCmplToPPM orig cmpl typ w h) /\
    (across typ -> with_row w h ((h + 1) / 2) (blue_or_green orig cmpl) px) /\ (~ across typ -> with_column w h ((w + 1) / 2) (blue_or_green orig cmpl) px).
Proof.
  intros Hw Hh. destruct (cmpl_ppm_l orig cmpl typ w h Hw Hh) as (px & H1 & H2 & H3). exists px. split; auto. split; intros Ha.
  - eapply with_row_ext; [apply showBit_spec|auto].
  - eapply with_column_ext; [apply showBit_spec|auto].
Qed.
