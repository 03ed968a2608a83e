(** Proofs about the creation and linking of regions. *)
From Verif Require Import Base Res Arith GraphSpec Spn Leaves Build Poon PoonSpec PoonCodes ProbSpec
  ScopedLemmas.
Local Open Scope Z_scope.

Lemma In_steps a b d x : 0 < d -> (In x (steps a b d) <-> a <= x <= b /\ (d | x - a)).
Proof.
  intros Hd. unfold steps. rewrite in_map_iff. split.
  - intros (i & E & I). apply in_seq in I. subst x.
    assert (B : Z.of_nat i < (b - a + d) / d) by lia.
    assert (C : d * ((b - a + d) / d) <= b - a + d) by (apply Z.mul_div_le; lia).
    split; [|exists (Z.of_nat i); lia]. nia.
  - intros [Hx (q & E)]. assert (0 <= q) by nia. exists (Z.to_nat q). split; [lia|].
    apply in_seq. assert (q + 1 <= (b - a + d) / d) by (apply Z.div_le_lower_bound; nia). lia.
Qed.

Lemma in_coarse w h r cw ch ca cb x1 y1 : 0 < r ->
  In (ca, cb, x1, y1) (coarse w h r cw ch) <->
  1 <= ca <= cw /\ 1 <= cb <= ch /\ (0 <= x1 <= w - ca * r /\ (r | x1)) /\
  (0 <= y1 <= h - cb * r /\ (r | y1)).
Proof.
  intros Hr. unfold coarse. rewrite in_flat_map. split.
  - intros (ca' & I1 & I). apply in_flat_map in I. destruct I as (cb' & I2 & I).
    apply in_flat_map in I. destruct I as (x1' & I3 & I). apply in_map_iff in I.
    destruct I as (y1' & E & I4). injection E as -> -> -> ->.
    apply In_steps in I1, I2, I3, I4; try lia. rewrite Z.sub_0_r in I3, I4. tauto.
  - intros (I1 & I2 & I3 & I4). exists ca. split; [apply In_steps; [lia|split; [lia|apply Z.divide_1_l]]|].
    apply in_flat_map. exists cb. split; [apply In_steps; [lia|split; [lia|apply Z.divide_1_l]]|].
    apply in_flat_map. exists x1. split; [apply In_steps; auto; rewrite Z.sub_0_r; auto|].
    apply in_map_iff. exists y1. split; auto. apply In_steps; auto; rewrite Z.sub_0_r; auto.
Qed.

Lemma in_fine r cw ch x y x1 y1 :
  In (x, y, x1, y1) (fine r cw ch) <->
  1 <= x <= r /\ 1 <= y <= r /\ exists ca cb, 0 <= ca < cw /\ 0 <= cb < ch /\
  ca * r <= x1 <= (ca + 1) * r - x /\ cb * r <= y1 <= (cb + 1) * r - y.
Proof.
  assert (D1 : forall z, (1 | z)) by apply Z.divide_1_l.
  unfold fine. rewrite in_flat_map. split.
  - intros (ca & I1 & I). apply in_flat_map in I. destruct I as (cb & I2 & I).
    apply in_flat_map in I. destruct I as (x' & I3 & I).
    apply in_flat_map in I. destruct I as (y' & I4 & I).
    apply in_flat_map in I. destruct I as (x1' & I5 & I). apply in_map_iff in I.
    destruct I as (y1' & E & I6). injection E as -> -> -> ->.
    apply In_steps in I1, I2, I3, I4, I5, I6; try lia.
    split; [tauto|]. split; [tauto|]. exists ca, cb. intuition lia.
  - intros (Hx & Hy & ca & cb & Ha & Hb & H1 & H2).
    exists ca. split; [apply In_steps; [lia|split; [lia|auto]]|].
    apply in_flat_map. exists cb. split; [apply In_steps; [lia|split; [lia|auto]]|].
    apply in_flat_map. exists x. split; [apply In_steps; [lia|split; [lia|auto]]|].
    apply in_flat_map. exists y. split; [apply In_steps; [lia|split; [lia|auto]]|].
    apply in_flat_map. exists x1. split; [apply In_steps; [lia|split; [lia|auto]]|].
    apply in_map_iff. exists y1. split; auto. apply In_steps; [lia|split; [lia|auto]].
Qed.

Section Poon.
Context {A : arith}.
Local Notation F := (F A).
Variables w h : Z.
Variable par : Z -> nat -> F * F.
Variable logProb : F -> F -> F -> F.
Variables trunc round : F -> Z.
Variable rnd : nat -> Z.
Hypothesis w1 : 0 < w.
Hypothesis h1 : 0 < h.
Hypothesis fit : codes_fit w h.
Hypothesis rnd10 : forall i, 0 <= rnd i < 10.

Local Notation inside := (inside w h).
Definition code (a : rect) : Z := encode w h (left a) (top a) (right a) (bottom a).

Lemma code_inj a b : inside a -> inside b -> code a = code b -> a = b.
Proof.
  intros (A1 & A2 & A3 & A4) (B1 & B2 & B3 & B4) E.
  assert (X : (left a, top a, right a, bottom a) = (left b, top b, right b, bottom b)).
  { apply (encode_inj_l w h); auto; lia. }
  injection X as E1 E2 E3 E4. destruct a, b; simpl in *. congruence.
Qed.

Lemma decode_code a : inside a -> decode w h (code a) = Ok (left a, top a, right a, bottom a).
Proof. intros (A1 & A2 & A3 & A4). apply decode_encode_l; auto; lia. Qed.

Definition unitR (a : rect) : Prop := right a = left a + 1 /\ bottom a = top a + 1.
Definition isSum (n : node A) : Prop := match nk n with KSum _ => True | _ => False end.
Definition isProd (n : node A) : Prop := match nk n with KProd => True | _ => False end.
Definition isLeaf (n : node A) : Prop := match nk n with KLeaf _ => True | _ => False end.

Definition okWeight (x : F) : Prop := exists n, 1 <= n <= 10 /\ x = fz n.

(** The region of node [u] lists it. *)
Definition held (L : table) (G : nat -> rect) (u : nat) : Prop :=
  exists R, L (code (G u)) = Some R /\ In u (rinner R).

Definition node_good (L : table) (H : nodes A) (G : nat -> rect) (u : nat) (n : node A) : Prop :=
  inside (G u) /\
  match nk n with
  | KSum ws => length ws = length (nch n) /\ Forall okWeight ws /\
      forall c, In c (nch n) -> G c = G u /\ exists n', nth_error H c = Some n' /\ isProd n'
  | KProd => exists a b na nb, nch n = [a; b] /\ cut (G u) (G a) (G b) /\
      nth_error H a = Some na /\ nth_error H b = Some nb /\ ~ isProd na /\ ~ isProd nb /\
      held L G a /\ held L G b
  | KLeaf l => nch n = [] /\ unitR (G u) /\ lsc l = [left (G u) + top (G u) * w]
  end.

Definition good (L : table) (H : nodes A) (G : nat -> rect) : Prop :=
  forall u n, nth_error H u = Some n -> node_good L H G u n.

(** Region [R] of rectangle [a]: sum nodes, or leaves for a single pixel. *)
Definition regionOk (H : nodes A) (G : nat -> rect) (a : rect) (R : region) : Prop :=
  rinner R <> [] /\
  forall u, In u (rinner R) -> exists n, nth_error H u = Some n /\ G u = a /\
    (unitR a -> isLeaf n) /\ (~ unitR a -> isSum n).

Definition tableOk (L : table) (H : nodes A) (G : nat -> rect) : Prop :=
  forall a R, inside a -> L (code a) = Some R -> regionOk H G a R.

(** What creation maintains. *)
Definition created (don : rect -> Prop) (st : nodes A * table) : Prop :=
  exists G, (forall u n, nth_error (fst st) u = Some n ->
               inside (G u) /\ (n = mkNode (KSum []) [] \/
               exists l, n = mkNode (KLeaf l) [] /\ unitR (G u) /\ lsc l = [left (G u) + top (G u) * w])) /\
    tableOk (snd st) (fst st) G /\
    (forall a, inside a -> don a -> snd st (code a) <> None).

Lemma created_weak (don don' : rect -> Prop) st : (forall a, don' a -> don a) -> created don st -> created don' st.
Proof. intros Hd (G & A1 & A2 & A3). exists G. split; [|split]; auto. Qed.

Lemma created_add don H L a N step : created don (H, L) -> inside a -> N <> [] ->
  (forall n, In n N -> (~ unitR a /\ n = mkNode (KSum []) []) \/
     (unitR a /\ exists l, n = mkNode (KLeaf l) [] /\ lsc l = [left a + top a * w])) ->
  created (fun b => b = a \/ don b)
    (H ++ N, updZ L (code a) (Some (mkRegion (seq (length H) (length N)) step))).
Proof.
  intros (G & A1 & A2 & A3) Ia Ne HN. cbn [fst snd] in *.
  set (G' := fun u => if (u <? length H)%nat then G u else a).
  assert (Glt : forall u, (u < length H)%nat -> G' u = G u).
  { intros u Hu. unfold G'. destruct (Nat.ltb_spec u (length H)); auto; lia. }
  assert (Gge : forall u, (length H <= u)%nat -> G' u = a).
  { intros u Hu. unfold G'. destruct (Nat.ltb_spec u (length H)); auto; lia. }
  exists G'. cbn [fst snd]. split; [|split].
  - intros u n E. destruct (Nat.lt_ge_cases u (length H)) as [Lt|Ge].
    + rewrite nth_error_app1 in E by auto. rewrite Glt by auto. auto.
    + rewrite nth_error_app2 in E by auto. rewrite Gge by auto. split; auto.
      apply nth_error_In in E. destruct (HN n E) as [[_ ->]|(U & l & -> & Sc)]; auto.
      right. exists l. auto.
  - intros b R Ib E. destruct (Z.eq_dec (code b) (code a)) as [Ec|Nc].
    + assert (b = a) as -> by (apply code_inj; auto). rewrite updZ_same in E. injection E as <-.
      split; cbn [rinner].
      * destruct N; [congruence|]. simpl. discriminate.
      * intros u Hu. apply in_seq in Hu. destruct (nth_error N (u - length H)) as [n|] eqn:En.
        -- exists n. rewrite nth_error_app2 by lia. split; auto. split; [apply Gge; lia|].
           apply nth_error_In in En. destruct (HN n En) as [[U ->]|(U & l & -> & Sc)].
           ++ split; intros; [contradiction|]. exact Logic.I.
           ++ split; intros; [|contradiction]. exact Logic.I.
        -- apply nth_error_None in En. lia.
    + rewrite updZ_diff in E by auto. destruct (A2 b R Ib E) as [B1 B2]. split; auto.
      intros u Hu. destruct (B2 u Hu) as (n & En & Gu & Kn). exists n.
      assert (u < length H)%nat by (apply nth_error_Some; congruence).
      rewrite nth_error_app1 by auto. rewrite Glt by auto. auto.
  - intros b Ib Hb. destruct (Z.eq_dec (code b) (code a)) as [Ec|Nc].
    + rewrite Ec, updZ_same. discriminate.
    + rewrite updZ_diff by auto. destruct Hb as [-> |Hb]; [congruence|]. auto.
Qed.

Lemma fold_created {B} (f : nodes A * table -> B -> nodes A * table) (rects : B -> rect -> Prop) l :
  (forall i don st, In i l -> created don st -> created (fun a => rects i a \/ don a) (f st i)) ->
  forall don st, created don st ->
  created (fun a => (exists i, In i l /\ rects i a) \/ don a) (fold_left f l st).
Proof.
  induction l as [|i l IH]; intros Hf don st C; cbn [fold_left].
  - eapply created_weak; [|exact C]. intros a [(i & [] & _)|D]; auto.
  - eapply created_weak; [|apply IH; [intros; apply Hf; [right; auto|auto]|apply Hf; [left; auto|exact C]]].
    intros a [(j & [-> |Hj] & Ha)|D]; auto. left. eauto.
Qed.

Section Create.
Variables m g : nat.
Variable r : Z.
Hypothesis m1 : (0 < m)%nat.
Hypothesis g1 : (0 < g)%nat.
Hypothesis r1 : 0 < r.
Let cw := Z.quot w r.
Let ch := Z.quot h r.

Lemma cw_le : 0 <= cw /\ cw * r <= w.
Proof. unfold cw. rewrite Z.quot_div_nonneg by lia. split; [apply Z.div_pos; lia|]. pose proof (Z.mul_div_le w r r1). lia. Qed.
Lemma ch_le : 0 <= ch /\ ch * r <= h.
Proof. unfold ch. rewrite Z.quot_div_nonneg by lia. split; [apply Z.div_pos; lia|]. pose proof (Z.mul_div_le h r r1). lia. Qed.

Definition coarseRect (i : Z * Z * Z * Z) (a : rect) : Prop :=
  let '(ca, cb, x1, y1) := i in (ca <> 1 \/ cb <> 1) /\ a = Rect x1 y1 (x1 + ca * r) (y1 + cb * r).
Definition fineRect (i : Z * Z * Z * Z) (a : rect) : Prop :=
  let '(x, y, x1, y1) := i in a = Rect x1 y1 (x1 + x) (y1 + y).

Lemma coarse_created i don st : In i (coarse w h r cw ch) -> created don st ->
  created (fun a => coarseRect i a \/ don a) (createCoarse w h m r cw ch st i).
Proof.
  intros I C. destruct i as [[[ca cb] x1] y1], st as [H L]. unfold createCoarse, coarseRect.
  apply in_coarse in I; auto. destruct I as (Ia & Ib & (Ix & _) & (Iy & _)).
  destruct ((ca =? 1) && (cb =? 1)) eqn:U.
  { apply andb_prop in U. destruct U as [U1 U2]. apply Z.eqb_eq in U1, U2.
    eapply created_weak; [|exact C]. intros a [[[?|?] _]|D]; auto; lia. }
  unfold createSums; cbv zeta beta iota.
  set (k0 := if (ca =? cw) && (cb =? ch) then 1%nat else m).
  assert (Kp : (0 < k0)%nat) by (unfold k0; destruct ((ca =? cw) && (cb =? ch)); [apply Nat.lt_0_1|exact m1]).
  pose proof (created_add don H L (Rect x1 y1 (x1 + ca * r) (y1 + cb * r))
    (repeat (mkNode (KSum []) []) k0) r C) as X.
  rewrite repeat_length in X. eapply created_weak; [|apply X].
  - intros a [[_ ->]|D]; auto.
  - unfold PoonSpec.inside; simpl; nia.
  - destruct k0; [lia|simpl; discriminate].
  - intros n Hn. apply repeat_spec in Hn. left. split; auto. unfold unitR; simpl.
    apply andb_false_iff in U. destruct U as [U|U]; apply Z.eqb_neq in U; nia.
Qed.

Lemma fine_created i don st : In i (fine r cw ch) -> created don st ->
  created (fun a => fineRect i a \/ don a) (createFine w h par logProb trunc round m g r st i).
Proof.
  intros I C. destruct i as [[[x y] x1] y1], st as [H L]. unfold createFine, fineRect.
  apply in_fine in I. destruct I as (Ix & Iy & ca & cb & Ha & Hb & B1 & B2).
  pose proof cw_le as [_ Cw]. pose proof ch_le as [_ Ch].
  assert (In' : inside (Rect x1 y1 (x1 + x) (y1 + y))).
  { unfold PoonSpec.inside; simpl.
    assert ((ca + 1) * r <= cw * r) by nia. assert ((cb + 1) * r <= ch * r) by nia. nia. }
  destruct ((x =? 1) && (y =? 1)) eqn:U.
  - apply andb_prop in U. destruct U as [U1 U2]. apply Z.eqb_eq in U1, U2. subst x y.
    unfold createUnit. cbv zeta beta iota.
    match goal with |- created _ (H ++ ?N, _) =>
      pose proof (created_add don H L (Rect x1 y1 (x1 + 1) (y1 + 1)) N 1 C In') as X;
      assert (LN : length N = g) by (rewrite map_length, seq_length; auto) end.
    rewrite LN in X. eapply created_weak; [|apply X].
    + intros a [-> |D]; auto.
    + intros E. rewrite E in LN. simpl in LN. lia.
    + intros n Hn. apply in_map_iff in Hn. destruct Hn as (j & <- & _). right.
      split; [unfold unitR; simpl; lia|]. eexists. split; reflexivity.
  - unfold createSums. cbv zeta beta iota.
    match goal with |- created _ (H ++ repeat ?n ?k, updZ L ?c (Some (mkRegion _ ?s))) =>
      pose proof (created_add don H L (Rect x1 y1 (x1 + x) (y1 + y)) (repeat n k) s C In') as X end.
    rewrite repeat_length in X. eapply created_weak; [|apply X].
    + intros a [-> |D]; auto.
    + destruct m; [lia|simpl; discriminate].
    + intros n Hn. apply repeat_spec in Hn. left. split; auto. unfold unitR; simpl.
      apply andb_false_iff in U. destruct U as [U|U]; apply Z.eqb_neq in U; lia.
Qed.

Hypothesis rw : (r | w).
Hypothesis rh : (r | h).

Lemma createRegions_l :
  exists H L, createRegions w h par logProb trunc round m g r = Ok (H, L) /\
    created (region_at r) (H, L).
Proof.
  unfold createRegions. destruct (Z.eqb_spec r 0); [lia|]. cbv zeta. fold cw ch.
  assert (C0 : created (fun _ => False) ([], fun _ => None)).
  { exists (fun _ => Rect 0 0 0 0). cbn [fst snd]. split; [|split].
    - intros u n' E. destruct u; discriminate.
    - intros a R _ E. discriminate.
    - intros a _ []. }
  pose proof (fold_created _ coarseRect (coarse w h r cw ch) coarse_created _ _ C0) as C1.
  pose proof (fold_created _ fineRect (fine r cw ch) fine_created _ _ C1) as C2.
  destruct (fold_left _ (fine _ _ _) _) as [H L] eqn:E. exists H, L. split; auto.
  (* regions outside the image are not required: use the inside hypothesis through [created] *)
  destruct C2 as (G & B1 & B2 & B3). exists G. split; [|split]; auto.
  intros a Ia Ra. apply B3; auto. destruct a as [x1 y1 x2 y2]. unfold PoonSpec.inside in Ia; simpl in Ia.
  assert (Ew : cw * r = w).
  { unfold cw. rewrite Z.quot_div_nonneg by lia. destruct rw as (q & ->). rewrite Z.div_mul by lia. auto. }
  assert (Eh : ch * r = h).
  { unfold ch. rewrite Z.quot_div_nonneg by lia. destruct rh as (q & ->). rewrite Z.div_mul by lia. auto. }
  assert (Fine : forall i j, i * r <= x1 -> x2 <= (i + 1) * r -> j * r <= y1 -> y2 <= (j + 1) * r ->
            exists i, In i (fine r cw ch) /\ fineRect i (Rect x1 y1 x2 y2)).
  { intros i j K1 K2 K3 K4. exists (x2 - x1, y2 - y1, x1, y1). split.
    - apply in_fine. split; [lia|]. split; [lia|]. exists i, j.
      assert (0 <= i) by nia. assert (0 <= j) by nia.
      assert (i < cw) by nia. assert (j < ch) by nia. lia.
    - simpl. f_equal; lia. }
  destruct Ra as [(D1 & D2 & D3 & D4)|(i & j & K)]; simpl in *.
  - destruct D1 as (i & ->), D2 as (j & ->), D3 as (i' & ->), D4 as (j' & ->).
    destruct (Z.eq_dec (i' - i) 1) as [E1|N1], (Z.eq_dec (j' - j) 1) as [E2|N2].
    { left. apply (Fine i j); nia. }
    all: right; left; exists (i' - i, j' - j, i * r, j * r); split;
      [apply in_coarse; auto; split; [nia|split; [nia|split; (split; [nia|apply Z.divide_factor_r])]]
      |simpl; split; [lia|f_equal; ring]].
  - left. destruct K as (K1 & K2 & K3 & K4). apply (Fine i j); auto.
Qed.
End Create.

End Poon.
