(** The regions Structure works on, and the network of a run that returns. *)
From Verif Require Import Base Res Arith LogMath GraphSpec Storer Spn Leaves Build Poon PoonSpec PoonCodes PoonLemmas
  PoonLink PoonConn PoonLearn ProbSpec ScopedLemmas GraphLemmas PoonRun.
Local Open Scope Z_scope.

(** Labels that only bound the scopes from above. *)
Section Under.
Context {A : arith}.
Variable net : network A.
Variable lab : nat -> Z -> Prop.
Variable rank : nat -> nat.
Variable P : nat -> Prop.
Definition under_label (u : nat) : Prop :=
  match nk (net u) with
  | KSum _ => forall c, In c (nch (net u)) -> forall x, lab c x -> lab u x
  | KProd => (forall x c, In c (nch (net u)) -> lab c x -> lab u x) /\
             (forall i j c c' x, i <> j -> nth_error (nch (net u)) i = Some c ->
                nth_error (nch (net u)) j = Some c' -> lab c x -> ~ lab c' x)
  | KLeaf l => nch (net u) = [] /\ forall x, In x (lsc l) -> lab u x
  end.
Hypothesis fits : forall u, P u -> under_label u.
Hypothesis closed : forall u c, P u -> In c (nch (net u)) -> P c /\ (rank c < rank u)%nat.

Lemma under_scope u v : reach (children net) u v -> P u -> forall l x, nk (net v) = KLeaf l -> In x (lsc l) -> lab u x.
Proof.
  induction 1 as [u|u c v Ic R IH]; intros Pu l x K Ix.
  - pose proof (fits u Pu) as Fu. unfold under_label in Fu. rewrite K in Fu. apply Fu; auto.
  - destruct (closed u c Pu Ic) as [Pc _]. specialize (IH Pc l x K Ix). pose proof (fits u Pu) as Fu. unfold under_label in Fu.
    change (children net u) with (nch (net u)) in Ic. destruct (nk (net u)).
    + eapply Fu; eauto.
    + destruct Fu as [F1 _]. eapply F1; eauto.
    + destruct Fu as [F1 _]. rewrite F1 in Ic. destruct Ic.
Qed.

Lemma under_network z : P z -> (forall x, in_scope net z x -> lab z x) /\ decomposable net z /\ acyclic_from (children net) z.
Proof.
  intros Pz. split; [|split].
  - intros x (v & l & R & K & Ix). eapply under_scope; eauto.
  - intros u i j c c' x R K ij Ei Ej (v & l & R1 & K1 & I1) (v' & l' & R2 & K2 & I2).
    pose proof (P_reach net rank P closed z u R Pz) as Pu. pose proof (fits u Pu) as Fu. unfold under_label in Fu. rewrite K in Fu. destruct Fu as [_ Fu].
    destruct (closed u c Pu (nth_error_In _ _ Ei)) as [Pc _]. destruct (closed u c' Pu (nth_error_In _ _ Ej)) as [Pc' _].
    apply (Fu i j c c' x ij Ei Ej); eapply under_scope; eauto.
  - intros u c R Ic Rc. pose proof (P_reach net rank P closed z u R Pz) as Pu. destruct (closed u c Pu Ic) as [Pc lt].
    pose proof (rank_reach net rank P closed c u Rc Pc). lia.
Qed.
End Under.

Lemma fold_left_inv {B S0} (P : S0 -> Prop) (f : S0 -> B -> S0) l : (forall s i, In i l -> P s -> P (f s i)) -> forall s, P s -> P (fold_left f l s).
Proof. induction l as [|i l IH]; intros Hf s Ps; simpl; auto. apply IH; [intros; apply Hf; [right|]; auto|]. apply Hf; [left|]; auto. Qed.

(** Facts about the table of regions. *)
Section Info.
Context {A : arith}.
Local Notation F := (F A).
Variables w h : Z.
Hypothesis w1 : 0 < w.
Hypothesis h1 : 0 < h.
Hypothesis fit : codes_fit w h.
Variable par : Z -> nat -> F * F.
Variable logProb : F -> F -> F -> F.
Variables trunc round : F -> Z.
Variables m g : nat.
Variable r : Z.
Hypothesis r1 : 0 < r.
Hypothesis rw : (r | w).
Hypothesis rh : (r | h).

Definition info (L : Poon.table) : Prop := forall a R, inside w h a -> L (code w h a) = Some R ->
  region_at r a /\
  okStep r (rstep R) a /\ (~ unitR a -> rstep R < right a - left a \/ rstep R < bottom a - top a) /\
  (unitR a -> length (rinner R) = g) /\
  (~ unitR a -> a = Rect 0 0 w h -> ~ (w = r /\ h = r) -> length (rinner R) = 1%nat) /\
  (~ unitR a -> a <> Rect 0 0 w h \/ (w = r /\ h = r) -> length (rinner R) = m).

Lemma info_add L a R : inside w h a -> info L ->
  region_at r a -> okStep r (rstep R) a -> (~ unitR a -> rstep R < right a - left a \/ rstep R < bottom a - top a) ->
  (unitR a -> length (rinner R) = g) ->
  (~ unitR a -> a = Rect 0 0 w h -> ~ (w = r /\ h = r) -> length (rinner R) = 1%nat) ->
  (~ unitR a -> a <> Rect 0 0 w h \/ (w = r /\ h = r) -> length (rinner R) = m) ->
  info (updZ L (code w h a) (Some R)).
Proof.
  intros Ia Hi H1 H2 H3 H4 H5 H6 b R' Ib E. destruct (Z.eq_dec (code w h b) (code w h a)) as [Ec|Nc].
  - assert (b = a) by (apply (code_inj w h); auto). subst b. rewrite updZ_same in E. injection E as <-. auto 10.
  - rewrite updZ_diff in E by auto. auto.
Qed.

Lemma createRegions_info H L : createRegions w h par logProb trunc round m g r = Ok (H, L) -> info L.
Proof.
  unfold createRegions. destruct (Z.eqb_spec r 0); [lia|]. cbv zeta. set (cw := Z.quot w r). set (ch := Z.quot h r).
  assert (Ew : cw * r = w).
  { unfold cw. rewrite Z.quot_div_nonneg by lia. destruct rw as (q & ->). rewrite Z.div_mul by lia. auto. }
  assert (Eh : ch * r = h).
  { unfold ch. rewrite Z.quot_div_nonneg by lia. destruct rh as (q & ->). rewrite Z.div_mul by lia. auto. }
  intros E. injection E as E.
  change L with (snd (H, L)). rewrite <- E.
  clear E H L.
  apply (fold_left_inv (fun st : nodes A * Poon.table => info (snd st))); [|apply (fold_left_inv (fun st : nodes A * Poon.table => info (snd st)))].
  - intros [H L] [[[x y] x1] y1] I Hi. cbn [snd] in Hi. unfold createFine. apply in_fine in I. destruct I as (Ix & Iy & ca & cb & Ha & Hb & B1 & B2).
    set (a := Rect x1 y1 (x1 + x) (y1 + y)).
    assert (Ia : inside w h a).
    { unfold inside; simpl. assert ((ca + 1) * r <= cw * r) by nia. assert ((cb + 1) * r <= ch * r) by nia. nia. }
    assert (Ic : in_cell r a) by (exists ca, cb; simpl; lia).
    change (encode w h x1 y1 (x1 + x) (y1 + y)) with (code w h a).
    destruct ((x =? 1) && (y =? 1)) eqn:U.
    + apply andb_prop in U. destruct U as [U1 U2]. apply Z.eqb_eq in U1, U2. subst x y. unfold createUnit. cbv zeta. cbn [snd].
      assert (Ua : unitR a) by (unfold unitR, a; simpl; lia).
      apply info_add; auto; cbn [rstep rinner]; try (intros; contradiction).
      * right. exact Ic.
      * left. auto.
      * intros _. apply seq_length.
    + assert (Ua : ~ unitR a).
      { unfold unitR, a; simpl. apply andb_false_iff in U. destruct U as [U|U]; apply Z.eqb_neq in U; lia. }
      assert (Est : (if (x <=? r) || (y <=? r) then 1 else r) = 1) by (destruct (Z.leb_spec x r); [reflexivity|lia]).
      rewrite Est. unfold createSums. cbn [snd].
      apply info_add; auto; cbn [rstep rinner]; try (intros; contradiction).
      * right. exact Ic.
      * left. auto.
      * intros _. unfold unitR, a in *; simpl in *. lia.
      * intros _ Er Ne. exfalso. apply Ne. unfold a in Er. injection Er as -> -> E3 E4. destruct rw as (q & Eq), rh as (q' & Eq').
        assert (q = 1) by nia. assert (q' = 1) by nia. subst. lia.
      * intros _ _. apply seq_length.
  - intros [H L] [[[ca cb] x1] y1] I Hi. cbn [snd] in Hi. unfold createCoarse. apply in_coarse in I; auto. destruct I as (Ia & Ib & (Ix & Dx) & (Iy & Dy)).
    destruct ((ca =? 1) && (cb =? 1)) eqn:U; [exact Hi|].
    assert (N : ca <> 1 \/ cb <> 1) by (apply andb_false_iff in U; destruct U as [U|U]; apply Z.eqb_neq in U; auto).
    set (a := Rect x1 y1 (x1 + ca * r) (y1 + cb * r)). change (encode w h x1 y1 (x1 + ca * r) (y1 + cb * r)) with (code w h a).
    unfold createSums. cbn [snd].
    assert (Ain : inside w h a) by (unfold inside; simpl; nia).
    assert (Al : aligned r a).
    { unfold aligned, a; simpl. repeat split; auto; apply Z.divide_add_r; auto; apply Z.divide_factor_r. }
    assert (Big : r < ca * r \/ r < cb * r) by nia.
    apply info_add; auto; cbn [rstep rinner].
    + left. exact Al.
    + right. auto.
    + intros _. unfold a; simpl. lia.
    + intros [U1 U2]. unfold a in U1, U2; simpl in U1, U2. nia.
    + intros _ Er _. rewrite seq_length. unfold a in Er. injection Er as E1 E2 E3 E4. assert (ca = cw) by nia. assert (cb = ch) by nia. subst. rewrite !Z.eqb_refl. reflexivity.
    + intros _ D. rewrite seq_length. destruct ((ca =? cw) && (cb =? ch)) eqn:Q; [|auto]. exfalso. apply andb_prop in Q. destruct Q as [Q1 Q2]. apply Z.eqb_eq in Q1, Q2.
      destruct D as [D|[D1 D2]].
      * apply D. unfold a. rewrite Q1, Q2, Ew, Eh. assert (x1 = 0) by nia. assert (y1 = 0) by nia. subst. reflexivity.
      * assert (cw = 1) by nia. assert (ch = 1) by nia. lia.
  - intros a R _ E. discriminate.
Qed.
End Info.

Section Built.
Context {A : arith}.
Local Notation F := (F A).
Variables w h : Z.
Variable logProb : F -> F -> F -> F.
Variables trunc round : F -> Z.
Variable rnd : nat -> nat -> nat.
Hypothesis w1 : 0 < w.
Hypothesis h1 : 0 < h.
Hypothesis fit : codes_fit w h.
Variable m g : nat.
Variable r : Z.
Hypothesis r1 : 0 < r.
Hypothesis rw : (r | w).
Hypothesis rh : (r | h).
Variable L : Poon.table.
Hypothesis Li : info w h m g r L.
Local Notation Inv := (Inv w h L r).
Local Notation inside := (inside w h).
Local Notation code := (code w h).

Lemma Lstep a R : inside a -> L (code a) = Some R -> okStep r (rstep R) a.
Proof. intros Ia E. apply (Li a R Ia E). Qed.

Lemma unitBest_ok k I i (x : lstate A * F) u x' : unitBest k I i x u = Ok x' ->
  lH (fst x') = lH (fst x) /\ lE (fst x') = lE (fst x) /\ lP (fst x') = lP (fst x) /\ lQ (fst x') = lQ (fst x) /\ lB (fst x') = lB (fst x).
Proof.
  destruct x as [s mx]. unfold unitBest. destruct (nk (netOf (lH s) u)); try discriminate. intros E. bk E.
  destruct ((lM s k =? -1) || fgt x mx); bk E; injection E as <-; cbn [fst];
  destruct (storeInf_ok _ _ _ _ E1) as [(S1 & S2 & S3 & S4 & S5) SB]; rewrite S1, S2, S3, S4, SB; auto.
Qed.

Lemma compUnitRegions_ok I (s s' : lstate A) : compUnitRegions w h L I s = Ok s' ->
  lH s' = lH s /\ lE s' = lE s /\ lP s' = lP s /\ lQ s' = lQ s /\ lB s' = lB s.
Proof.
  unfold compUnitRegions.
  apply (foldr_inv (fun s' : lstate A => lH s' = lH s /\ lE s' = lE s /\ lP s' = lP s /\ lQ s' = lQ s /\ lB s' = lB s)); [|auto].
  intros t [x y] t' _ Ht E. unfold compUnit in E. cbv zeta in E. bk E. bk E. injection E as <-.
  revert E1. apply (foldi_inv (fun p : lstate A * F => lH (fst p) = lH s /\ lE (fst p) = lE s /\ lP (fst p) = lP s /\ lQ (fst p) = lQ s /\ lB (fst p) = lB s)); [|exact Ht].
  intros i p u p' _ (H1 & H2 & H3 & H4 & H5) E. destruct (unitBest_ok _ _ _ _ _ _ E) as (K1 & K2 & K3 & K4 & K5). rewrite K1, K2, K3, K4, K5. auto.
Qed.

Definition filledAt (s : lstate A) (a : rect) : Prop := forall R, L (code a) = Some R -> length (rinner R) = 1%nat -> filled (lH s) R.

Lemma foldr_built {B} (f : lstate A -> B -> res (lstate A)) (rects : B -> rect -> Prop) l :
  (forall i s s', In i l -> Inv s -> f s i = Ok s' -> Inv s' /\ grows (lH s) (lH s') /\ forall a, rects i a -> filledAt s' a) ->
  forall s s', Inv s -> foldr_ f l s = Ok s' -> Inv s' /\ grows (lH s) (lH s') /\ forall i a, In i l -> rects i a -> filledAt s' a.
Proof.
  induction l as [|i l IH]; intros Hf s s' Vs E; simpl in E.
  - injection E as <-. split; auto. split; [apply grows_refl|]. intros i a [].
  - bk E. destruct (Hf i s x (or_introl eq_refl) Vs E0) as (V1 & G1 & F1).
    destruct (IH (fun j t t' Hj => Hf j t t' (or_intror Hj)) x s' V1 E) as (V2 & G2 & F2).
    split; auto. split; [eapply grows_trans; eauto|]. intros j a [<-|Hj] Ra.
    + intros R LR L1. eapply grows_filled; eauto. eapply F1; eauto.
    + eapply F2; eauto.
Qed.

Lemma compRect_ok I (s s' : lstate A) a : inside a -> ~ unitR a -> Inv s -> compRect w h rnd L I s (left a) (top a) (right a) (bottom a) = Ok s' ->
  Inv s' /\ grows (lH s) (lH s') /\ filledAt s' a.
Proof.
  intros Ia Ua Vs E. unfold compRect in E. cbv zeta in E. bk E. apply orPanic_ok in E0.
  destruct (compMap_ok w h rnd w1 h1 fit L r r1 Lstep a x I s s' Ia Ua E0 Vs E) as (V & G & Fl).
  split; auto. split; auto. intros R LR L1. assert (R = x) by (unfold PoonLemmas.code in LR; congruence). subst R. auto.
Qed.

Lemma Eqw : Z.quot w r * r = w.
Proof. rewrite Z.quot_div_nonneg by lia. destruct rw as (q & ->). rewrite Z.div_mul by lia. auto. Qed.
Lemma Eqh : Z.quot h r * r = h.
Proof. rewrite Z.quot_div_nonneg by lia. destruct rh as (q & ->). rewrite Z.div_mul by lia. auto. Qed.

Definition fineR (i : Z * Z * Z * Z) (a : rect) : Prop := let '(x, y, x1, y1) := i in ~ unitR a /\ a = Rect x1 y1 (x1 + x) (y1 + y).
Definition coarseR (i : Z * Z * Z * Z) (a : rect) : Prop := let '(ca, cb, x1, y1) := i in (ca <> 1 \/ cb <> 1) /\ a = Rect x1 y1 (x1 + ca * r) (y1 + cb * r).

Lemma fine_inside i a : In i (fine r (Z.quot w r) (Z.quot h r)) -> fineR i a -> inside a /\ ~ unitR a /\ in_cell r a.
Proof.
  destruct i as [[[x y] x1] y1]. intros I [U ->]. apply in_fine in I. destruct I as (Ix & Iy & ca & cb & Ha & Hb & B1 & B2).
  pose proof Eqw. pose proof Eqh. split; [|split; auto].
  - unfold PoonSpec.inside; simpl. assert ((ca + 1) * r <= Z.quot w r * r) by nia. assert ((cb + 1) * r <= Z.quot h r * r) by nia. nia.
  - exists ca, cb. simpl. lia.
Qed.
Lemma coarse_inside i a : In i (coarse w h r (Z.quot w r) (Z.quot h r)) -> coarseR i a -> inside a /\ ~ unitR a /\ aligned r a.
Proof.
  destruct i as [[[ca cb] x1] y1]. intros I [U ->]. apply in_coarse in I; auto. destruct I as (Ia & Ib & (Ix & Dx) & (Iy & Dy)). split; [|split].
  - unfold PoonSpec.inside; simpl; nia.
  - intros [U1 U2]; simpl in *. nia.
  - unfold aligned; simpl. repeat split; auto; apply Z.divide_add_r; auto; apply Z.divide_factor_r.
Qed.

(** Every region that is not a single pixel is computed. *)
Lemma all_computed a : inside a -> region_at r a -> ~ unitR a ->
  (exists i, In i (fine r (Z.quot w r) (Z.quot h r)) /\ fineR i a) \/ (exists i, In i (coarse w h r (Z.quot w r) (Z.quot h r)) /\ coarseR i a).
Proof.
  intros Ia Ra U. destruct a as [x1 y1 x2 y2]. unfold PoonSpec.inside in Ia; simpl in Ia. pose proof Eqw as Ew. pose proof Eqh as Eh.
  assert (Fine : forall i j, i * r <= x1 -> x2 <= (i + 1) * r -> j * r <= y1 -> y2 <= (j + 1) * r ->
            exists i, In i (fine r (Z.quot w r) (Z.quot h r)) /\ fineR i (Rect x1 y1 x2 y2)).
  { intros i j K1 K2 K3 K4. exists (x2 - x1, y2 - y1, x1, y1). split.
    - apply in_fine. split; [lia|]. split; [lia|]. exists i, j.
      assert (0 <= i) by nia. assert (0 <= j) by nia.
      assert (i < Z.quot w r) by nia. assert (j < Z.quot h r) by nia. lia.
    - simpl. split; auto. f_equal; lia. }
  destruct Ra as [(D1 & D2 & D3 & D4)|(i & j & K)]; simpl in *.
  - destruct D1 as (i & ->), D2 as (j & ->), D3 as (i' & ->), D4 as (j' & ->).
    destruct (Z.eq_dec (i' - i) 1) as [E1|N1], (Z.eq_dec (j' - j) 1) as [E2|N2].
    { left. apply (Fine i j); nia. }
    all: right; exists (i' - i, j' - j, i * r, j * r); split;
      [apply in_coarse; auto; split; [nia|split; [nia|split; (split; [nia|apply Z.divide_factor_r])]]
      |simpl; split; [lia|f_equal; ring]].
  - left. destruct K as (K1 & K2 & K3 & K4). apply (Fine i j); auto.
Qed.

Lemma mapInference_ok I (s s' : lstate A) : Inv s -> mapInference w h rnd L r s I = Ok s' ->
  Inv s' /\ grows (lH s) (lH s') /\ forall a, inside a -> region_at r a -> ~ unitR a -> filledAt s' a.
Proof.
  intros V0 E. unfold mapInference in E. bk E. bk E. rename x into s1, x0 into s2.
  destruct (compUnitRegions_ok I s s1 E0) as (K1 & K2 & K3 & K4 & K5).
  assert (V1 : Inv s1) by (unfold PoonRun.Inv; rewrite K1, K2, K3, K5; exact V0).
  assert (Hf : forall i t t', In i (fine r (Z.quot w r) (Z.quot h r)) -> Inv t -> compFine w h rnd L I t i = Ok t' ->
    Inv t' /\ grows (lH t) (lH t') /\ forall a, fineR i a -> filledAt t' a).
  { intros [[[x y] x1] y1] t t' Hi Vt Et. unfold compFine in Et. destruct ((x =? 1) && (y =? 1)) eqn:U.
    - injection Et as <-. split; auto. split; [apply grows_refl|]. intros a [Ua ->]. apply andb_prop in U. destruct U as [U1 U2]. apply Z.eqb_eq in U1, U2.
      exfalso. apply Ua. unfold unitR; simpl. lia.
    - assert (Ua : ~ unitR (Rect x1 y1 (x1 + x) (y1 + y))).
      { unfold unitR; simpl. apply andb_false_iff in U. destruct U as [U|U]; apply Z.eqb_neq in U; lia. }
      destruct (fine_inside _ (Rect x1 y1 (x1 + x) (y1 + y)) Hi) as (Ia & _); [split; auto|].
      destruct (compRect_ok I t t' (Rect x1 y1 (x1 + x) (y1 + y)) Ia Ua Vt Et) as (V & G & Fl). split; auto. split; auto. intros a [_ ->]. auto. }
  destruct (foldr_built (compFine w h rnd L I) fineR _ Hf s1 s2 V1 E1) as (V2 & G2 & F2).
  assert (Hc : forall i t t', In i (coarse w h r (Z.quot w r) (Z.quot h r)) -> Inv t -> compCoarse w h rnd L r I t i = Ok t' ->
    Inv t' /\ grows (lH t) (lH t') /\ forall a, coarseR i a -> filledAt t' a).
  { intros [[[x y] x1] y1] t t' Hi Vt Et. unfold compCoarse in Et. destruct ((x =? 1) && (y =? 1)) eqn:U.
    - injection Et as <-. split; auto. split; [apply grows_refl|]. intros a [Ua ->]. apply andb_prop in U. destruct U as [U1 U2]. apply Z.eqb_eq in U1, U2. lia.
    - assert (N : x <> 1 \/ y <> 1) by (apply andb_false_iff in U; destruct U as [U|U]; apply Z.eqb_neq in U; auto).
      destruct (coarse_inside _ (Rect x1 y1 (x1 + x * r) (y1 + y * r)) Hi) as (Ia & Ua & _); [split; auto|].
      destruct (compRect_ok I t t' (Rect x1 y1 (x1 + x * r) (y1 + y * r)) Ia Ua Vt Et) as (V & G & Fl). split; auto. split; auto. intros a [_ ->]. auto. }
  destruct (foldr_built (compCoarse w h rnd L r I) coarseR _ Hc s2 s' V2 E) as (V3 & G3 & F3).
  split; auto. rewrite <- K1. split; [eapply grows_trans; eauto|].
  intros a Ia Ra Ua. destruct (all_computed a Ia Ra Ua) as [(i & Hi & Ri)|(i & Hi & Ri)].
  - intros R LR L1. eapply grows_filled; eauto. eapply F2; eauto.
  - eapply F3; eauto.
Qed.

Lemma maxThroughData_ok (H0 H' : nodes A) data z : Inv (startL L r H0) -> maxThroughData w h rnd L r H0 data = Ok (H', z) ->
  exists s, H' = lH s /\ Inv s /\ firstInner (L (code (Rect 0 0 w h))) = Ok z /\
    (data <> [] -> forall a, inside a -> region_at r a -> ~ unitR a -> filledAt s a).
Proof.
  intros V0 E. unfold maxThroughData in E. bk E. bk E. injection E as <- <-. exists x. split; auto.
  cut (Inv x /\ (data <> [] -> forall a, inside a -> region_at r a -> ~ unitR a -> filledAt x a)); [intros [? ?]; auto|]. clear E1.
  revert V0 E0. generalize (startL L r H0). induction data as [|I data IH]; intros s0 V0 E; simpl in E.
  - injection E as <-. split; auto. congruence.
  - bk E. destruct (mapInference_ok I s0 x1 V0 E0) as (V1 & G1 & F1). destruct (IH x1 V1 E) as [V2 F2]. split; auto. intros _.
    destruct data as [|J data]; [|apply F2; discriminate]. simpl in E. injection E as <-. auto.
Qed.
End Built.
