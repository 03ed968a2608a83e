(** Structure over extended reals returns: the single pixels, a whole pass, the whole run. *)
From Coq Require Import Reals Lra Sorting.Sorted.
From Verif Require Import Base Res Arith LogMath LogSpec LogLemmas GraphSpec GraphLemmas TopoLemmas Search Storer StorerLemmas Spn SpnLemmas Leaves Build
  Stats StatsSpec StatsLemmas Poon PoonSpec PoonCodes PoonLemmas PoonLink PoonConn PoonTop PoonLearn ProbSpec PoonRun PoonBuilt PoonStruct PoonTotal PoonOrder.
Local Open Scope Z_scope.

Lemma foldi_totalI {T U} (P : nat -> U -> Prop) (f : nat -> U -> T -> res U) l :
  (forall i s x, nth_error l i = Some x -> P i s -> exists s', f i s x = Ok s' /\ P (S i) s') -> forall s, P 0%nat s ->
  exists s', foldi f l s = Ok s' /\ P (length l) s'.
Proof.
  unfold foldi. assert (K : forall i0, (forall i s x, nth_error l i = Some x -> P (i0 + i)%nat s -> exists s', f (i0 + i)%nat s x = Ok s' /\ P (S (i0 + i)) s') -> forall s, P i0 s -> exists s', foldi_from i0 f l s = Ok s' /\ P (i0 + length l)%nat s').
  { induction l as [|x l IH]; intros i0 Hf s Ps; simpl.
    - rewrite Nat.add_0_r. eauto.
    - destruct (Hf 0%nat s x eq_refl) as (s1 & E1 & P1); [rewrite Nat.add_0_r; auto|]. rewrite Nat.add_0_r in E1, P1. rewrite E1. cbn [bind].
      replace (i0 + S (length l))%nat with (i0 + 1 + length l)%nat by lia. apply IH; [|replace (i0 + 1)%nat with (S i0) by lia; auto].
      intros i t y Hy Pt. replace (i0 + 1 + i)%nat with (i0 + S i)%nat by lia. apply Hf; auto. replace (i0 + S i)%nat with (i0 + 1 + i)%nat by lia; auto. }
  intros Hf s P0. apply (K 0%nat); auto.
Qed.

Lemma quot_mul n r : 0 < r -> 0 < n -> (r | n) -> Z.quot n r * r = n.
Proof. intros r1 n1 (q & ->). rewrite Z.quot_div_nonneg by lia. rewrite Z.div_mul by lia. auto. Qed.

(** The Gaussians made for the single pixels. *)
Section Unit.
Context {A : arith}.
Local Notation F := (F A).
Variables w h : Z.
Hypothesis w1 : 0 < w.
Hypothesis h1 : 0 < h.
Hypothesis fit : codes_fit w h.
Variable par : Z -> nat -> F * F.
Variable logProb : F -> F -> F -> F.
Variables trunc round : F -> Z.
Variables m g : nat.
Variable r : Z.
Hypothesis r1 : 0 < r.
Hypothesis rw : (r | w).
Hypothesis rh : (r | h).

Definition pixelOf (a : rect) : Z := left a + top a * w.
Definition unitNodes (st : nodes A * Poon.table) : Prop := forall a R, inside w h a -> unitR a -> snd st (code w h a) = Some R ->
  forall i u, nth_error (rinner R) i = Some u -> (i < g)%nat /\
    nth_error (fst st) u = Some (mkNode (KLeaf (gaussLeaf logProb trunc round (pixelOf a) (fst (par (pixelOf a) i)) (snd (par (pixelOf a) i)))) []).

Lemma unitNodes_app H L N : unitNodes (H, L) -> unitNodes (H ++ N, L).
Proof. intros U a R Ia Ua LR i u Hi. destruct (U a R Ia Ua LR i u Hi) as [Lt E]. split; auto. cbn [fst] in *. rewrite nth_error_app1; auto. apply nth_error_Some. congruence. Qed.

Lemma createRegions_units H L : createRegions w h par logProb trunc round m g r = Ok (H, L) -> unitNodes (H, L).
Proof.
  unfold createRegions. destruct (Z.eqb_spec r 0); [lia|]. cbv zeta. set (cw := Z.quot w r). set (ch := Z.quot h r).
  assert (Ew : cw * r = w) by (apply quot_mul; auto). assert (Eh : ch * r = h) by (apply quot_mul; auto).
  intros E. injection E as E. rewrite <- E. clear E H L.
  assert (Add : forall H L a N R, inside w h a -> ~ unitR a -> unitNodes (H, L) -> unitNodes (H ++ N, updZ L (code w h a) (Some R))).
  { intros H L a N R Ia Ua U b Rb Ib Ub LR. cbn [snd] in LR. destruct (Z.eq_dec (code w h b) (code w h a)) as [Ec|Nc].
    - assert (b = a) by (apply (code_inj w h); auto). subst. contradiction.
    - rewrite updZ_diff in LR by auto. apply (unitNodes_app H L N U b Rb Ib Ub LR). }
  apply fold_left_inv; [|apply fold_left_inv].
  - intros [H L] [[[x y] x1] y1] I U. unfold createFine. apply in_fine in I. destruct I as (Ix & Iy & ca & cb & Ha & Hb & B1 & B2).
    set (a := Rect x1 y1 (x1 + x) (y1 + y)).
    assert (Ia : inside w h a).
    { unfold inside; simpl. assert ((ca + 1) * r <= cw * r) by nia. assert ((cb + 1) * r <= ch * r) by nia. nia. }
    change (encode w h x1 y1 (x1 + x) (y1 + y)) with (code w h a).
    destruct ((x =? 1) && (y =? 1)) eqn:Q.
    + unfold createUnit. cbv zeta. intros b R Ib Ub LR i u Hi. cbn [snd] in LR. destruct (Z.eq_dec (code w h b) (code w h a)) as [Ec|Nc].
      * assert (b = a) by (apply (code_inj w h); auto). subst b. rewrite updZ_same in LR. injection LR as <-. cbn [rinner] in Hi.
        assert (Li : (i < g)%nat) by (pose proof (proj1 (nth_error_Some (seq (length H) g) i) ltac:(congruence)) as K; rewrite seq_length in K; auto).
        split; auto. rewrite (nth_error_nth' _ 0%nat) in Hi by (rewrite seq_length; auto). rewrite seq_nth in Hi by auto. injection Hi as <-.
        cbn [fst]. rewrite nth_error_app2 by lia. replace (length H + i - length H)%nat with i by lia.
        rewrite nth_error_map. rewrite (nth_error_nth' _ 0%nat) by (rewrite seq_length; auto). rewrite seq_nth by auto. reflexivity.
      * rewrite updZ_diff in LR by auto. apply (unitNodes_app H L _ U b R Ib Ub LR i u Hi).
    + assert (Ua : ~ unitR a).
      { unfold unitR, a; simpl. apply andb_false_iff in Q. destruct Q as [Q|Q]; apply Z.eqb_neq in Q; lia. }
      unfold createSums. apply Add; auto.
  - intros [H L] [[[ca cb] x1] y1] I U. unfold createCoarse. apply in_coarse in I; auto. destruct I as (Ia & Ib & (Ix & Dx) & (Iy & Dy)).
    destruct ((ca =? 1) && (cb =? 1)) eqn:Q; [exact U|].
    assert (N : ca <> 1 \/ cb <> 1) by (apply andb_false_iff in Q; destruct Q as [Q|Q]; apply Z.eqb_neq in Q; auto).
    set (a := Rect x1 y1 (x1 + ca * r) (y1 + cb * r)). change (encode w h x1 y1 (x1 + ca * r) (y1 + cb * r)) with (code w h a).
    unfold createSums. apply Add; auto.
    + unfold inside; simpl; nia.
    + intros [U1 U2]. unfold a in U1, U2; simpl in U1, U2. nia.
  - intros a R _ _ E. discriminate.
Qed.
End Unit.

Section Whole.
Variables w h : Z.
Variable rnd : nat -> nat -> nat.
Hypothesis w1 : 0 < w.
Hypothesis h1 : 0 < h.
Hypothesis fit : codes_fit w h.
Hypothesis rndlt : forall c n, (0 < n)%nat -> (rnd c n < n)%nat.
Variable L : Poon.table.
Variable m g : nat.
Variable r : Z.
Hypothesis r1 : 0 < r.
Hypothesis rw : (r | w).
Hypothesis rh : (r | h).
Hypothesis Li : info w h m g r L.
Hypothesis Lall : forall a, inside w h a -> region_at r a -> L (code w h a) <> None.
Variable QL : Z -> nat -> leaf XR -> Prop.

Local Notation inside := (inside w h).
Local Notation code := (code w h).
Local Notation lstate := (lstate XR).
Local Notation Inv := (Inv w h L r).
Local Notation NInv := (NInv w h L).
Local Notation doneAt := (doneAt w h L).

(** The first Gaussian of each pixel has proper values; another one may have none, and is then not
    a number wherever the pixel is present. *)
Definition unitOk (H : nodes XR) : Prop := forall a R, inside a -> unitR a -> L (code a) = Some R ->
  forall i u, nth_error (rinner R) i = Some u -> exists l, leafAt H u l /\ QL (pixelOf w a) i l /\
    ((goodLeaf l /\ forall I : varset, I (pixelOf w a) = None -> lvalue l I = Some (Fin 0)) \/
     (i <> 0%nat /\ forall I : varset, lvalue l I = Some (match I (pixelOf w a) with Some _ => NaN | None => Fin 0 end))).
Lemma unitOk_kept H H' : kept H H' -> unitOk H -> unitOk H'.
Proof. intros K U a R Ia Ua LR i u Hi. destruct (U a R Ia Ua LR i u Hi) as (l & Hl & Ho). exists l. split; auto. apply K; auto. Qed.

Definition J (D : rect -> Prop) (s : lstate) : Prop := Inv s /\ NInv s /\ unitOk (lH s) /\ forall a, D a -> inside a -> doneAt s a.
Lemma J_weak (D D' : rect -> Prop) s : (forall a, D' a -> D a) -> J D s -> J D' s.
Proof. intros S (A1 & A2 & A3 & A4). unfold J. auto 10. Qed.

Lemma leaf_net H u l : leafAt H u l -> nk (netOf H u) = KLeaf l.
Proof. intros (n & E & K). unfold netOf. rewrite (nth_error_nth _ _ _ E). auto. Qed.

Lemma leaf_one H u l l' : leafAt H u l -> leafAt H u l' -> l = l'.
Proof. intros (n & E & K) (n' & E' & K'). congruence. Qed.

Lemma compUnit_total I D (s : lstate) x y : 0 <= x < w -> 0 <= y < h -> J D s ->
  exists s', @compUnit XR w h L I s (x, y) = Ok s' /\ J (fun a => a = Rect x y (x + 1) (y + 1) \/ D a) s'.
Proof.
  intros Bx By (V & N & U & Dn). set (a := Rect x y (x + 1) (y + 1)).
  assert (Ia : inside a) by (unfold PoonSpec.inside; simpl; lia). assert (Ua : unitR a) by (unfold unitR; simpl; lia).
  assert (Ra : region_at r a).
  { right. exists (x / r), (y / r). simpl. pose proof (Z.div_mod x r ltac:(lia)). pose proof (Z.div_mod y r ltac:(lia)).
    pose proof (Z.mod_pos_bound x r r1). pose proof (Z.mod_pos_bound y r r1). nia. }
  unfold compUnit. cbn [fst snd]. cbv zeta. change (encode w h x y (x + 1) (y + 1)) with (code a).
  destruct (L (code a)) as [R|] eqn:LR; [|exfalso; eapply Lall; eauto]. cbn [orPanic bind].
  pose proof V as (G & Gd & Tb & _). destruct (Tb a R Ia LR) as [Rne _].
  set (P := fun (i : nat) (z : lstate * xreal) => let s' := fst z in
    lH s' = lH s /\ lE s' = lE s /\ lP s' = lP s /\ lQ s' = lQ s /\ lB s' = lB s /\ (forall k, k <> code a -> lM s' k = lM s k) /\ stOk (lH s') (lst s') /\
    ((i = 0%nat /\ lM s' (code a) = -1) \/
     ((0 < i)%nat /\ exists u l y, idxZ (rinner R) (lM s' (code a)) = Ok u /\ leafAt (lH s') u l /\ goodLeaf l /\ snd z = Fin y /\ (I (pixelOf w a) = None -> y = 0%R)))).
  destruct (foldi_totalI P (unitBest (code a) I) (rinner R)) with (s := (withM s (code a) (-1), @fz XR 0)) as (z & E & HP).
  - intros i [t mx] u Hu (K1 & K2 & K3 & K4 & K5 & KM & KS & Ko). cbn [fst snd] in *.
    rewrite <- K1 in U. destruct (U a R Ia Ua LR i u Hu) as (l & Hl & _ & Hg). unfold unitBest. rewrite (leaf_net _ _ _ Hl).
    assert (Ix : idxZ (rinner R) (Z.of_nat i) = Ok u).
    { unfold idxZ. destruct (Z.ltb_spec (Z.of_nat i) 0); [lia|]. rewrite Nat2Z.id. unfold idx. rewrite Hu. auto. }
    assert (St : forall t' : lstate, forall v, lst t' = lst t -> lH t' = lH t -> (nice (lH t) u -> logval v) -> exists t2, @storeInf XR t' u v = Ok t2 /\ same t' t2 /\ lB t2 = lB t' /\ stOk (lH t2) (lst t2)).
    { intros t' v E1 E2 Hv. unfold storeInf. rewrite E1. destruct (store0 (lH t) (lst t) u v KS Hv) as (st' & Es & Os).
      change (F XR) with xreal. change (@fz XR 0) with (Fin 0) in *. exists (withSt t' st'). split; [first [rewrite Es; reflexivity|exact (f_equal (fun q => st0 <- q; Ok (withSt t' st0)) Es)]|]. split; [repeat split|]. split; auto. cbn [withSt lH lst]. rewrite E2. auto. }
    assert (Next : forall (t' : lstate) v v', lst t' = lst t -> lH t' = lH t -> (nice (lH t) u -> logval v) ->
       lE t' = lE s -> lP t' = lP s -> lQ t' = lQ s -> lB t' = lB s -> (forall k, k <> code a -> lM t' k = lM s k) ->
       (exists u l y, idxZ (rinner R) (lM t' (code a)) = Ok u /\ leafAt (lH t') u l /\ goodLeaf l /\ v' = Fin y /\ (I (pixelOf w a) = None -> y = 0%R)) ->
       exists z, (t2 <- @storeInf XR t' u v; Ok (t2, v')) = Ok z /\ P (S i) z).
    { intros t' v v' E1 E2 Hv A2 A3 A4 A5 AM Ao. destruct (St t' v E1 E2 Hv) as (t2 & Es & (S1 & S2 & S3 & S4 & S5) & SB & Sk). rewrite Es. cbn [bind].
      eexists. split; [reflexivity|]. unfold P. cbn [fst snd]. rewrite S1, S2, S3, S4, S5, SB, E2, K1. do 6 (split; [first [solve [auto]|congruence]|]).
      split; [rewrite S1, E2, K1 in Sk; auto|]. right. split; [lia|]. destruct Ao as (u0 & l0 & y0 & Ao). exists u0, l0, y0. rewrite E2, K1 in Ao. auto. }
    destruct Hg as [[Gl Z0]|[Ni Bad]].
    + destruct (Gl I) as (xv & Ev). rewrite Ev. cbn [orPanic bind].
      assert (Hv : nice (lH t) u -> logval (Fin xv)) by (intros; exact Logic.I).
      change (@fgt XR) with xgt. destruct ((lM t (code a) =? -1) || xgt (Fin xv) mx) eqn:Q.
      * apply Next; auto; cbn [withM lM lH].
        -- intros k Nk. rewrite updZ_diff by auto. auto.
        -- exists u, l, xv. rewrite updZ_same. split; auto. split; auto. split; auto. split; auto. intros Ip. rewrite (Z0 I Ip) in Ev. congruence.
      * apply Next; auto. destruct Ko as [[_ Km]|[_ Ko]]; [rewrite Km in Q; discriminate|]. exact Ko.
    + rewrite Bad. cbn [orPanic bind]. destruct Ko as [[E0 _]|[_ Ko]]; [congruence|].
      assert (Km : lM t (code a) =? -1 = false).
      { destruct Ko as (u0 & l0 & y0 & Ko & _). apply idxZ_ok in Ko. apply Z.eqb_neq. lia. }
      rewrite Km. cbn [orb].
      change (@fgt XR) with xgt. assert (Hgt : xgt (match I (pixelOf w a) with Some _ => NaN | None => Fin 0 end) mx = false).
      { destruct Ko as (u0 & l0 & y0 & _ & _ & _ & -> & Hy0). destruct (I (pixelOf w a)); [reflexivity|]. rewrite Hy0 by auto. cbn [xgt]. destruct (Rlt_dec 0 0); [lra|auto]. }
      rewrite Hgt. apply Next; auto.
      intros Nu. exfalso. destruct (Nu l Hl (fun _ => Some 0%Z)) as (xv & Ev). rewrite Bad in Ev. discriminate.
  - unfold P. cbn [fst snd withM lH lE lP lQ lB lM lst]. do 5 (split; [auto|]). split; [intros k Nk; rewrite updZ_diff; auto|]. split; [apply N|]. left. rewrite updZ_same. auto.
  - match goal with |- context [bind ?e _] => replace e with (@Ok (lstate * F XR) z) by (symmetry; exact E) end. cbn [bind]. exists (fst z). split; auto. destruct HP as (K1 & K2 & K3 & K4 & K5 & KM & KS & Ko).
    destruct Ko as [[E0 _]|[_ (u & l & y0 & Iu & Hl & Gl & _)]]; [destruct (rinner R); [congruence|discriminate]|].
    assert (Du : doneAt (fst z) a).
    { exists R, u. split; auto. split; auto. intros l' Hl'. rewrite (leaf_one _ _ _ _ Hl' Hl). auto. }
    split; [|split; [|split]].
    + unfold PoonRun.Inv. rewrite K1, K2, K3, K5. exact V.
    + destruct N. split; try rewrite K1; try rewrite K2; try rewrite K3; try rewrite K4; try rewrite K5; auto. rewrite <- K1. auto.
    + rewrite K1. auto.
    + intros b [->|Db] Ib; auto. destruct (Z.eq_dec (code b) (code a)) as [Ec|Nc].
      * assert (b = a) by (apply (code_inj w h); auto). subst. auto.
      * destruct (Dn b Db Ib) as (Rb & ub & B1 & B2 & B3). exists Rb, ub. rewrite KM by auto. rewrite K1. auto.
Qed.

Definition ru (i : Z * Z) : rect := Rect (fst i) (snd i) (fst i + 1) (snd i + 1).

Lemma compUnitRegions_total I (s : lstate) : J (fun _ => False) s -> exists s', @compUnitRegions XR w h L I s = Ok s' /\ J unitR s'.
Proof.
  intros Js. unfold compUnitRegions.
  destruct (foldr_ordered ru (@compUnit XR w h L I) J (list_prod (steps 0 (w - 1) 1) (steps 0 (h - 1) 1)) (fun _ => False)) with (s := s) as (s' & E & J'); auto.
  - apply SS_all. intros [x y] [x' y'] _ _ (P1 & P2 & P3 & P4 & P5). unfold ru in *; simpl in *. apply P5. f_equal; lia.
  - intros D [x y] t Hi _ _ Jt. apply in_prod_iff in Hi. destruct Hi as [Hx Hy]. apply In_steps in Hx; [|lia]. apply In_steps in Hy; [|lia].
    apply compUnit_total; auto; lia.
  - apply J_weak.
  - exists s'. split; auto. destruct J' as (A1 & A2 & A3 & A4). split; auto. split; auto. split; auto. intros a Ua Ia. apply A4; auto. right.
    exists (left a, top a). destruct a as [x y x2 y2]. unfold unitR, PoonSpec.inside in *; simpl in *. split.
    + apply in_prod_iff. rewrite !In_steps by lia. split; (split; [lia|]); apply Z.divide_1_l.
    + unfold ru; simpl. f_equal; lia.
Qed.

Lemma cut_part a b c : cut a b c -> part b a /\ part c a.
Proof.
  unfold part. intros [(x & Bx & [[-> ->]|[-> ->]])|(y & By & [[-> ->]|[-> ->]])]; destruct a as [l t q o]; simpl in *;
  repeat split; try lia; intros E; injection E; intros; lia.
Qed.
Lemma part_in_cell a b : part b a -> in_cell r a -> in_cell r b.
Proof. intros (P1 & P2 & P3 & P4 & _) (i & j & K). exists i, j. lia. Qed.

Lemma fine_all a : inside a -> in_cell r a -> exists i, In i (fine r (Z.quot w r) (Z.quot h r)) /\ rf i = a.
Proof.
  intros Ia (i & j & K1 & K2 & K3 & K4). destruct a as [x1 y1 x2 y2]. unfold PoonSpec.inside in Ia; simpl in *. exists (x2 - x1, y2 - y1, x1, y1). split.
  - pose proof (quot_mul w r r1 w1 rw) as Ew. pose proof (quot_mul h r r1 h1 rh) as Eh.
    apply in_fine. split; [lia|]. split; [lia|]. exists i, j.
    assert (0 <= i) by nia. assert (0 <= j) by nia. assert (i < Z.quot w r) by nia. assert (j < Z.quot h r) by nia. lia.
  - simpl. f_equal; lia.
Qed.
Lemma coarse_all a : inside a -> aligned r a -> exists i, In i (coarse w h r (Z.quot w r) (Z.quot h r)) /\ rc r i = a.
Proof.
  intros Ia (D1 & D2 & D3 & D4). destruct a as [x1 y1 x2 y2]. unfold PoonSpec.inside in Ia; simpl in *.
  destruct D1 as (i & ->), D2 as (j & ->), D3 as (i' & ->), D4 as (j' & ->).
  pose proof (quot_mul w r r1 w1 rw) as Ew. pose proof (quot_mul h r r1 h1 rh) as Eh. exists (i' - i, j' - j, i * r, j * r). split.
  - apply in_coarse; auto; split; [nia|split; [nia|split; (split; [nia|apply Z.divide_factor_r])]].
  - simpl. f_equal; ring.
Qed.

Lemma compRect_total I D (s : lstate) a : inside a -> ~ unitR a -> region_at r a -> J D s ->
  (forall b c, cut a b c -> region_at r b -> region_at r c -> D b /\ D c) ->
  exists s', @compRect XR w h rnd L I s (left a) (top a) (right a) (bottom a) = Ok s' /\ J (fun b => b = a \/ D b) s'.
Proof.
  intros Ia Ua Ra (V & N & U & Dn) Hc. unfold compRect. cbv zeta. change (encode w h (left a) (top a) (right a) (bottom a)) with (code a).
  destruct (L (code a)) as [R|] eqn:LR; [|exfalso; eapply Lall; eauto]. cbn [orPanic bind].
  destruct (compMap_total w h rnd w1 h1 fit rndlt L m g r r1 Li a R I s Ia Ua LR V N) as (s' & E & V' & N' & D' & O' & Kp).
  { intros b c C Rb Rc. destruct (Hc b c C Rb Rc) as [Db Dc]. destruct (cut_inside w h a b c Ia C) as [Ib Ic]. auto. }
  exists s'. split; auto. split; auto. split; auto. split; [eapply unitOk_kept; eauto|].
  intros b [->|Db] Ib; auto. destruct (Z.eq_dec (code b) (code a)) as [Ec|Nc].
  - assert (b = a) by (apply (code_inj w h); auto). subst. auto.
  - apply O'; auto. congruence.
Qed.

Lemma mapInference_total I (s : lstate) : J (fun _ => False) s -> exists s', @mapInference XR w h rnd L r s I = Ok s' /\ J (fun _ => False) s'.
Proof.
  intros Js. unfold mapInference. destruct (compUnitRegions_total I s Js) as (s1 & E1 & J1). rewrite E1. cbn [bind].
  destruct (foldr_ordered rf (@compFine XR w h rnd L I) J (fine r (Z.quot w r) (Z.quot h r)) unitR) with (s := s1) as (s2 & E2 & J2); auto.
  { apply fine_sorted; auto. }
  { intros D i t Hi D0 Hp Jt. destruct i as [[[x y] x1] y1]. unfold compFine.
    assert (Hin : inside (rf (x, y, x1, y1)) /\ in_cell r (rf (x, y, x1, y1))).
    { pose proof Hi as Hi'. apply in_fine in Hi'. destruct Hi' as (Ix & Iy & ca & cb & Ha & Hb & B1 & B2). pose proof (quot_mul w r r1 w1 rw). pose proof (quot_mul h r r1 h1 rh).
      split; [unfold PoonSpec.inside; simpl|exists ca, cb; simpl; lia]. assert ((ca + 1) * r <= Z.quot w r * r) by nia. assert ((cb + 1) * r <= Z.quot h r * r) by nia. nia. }
    destruct Hin as [Ia Ca]. destruct ((x =? 1) && (y =? 1)) eqn:Q.
    - exists t. split; auto. apply andb_prop in Q. destruct Q as [Q1 Q2]. apply Z.eqb_eq in Q1, Q2. eapply J_weak; [|exact Jt].
      intros a [->|Da]; auto. apply D0. unfold unitR; simpl; lia.
    - assert (Ua : ~ unitR (rf (x, y, x1, y1))).
      { unfold unitR; simpl. apply andb_false_iff in Q. destruct Q as [Q|Q]; apply Z.eqb_neq in Q; lia. }
      apply (compRect_total I D t (rf (x, y, x1, y1))); auto; [right; auto|].
      assert (K : forall b, part b (rf (x, y, x1, y1)) -> inside b -> D b).
      { intros b Pb Ib. destruct (fine_all b Ib (part_in_cell _ _ Pb Ca)) as (j & Hj & Ej). rewrite <- Ej. apply Hp; auto. rewrite Ej. auto. }
      intros b c C _ _. destruct (cut_part _ _ _ C). destruct (cut_inside w h _ b c Ia C). auto. }
  { apply J_weak. }
  rewrite E2. cbn [bind].
  assert (J2' : J (in_cell r) s2).
  { destruct J2 as (A1 & A2 & A3 & A4). split; auto. split; auto. split; auto. intros a Ca Ia. apply A4; auto. right. destruct (fine_all a Ia Ca) as (j & Hj & <-). eauto. }
  destruct (foldr_ordered (rc r) (@compCoarse XR w h rnd L r I) J (coarse w h r (Z.quot w r) (Z.quot h r)) (in_cell r)) with (s := s2) as (s3 & E3 & J3); auto.
  { apply coarse_sorted; auto. }
  { intros D i t Hi D0 Hp Jt. destruct i as [[[ca cb] x1] y1]. unfold compCoarse.
    pose proof Hi as Hi'. apply in_coarse in Hi'; auto. destruct Hi' as (Ba & Bb & (Ix & Dx) & (Iy & Dy)).
    destruct ((ca =? 1) && (cb =? 1)) eqn:Q.
    - exists t. split; auto. apply andb_prop in Q. destruct Q as [Q1 Q2]. apply Z.eqb_eq in Q1, Q2. subst. eapply J_weak; [|exact Jt].
      intros a [->|Da]; auto. apply D0. destruct Dx as (i & ->), Dy as (j & ->). exists i, j. cbn [rc left top right bottom]. lia.
    - assert (Nn : ca <> 1 \/ cb <> 1) by (apply andb_false_iff in Q; destruct Q as [Q|Q]; apply Z.eqb_neq in Q; auto).
      destruct (coarse_inside w h r r1 _ (rc r (ca, cb, x1, y1)) Hi) as (Ia & Ua & Al); [split; auto|].
      apply (compRect_total I D t (rc r (ca, cb, x1, y1))); auto; [left; auto|].
      assert (K : forall b, part b (rc r (ca, cb, x1, y1)) -> inside b -> region_at r b -> D b).
      { intros b Pb Ib [Ab|Cb]; [|apply D0; auto]. destruct (coarse_all b Ib Ab) as (j & Hj & Ej). rewrite <- Ej. apply Hp; auto. rewrite Ej. auto. }
      intros b c C Rb Rc. destruct (cut_part _ _ _ C). destruct (cut_inside w h _ b c Ia C). auto. }
  { apply J_weak. }
  exists s3. split; auto. eapply J_weak; [|exact J3]. intros a [].
Qed.

Lemma maxThroughData_total H0 data : J (fun _ => False) (startL L r H0) ->
  exists H z, @maxThroughData XR w h rnd L r H0 data = Ok (H, z) /\ exists s, lH s = H /\ J (fun _ => False) s /\ held w h L (fun _ => Rect 0 0 w h) z.
Proof.
  intros J0. unfold maxThroughData. destruct (foldr_total (J (fun _ => False)) (@mapInference XR w h rnd L r) data) with (s := startL L r H0) as (s & E & V & Js); auto.
  { intros s I _ Js. apply mapInference_total; auto. }
  rewrite E. cbn [bind]. assert (Ir : inside (Rect 0 0 w h)) by (unfold PoonSpec.inside; simpl; lia).
  change (encode w h 0 0 w h) with (code (Rect 0 0 w h)). unfold firstInner.
  destruct (L (code (Rect 0 0 w h))) as [R|] eqn:LR.
  - pose proof V as (G & Gd & Tb & _). destruct (Tb _ R Ir LR) as [Rne _]. destruct (rinner R) as [|z l] eqn:Er; [congruence|]. simpl. eexists _, _. split; [reflexivity|]. exists s. split; [reflexivity|]. split; [split; auto|]. exists R. split; auto. rewrite Er. left; auto.
  - exfalso. eapply Lall; eauto. left. simpl. repeat split; auto; apply Z.divide_0_r.
Qed.
End Whole.

(** What is asked of the log-density of a normal distribution: finite for finite parameters, not a
    number for parameters that are none. *)
Definition logDensity (logProb : xreal -> xreal -> xreal -> xreal) : Prop :=
  (forall mu sd x, (0 < sd)%R -> exists y, logProb (Fin mu) (Fin sd) (Fin x) = Fin y) /\
  (forall x, logProb NaN NaN x = NaN).

Section Start.
Variables w h : Z.
Variable logProb : xreal -> xreal -> xreal -> xreal.
Variables trunc round : xreal -> Z.
Variable rnd : nat -> nat -> nat.
Hypothesis w1 : 0 < w.
Hypothesis h1 : 0 < h.
Hypothesis fit : codes_fit w h.
Hypothesis rndlt : forall c n, (0 < n)%nat -> (rnd c n < n)%nat.
Hypothesis lp : logDensity logProb.
Variable m g : nat.
Variable r : Z.
Hypothesis r2 : 2 <= r.
Hypothesis rw : (r | w).
Hypothesis rh : (r | h).
Hypothesis m1 : (0 < m)%nat.
Hypothesis g2 : (2 <= g)%nat.

Lemma insertZ_length x l : length (insertZ x l) = S (length l).
Proof. induction l as [|y l IH]; simpl; auto. destruct (x <=? y); simpl; auto. Qed.
Lemma sortZ_length l : length (sortZ l) = length l.
Proof. induction l as [|y l IH]; simpl; auto. rewrite insertZ_length. auto. Qed.

Lemma unitPar_ok data p i : data <> [] -> (i < g)%nat ->
  (exists mu sd, @unitPar XR data g p i = (Fin mu, Fin sd) /\ (0 < sd)%R) \/ (i <> 0%nat /\ @unitPar XR data g p i = (NaN, NaN)).
Proof.
  intros Nd Hi. unfold unitPar. destruct (Nat.eqb_spec g 1); [lia|]. set (X := sortZ (pixelValues data p)).
  assert (LX : length X = length data) by (unfold X; rewrite sortZ_length; unfold pixelValues; apply map_length).
  destruct (quantile_run XR X g ltac:(lia)) as (l & Hl & El & E). change (F XR) with xreal in *. rewrite E.
  rewrite nth_error_map. unfold blocks. rewrite nth_error_map. rewrite (nth_error_nth' _ 0%nat) by (rewrite seq_length; auto). rewrite seq_nth by auto. cbn [option_map Nat.add].
  match goal with |- context [blockStats ?q] => set (b := q) end.
  assert (Hb : b = [] -> i <> 0%nat).
  { intros Eb ->. unfold b in Eb. destruct (Nat.eqb_spec 0 (g - 1)); [lia|]. simpl in Eb. apply (f_equal (@length Z)) in Eb. rewrite firstn_length in Eb. simpl in Eb.
    assert (0 < length data)%nat by (destruct data; [congruence|simpl; lia]). lia. }
  clearbody b. destruct b as [|b0 b].
  - right. split; auto. cbn [blockStats length Z.of_nat fold_left fst]. change (@fdiv XR) with xdiv. change (@fsqrt XR) with xsqrt. change (@feq XR) with xeq. change (@fz XR 0) with (Fin 0).
    assert (Ez : xdiv (Fin 0) (Fin 0) = NaN) by (cbn [xdiv]; destruct (Req_EM_T 0 0) as [_|]; [|congruence]; unfold xsign; destruct (Rlt_dec 0 0); [lra|]; destruct (Rlt_dec 0 0); [lra|]; auto).
    rewrite Ez. reflexivity.
  - left. pose proof (blockStats_ok (b0 :: b) ltac:(discriminate)) as Eb. change (F XR) with xreal in Eb. rewrite Eb. cbn [fst]. eexists _, _. split; [reflexivity|].
    destruct (Req_EM_T (sample_sd (b0 :: b)) 0) as [|Ne]; [lra|]. assert (0 <= sample_sd (b0 :: b))%R by (unfold sample_sd; apply sqrt_pos). lra.
Qed.

Lemma gauss_unit data p i : data <> [] -> (i < g)%nat ->
  let l := gaussLeaf (A := XR) logProb trunc round p (fst (@unitPar XR data g p i)) (snd (@unitPar XR data g p i)) in
  (goodLeaf l /\ forall I : varset, I p = None -> lvalue l I = Some (Fin 0)) \/
  (i <> 0%nat /\ forall I : varset, lvalue l I = Some (match I p with Some _ => NaN | None => Fin 0 end)).
Proof.
  intros Nd Hi. destruct lp as [LP1 LP2].
  assert (GV : forall mu sd I, lvalue (gaussLeaf (A := XR) logProb trunc round p mu sd) I =
     Some (if xeq sd (Fin 0) then zeroSigma (A := XR) trunc (I p) mu else match I p with Some v => logProb mu sd (Fin (IZR v)) | None => Fin 0 end)) by reflexivity.
  destruct (unitPar_ok data p i Nd Hi) as [(mu & sd & E & Sd)|[Ni E]]; cbv zeta.
  - left. assert (E1 : fst (@unitPar XR data g p i) = Fin mu) by (rewrite E; reflexivity). assert (E2 : snd (@unitPar XR data g p i) = Fin sd) by (rewrite E; reflexivity).
    rewrite E1, E2.
    assert (Ne : xeq (Fin sd) (Fin 0) = false). { cbn [xeq]. destruct (Req_EM_T sd 0); [lra|auto]. }
    split.
    + intros I. rewrite GV, Ne. destruct (I p) as [v|]; [|exists 0%R; reflexivity]. destruct (LP1 mu sd (IZR v) Sd) as (y & Ey). exists y. f_equal. exact Ey.
    + intros I Ip. rewrite GV, Ne, Ip. reflexivity.
  - right. assert (E1 : fst (@unitPar XR data g p i) = NaN) by (rewrite E; reflexivity). assert (E2 : snd (@unitPar XR data g p i) = NaN) by (rewrite E; reflexivity).
    rewrite E1, E2. split; auto. intros I. rewrite GV. change (xeq NaN (Fin 0)) with false. cbv iota. destruct (I p) as [v|]; [|reflexivity]. f_equal. apply LP2.
Qed.

Lemma start_stOk (H : nodes XR) : stOk H (fst (newTicket xreal (fst (newTicket xreal (newStorer xreal))))).
Proof using.
  clear -H.
  pose proof (newTicket_ok xreal (newStorer xreal) (wf_new xreal)) as K.
  destruct (newTicket xreal (newStorer xreal)) as [s1 k1] eqn:E1. destruct K as (Ek1 & W1 & T1 & C1 & _). cbn [fst].
  assert (Ez : k1 = 0) by (rewrite Ek1; reflexivity). assert (Et : tickets xreal s1 = 1) by (injection E1 as <- <-; reflexivity).
  pose proof (newTicket_ok xreal s1 W1) as K2. destruct (newTicket xreal s1) as [s2 k2] eqn:E2. destruct K2 as (Ek2 & W2 & T2 & C2 & O2). cbn [fst].
  assert (Eo : k2 = 1) by congruence. clear Ek1 Ek2 E1; subst k1 k2.
  assert (T0 : exists t, tables xreal s2 0 = Some t).
  { unfold newTicket in E2. injection E2 as <- _. rewrite Et. simpl. exact T1. }
  split; auto.
  - intros u v E. rewrite O2 in E by lia. rewrite C1 in E. discriminate.
  - intros u v E. rewrite C2 in E. discriminate.
Qed.

(** The [i]-th Gaussian of pixel [p]. *)
Definition unitLeaf (data : list varset) (p : Z) (i : nat) (l : leaf XR) : Prop :=
  (i < g)%nat /\ l = gaussLeaf (A := XR) logProb trunc round p (fst (@unitPar XR data g p i)) (snd (@unitPar XR data g p i)).

Lemma structure_J data : data <> [] -> exists H z, @structure XR w h logProb trunc round rnd data m g r = Ok (H, z) /\
  exists L s, lH s = H /\ J w h L r (unitLeaf data) (fun _ => False) s /\ held w h L (fun _ => Rect 0 0 w h) z.
Proof.
  intros Nd. assert (r1 : 0 < r) by lia. unfold structure. destruct (Nat.eqb_spec g 0); [lia|].
  destruct (createRegions_l w h (@unitPar XR data g) logProb trunc round w1 h1 fit m g r m1 ltac:(lia) r1 rw rh) as (H0 & L & E & C).
  change (F XR) with xreal in *. rewrite E. cbn [bind fst snd].
  pose proof (createRegions_info w h w1 h1 fit _ _ _ _ m g r r1 rw rh H0 L E) as Li.
  pose proof (createRegions_units w h w1 h1 fit _ _ _ _ m g r r1 rw rh H0 L E) as Un.
  destruct (start_Inv (A := XR) w h r L H0 C) as [V0 Lall].
  destruct (maxThroughData_total w h rnd w1 h1 fit rndlt L m g r r1 rw rh Li Lall (unitLeaf data) H0 data) as (H & z & Ez & s & Hs).
  2:{ exists H, z. split; auto. exists L, s. auto. }
  split; auto. split; [|split; [|intros a []]].
  - destruct C as (G & C1 & C2 & C3). cbn [fst snd] in *. split; cbn [startL lH lst lE lP lQ lM lB]; try discriminate.
    + apply start_stOk.
    + intros u nd En Pn. destruct (C1 u nd En) as [_ [->|(l & -> & _)]]; destruct Pn.
    + intros a R Ia Ua LR. unfold startB. rewrite LR. destruct (Z.eqb_spec r 1); [lia|]. apply repeat_length.
    + intros a d _ Hd. unfold startB in Hd. destruct (L (code w h a)); [|destruct Hd]. destruct (r =? 1); [destruct Hd|]. apply repeat_spec in Hd. discriminate.
    + intros d [].
  - intros a R Ia Ua LR i u Hi. destruct (Un a R Ia Ua LR i u Hi) as [Lt En]. eexists. split; [eexists; split; [exact En|reflexivity]|]. split; [split; auto|]. apply gauss_unit; auto.
Qed.

Lemma structure_total data : data <> [] -> exists H z, @structure XR w h logProb trunc round rnd data m g r = Ok (H, z).
Proof. intros Nd. destruct (structure_J data Nd) as (H & z & E & _). eauto. Qed.
End Start.
