(** Structure on an image of a single cell: the root may stay without children. *)
From Verif Require Import Base Res Arith LogMath GraphSpec Storer Spn Leaves Build
  Stats Poon PoonSpec PoonCodes PoonLemmas PoonLink PoonConn PoonTop PoonLearn ProbSpec PoonRun PoonBuilt PoonStruct PoonOrder PoonHist PoonWhole.
Local Open Scope Z_scope.

Lemma steps_snoc a b : a <= b -> steps a b 1 = steps a (b - 1) 1 ++ [b].
Proof.
  intros Hab. unfold steps. rewrite !Z.div_1_r. replace (Z.to_nat (b - a + 1)) with (S (Z.to_nat (b - 1 - a + 1))) by lia.
  rewrite seq_S, map_app. cbn [map Nat.add]. f_equal. f_equal. lia.
Qed.
Lemma steps_nil a b : b < a -> steps a b 1 = [].
Proof. intros Hab. unfold steps. rewrite Z.div_1_r. replace (Z.to_nat (b - a + 1)) with 0%nat by lia. reflexivity. Qed.

Lemma fine_last r : 1 <= r -> exists l1, fine r 1 1 = l1 ++ [(r, r, 0, 0)] /\ forall i, In i l1 -> rf i <> Rect 0 0 r r.
Proof.
  intros Hr. unfold fine.
  assert (E0 : forall f : Z -> list (Z * Z * Z * Z), flat_map f (steps 0 (1 - 1) 1) = f 0) by (intros f; change (steps 0 (1 - 1) 1) with [0]; cbn [flat_map]; apply app_nil_r).
  rewrite !E0. rewrite (steps_snoc 1 r) by lia. rewrite flat_map_app. cbn [flat_map]. rewrite app_nil_r. rewrite flat_map_app. cbn [flat_map]. rewrite app_nil_r.
  replace (steps (0 * r) ((0 + 1) * r - r) 1) with [0] by (replace ((0 + 1) * r - r) with 0 by ring; reflexivity). cbn [flat_map map app].
  rewrite app_assoc. match goal with |- exists l1, ?X ++ _ = _ /\ _ => exists X end. split; auto.
  intros i Hi. apply in_app_or in Hi.
  destruct Hi as [Hi|Hi].
  - apply in_flat_map in Hi. destruct Hi as (x & Ix & Hi). apply In_steps in Ix; [|lia]. apply in_flat_map in Hi. destruct Hi as (y & _ & Hi). apply in_flat_map in Hi. destruct Hi as (x1 & _ & Hi).
    apply in_map_iff in Hi. destruct Hi as (y1 & <- & _). cbn [rf]. intros E. injection E as -> _ E _. lia.
  - apply in_flat_map in Hi. destruct Hi as (y & Iy & Hi). apply In_steps in Iy; [|lia].
    try rewrite app_nil_r in Hi. apply in_map_iff in Hi. destruct Hi as (y1 & <- & _). cbn [rf]. intros E. injection E. lia.
Qed.

Section Single.
Context {A : arith}.
Local Notation F := (F A).
Variables w h : Z.
Variable logProb : F -> F -> F -> F.
Variables trunc round : F -> Z.
Variable rnd : nat -> nat -> nat.
Local Notation lstate := (lstate A).

Lemma createRegions_nodup par m g r H L : createRegions w h par logProb trunc round m g r = Ok (H, L) -> forall k R, L k = Some R -> NoDup (rinner R).
Proof.
  unfold createRegions. destruct (Z.eqb_spec r 0); [discriminate|]. cbv zeta. intros E. injection E as E. change L with (snd (H, L)). rewrite <- E. clear E H L.
  set (P := fun st : nodes A * Poon.table => forall k R, snd st k = Some R -> NoDup (rinner R)).
  assert (Up : forall H L k R, P (H, L) -> NoDup (rinner R) -> forall H', P (H', updZ L k (Some R))).
  { intros H L k R Hp Nd H' k' R'. cbn [snd]. unfold updZ. destruct (k' =? k); [intros E; injection E as <-; auto|apply Hp]. }
  change (P (fold_left (createFine w h par logProb trunc round m g r) (fine r (Z.quot w r) (Z.quot h r))
     (fold_left (createCoarse w h m r (Z.quot w r) (Z.quot h r)) (coarse w h r (Z.quot w r) (Z.quot h r)) ([], fun _ => None)))).
  apply fold_left_inv; [|apply fold_left_inv].
  - intros [H L] [[[x y] x1] y1] _ Hp. unfold createFine. destruct ((x =? 1) && (y =? 1)); unfold createUnit, createSums; cbv zeta; eapply Up; eauto; apply seq_NoDup.
  - intros [H L] [[[x y] x1] y1] _ Hp. unfold createCoarse. destruct ((x =? 1) && (y =? 1)); auto. unfold createSums. eapply Up; eauto. apply seq_NoDup.
  - intros k R E. discriminate.
Qed.

Lemma usedSum_H k I cD mp i (z z' : lstate * list (option dec) * list nat * F) u : usedSum rnd k I cD mp i z u = Ok z' -> lH (fst (fst (fst z'))) = lH (fst (fst (fst z))).
Proof.
  destruct z as [[[s best] opts] ms]. unfold usedSum. destruct (Nat.eqb (length (nch (netOf (lH s) u))) 0); [intros E; injection E as <-; auto|]. intros E. bk E.
  cbv zeta in E. destruct x as [st' y]. cbn [fst] in E.
  match type of E with (let '(_, _) := ?e in _) = _ => destruct e as [b2 m2] end.
  match type of E with (let '(_, _) := ?e in _) = _ => destruct e as [b3 m3] end.
  bk E. bk E. bk E. destruct x0 as [y2 q2]. destruct (storeInf_ok _ _ _ _ E1) as [(Q1 & _) _]. apply pick_ok in E2. destruct E2 as (_ & (Q2 & _) & _). cbn [fst snd] in *.
  match type of E with (let '(_, _) := ?e in _) = _ => destruct e as [o2 mx2] end. injection E as <-. cbn [fst withB lH]. rewrite Q2, Q1. reflexivity.
Qed.

Lemma useDec_frame L R mi d (s s' : lstate) : useDec L R mi d s = Ok s' ->
  forall u n, nth_error (lH s) u = Some n -> nth_error (rinner R) mi <> Some u -> nth_error (lH s') u = Some n.
Proof.
  unfold useDec. destruct (exists_ d s); intros E u n En Nu.
  - bk E. destruct (storeCount_ok _ _ _ _ E) as [(Q & _) _]. rewrite Q. auto.
  - bk E. bk E. bk E. bk E. unfold newNode in E. bk E. bk E. cbv zeta in E. destruct (storeCount_ok _ _ _ _ E) as [(Q & _) _]. rewrite Q. cbn [lH].
    apply idx_ok in E4. assert (D : u <> x3) by congruence. assert (Lt : (u < length (lH s))%nat) by (apply nth_error_Some; congruence).
    unfold addChildW in E5. destruct (nth_error (lH s ++ [_]) x3) as [[[ws| |] chs]|]; try discriminate. injection E5 as <-.
    rewrite nth_error_set_nth_diff by auto. rewrite nth_error_app1; auto.
Qed.

Lemma compMap_frame L k R I (s s' : lstate) : compMap w h rnd L k R I s = Ok s' -> exists mi,
  (forall u n, nth_error (lH s) u = Some n -> nth_error (rinner R) mi <> Some u -> nth_error (lH s') u = Some n) /\
  (rinner R <> [] -> (forall u, In u (rinner R) -> nch (netOf (lH s) u) = []) -> exists c, mi = rnd c (length (rinner R)) /\ (mi < length (rinner R))%nat).
Proof.
  intros E. unfold compMap in E. cbv zeta in E.
  set (s0 := withM s k (-1)) in *. assert (H0 : lH s0 = lH s) by reflexivity. clearbody s0.
  bk E. destruct x as [cU s1].
  assert (K1 : lH s1 = lH s0).
  { destruct (unused (lH s0) R); [injection E0 as <- <-; auto|]. destruct (pick_ok _ _ _ _ _ E0) as (_ & (K & _) & _). auto. }
  bk E. destruct x as [[[p1 q1] p2] q2]. bk E. rename x into Dm. bk E. destruct x as [cD s2]. destruct (pick_ok _ _ _ _ _ E3) as (_ & (K2 & _) & _).
  bk E. rename E4 into EF. rename x into z.
  assert (K3 : lH (fst (fst (fst z))) = lH s2).
  { revert EF. apply (foldi_inv (fun z : lstate * list (option dec) * list nat * F => lH (fst (fst (fst z))) = lH s2)); [|reflexivity].
    intros i t u t' _ Et E'. rewrite (usedSum_H _ _ _ _ _ _ _ _ E'). auto. }
  assert (Fz : (forall u, In u (rinner R) -> nch (netOf (lH s) u) = []) -> z = (s2, [], [], fninf)).
  { intros Ch. assert (Id : forall l i st, incl l (rinner R) -> lH (fst (fst (fst st))) = lH s2 -> foldi_from i (usedSum rnd k I cD (snd Dm)) l st = Ok st).
    { induction l as [|u l IH]; intros i [[[q b] o] mx] Inc Eq; simpl; auto. cbn [fst] in Eq. unfold usedSum at 1.
      rewrite Eq, K2, K1, H0, Ch by (apply Inc; left; auto). cbn [length Nat.eqb bind]. apply IH; auto. intros v Hv. apply Inc. right. auto. }
    unfold foldi in EF. rewrite Id in EF; [congruence|apply incl_refl|reflexivity]. }
  destruct z as [[[s3 best] opts] ms]. cbn [fst] in K3.
  bk E. bk E. bk E. bk E. destruct x2 as [mi s5]. destruct (storeInf_ok _ _ _ _ E5) as [(K4 & _) _]. destruct (pick_ok _ _ _ _ _ E7) as (Imi & (K5 & _) & _). bk E. bk E.
  exists mi. split.
  - intros u n En Nu. eapply useDec_frame; [exact E| |auto]. cbn [withM lH]. rewrite K5. cbn [withB lH]. rewrite K4, K3, K2, K1, H0. auto.
  - intros Rne Ch. specialize (Fz Ch). injection Fz as -> -> -> ->. destruct Imi as [<-|[]].
    assert (Un : unused (lH s0) R = seq 0 (length (rinner R))).
    { unfold unused. rewrite H0. assert (K : forall l, (forall i, In i l -> (i < length (rinner R))%nat) -> filter (fun i => match nth_error (rinner R) i with Some u => Nat.eqb (length (nch (netOf (lH s) u))) 0 | None => false end) l = l).
      { induction l as [|i l IH]; intros Hl; simpl; auto. destruct (nth_error (rinner R) i) as [u|] eqn:Eu.
        - rewrite (Ch u (nth_error_In _ _ Eu)). simpl. f_equal. apply IH. intros; apply Hl; right; auto.
        - apply nth_error_None in Eu. pose proof (Hl i (or_introl eq_refl)). lia. }
      apply K. intros i Hi. apply in_seq in Hi. lia. }
    rewrite Un in E0. destruct (rinner R) as [|y ys] eqn:ER; [congruence|]. cbn [length seq] in E0. unfold pick in E0. bk E0. injection E0 as <- <-.
    exists (lc s0). 
    match goal with Hn : nth_error _ (rnd _ _) = Some _ |- _ => rename Hn into Hn0 | Hn : idx _ (rnd _ _) = Ok _ |- _ => apply idx_ok in Hn; rename Hn into Hn0 end.
    change (0%nat :: seq 1 (length ys)) with (seq 0 (length (y :: ys))) in Hn0. rewrite seq_length in Hn0.
    assert (Lt : (rnd (lc s0) (length (y :: ys)) < length (y :: ys))%nat) by (rewrite <- (seq_length (length (y :: ys)) 0) at 2; apply nth_error_Some; congruence).
    rewrite (nth_error_nth' _ 0%nat) in Hn0 by (rewrite seq_length; auto). rewrite seq_nth in Hn0 by auto. injection Hn0 as <-. auto.
Qed.
End Single.

Section Cell.
Context {A : arith}.
Local Notation F := (F A).
Variable w : Z.
Variable logProb : F -> F -> F -> F.
Variables trunc round : F -> Z.
Variable rnd : nat -> nat -> nat.
Local Notation lstate := (lstate A).
Hypothesis w1 : 0 < w.
Hypothesis fit : codes_fit w w.

(** One instance gives children to one sum of each region, chosen at random. *)
Lemma structure_single I m g H' z : 2 <= w -> (2 <= m)%nat -> (forall c, rnd c m <> 0%nat) ->
  structure w w logProb trunc round rnd [I] m g w = Ok (H', z) -> nth_error H' z = Some (mkNode (KSum []) []).
Proof.
  intros w2 m2 Hr E. assert (m1 : (0 < m)%nat) by lia.
  unfold structure in E. destruct (Nat.eqb_spec g 0) as [|g1]; [discriminate|]. bk E.
  destruct (createRegions_l w w (unitPar [I] g) logProb trunc round w1 w1 fit m g w m1 ltac:(lia) w1 (Z.divide_refl w) (Z.divide_refl w)) as (H0 & L & E' & C).
  rewrite E0 in E'. injection E' as ->. cbn [fst snd] in E.
  pose proof (createRegions_info w w w1 w1 fit _ _ _ _ m g w w1 (Z.divide_refl w) (Z.divide_refl w) H0 L E0) as Li.
  destruct (start_Inv (A := A) w w w L H0 C) as [V0 Lall].
  set (root := Rect 0 0 w w) in *. assert (Ir : inside w w root) by (unfold inside; simpl; lia).
  assert (Ur : ~ unitR root) by (unfold unitR; simpl; lia).
  assert (Rr : region_at w root) by (left; simpl; repeat split; try apply Z.divide_0_r; apply Z.divide_refl).
  destruct (L (code w w root)) as [RR|] eqn:LR; [|exfalso; eapply Lall; eauto].
  assert (Nd : NoDup (rinner RR)) by (eapply createRegions_nodup; eauto).
  assert (Lm : length (rinner RR) = m) by (destruct (Li root RR Ir LR) as (_ & _ & _ & _ & _ & Lm); apply Lm; auto).
  unfold maxThroughData in E. bk E. rename x into sf. bk E. rename x into z0. injection E as <- <-. cbn [foldr_] in E1. bk E1. injection E1 as ->. rename E into Em.
  change (encode w w 0 0 w w) with (code w w root) in E2. rewrite LR in E2. unfold firstInner in E2. apply idx_ok in E2.
  set (emp := fun s : lstate => forall u, In u (rinner RR) -> nth_error (lH s) u = Some (mkNode (KSum []) [])).
  assert (P0 : emp (startL L w H0)).
  { intros u Hu. cbn [startL lH]. destruct C as (G & C1 & C2 & _). destruct (C2 root RR Ir LR) as [_ TR]. destruct (TR u Hu) as (n & En & _ & _ & Sn).
    destruct (C1 u n En) as [_ [->|(l & -> & _)]]; auto. specialize (Sn Ur). destruct Sn. }
  unfold mapInference in Em. bk Em. rename x into s2, E into E1. bk Em. rename x into s3, E into E3. rename Em into E.
  destruct (compUnitRegions_ok w w L I _ s2 E1) as (K1 & K2 & K3 & K4 & K5).
  assert (V2 : Inv w w L w s2) by (unfold Inv; rewrite K1, K2, K3, K5; exact V0).
  assert (P2 : emp s2) by (unfold emp; rewrite K1; exact P0).
  assert (Q1 : Z.quot w w = 1) by (apply Z.quot_same; lia). rewrite Q1 in *.
  assert (Ec : sf = s3).
  { assert (Cn : forall i, In i (coarse w w w 1 1) -> fst (fst (fst i)) = 1 /\ snd (fst (fst i)) = 1).
    { intros [[[ca cb] x1] y1] Hi. apply in_coarse in Hi; [|lia]. cbn [fst snd]. lia. }
    revert E Cn. generalize (coarse w w w 1 1). clear. intros l. revert s3. induction l as [|i l IH]; intros s3 E Cn; simpl in E; [congruence|].
    destruct (Cn i (or_introl eq_refl)) as [Ex Ey]. destruct i as [[[ca cb] x1] y1]. cbn [fst snd] in *. subst. cbn [compCoarse Z.eqb Pos.eqb andb bind] in E.
    apply (IH s3 E). intros j Hj. apply Cn. right. auto. }
  subst sf. clear E.
  destruct (fine_last w ltac:(lia)) as (l1 & Ef & Nf). rewrite Ef in E3.
  assert (Ap : forall l (t : lstate), foldr_ (compFine w w rnd L I) (l ++ [(w, w, 0, 0)]) t = (t' <- foldr_ (compFine w w rnd L I) l t; compFine w w rnd L I t' (w, w, 0, 0))).
  { clear. induction l as [|i l IH]; intros t; simpl.
    - destruct ((w =? 1) && (w =? 1)); [reflexivity|]. destruct (compRect _ _ _ _ _ _ _ _ _ _); reflexivity.
    - destruct (compFine w w rnd L I t i); cbn [bind]; auto. }
  rewrite Ap in E3. bk E3. rename x into s4.
  assert (P4 : Inv w w L w s4 /\ emp s4).
  { revert E. apply (foldr_inv (fun t : lstate => Inv w w L w t /\ emp t)); [|auto].
    intros t [[[x y] x1] y1] t' Hi [Vt Pt] Et. unfold compFine in Et. destruct ((x =? 1) && (y =? 1)) eqn:U; [injection Et as <-; auto|].
    set (a := Rect x1 y1 (x1 + x) (y1 + y)).
    assert (Na : a <> root) by (apply (Nf (x, y, x1, y1) Hi)).
    assert (Hf : In (x, y, x1, y1) (fine w 1 1)) by (rewrite Ef; apply in_or_app; auto). 
    assert (Ua : ~ unitR a).
    { unfold unitR, a; simpl. apply andb_false_iff in U. destruct U as [U|U]; apply Z.eqb_neq in U; lia. }
    assert (Ia : inside w w a).
    { apply in_fine in Hf. destruct Hf as (Ix & Iy & ca & cb & Ha & Hb & B1 & B2). unfold inside, a; simpl. nia. }
    change (compRect w w rnd L I t (left a) (top a) (right a) (bottom a) = Ok t') in Et. unfold compRect in Et. cbv zeta in Et. bk Et. apply orPanic_ok in E.
    change (encode w w (left a) (top a) (right a) (bottom a)) with (code w w a) in *.
    destruct (compMap_ok w w rnd w1 w1 fit L w w1 (fun b Rb Ib Eb => proj1 (proj2 (Li b Rb Ib Eb))) a x0 I t t' Ia Ua E Vt Et) as (V' & _ & _). split; auto.
    intros u Hu. destruct (compMap_frame w w rnd L (code w w a) x0 I t t' Et) as (mi & Fr & _). apply Fr; auto.
    intros Eu. apply nth_error_In in Eu. destruct Vt as (G & _ & Tb & _). destruct (Tb a x0 Ia E) as [_ T1]. destruct (Tb root RR Ir LR) as [_ T2].
    destruct (T1 u Eu) as (_ & _ & G1 & _). destruct (T2 u Hu) as (_ & _ & G2 & _). congruence. }
  destruct P4 as [V4 P4]. unfold compFine in E3. destruct (Z.eqb_spec w 1); [lia|]. cbn [andb] in E3.
  change (compRect w w rnd L I s4 0 0 w w = Ok s3) in E3.
  unfold compRect in E3. cbv zeta in E3. change (encode w w 0 0 w w) with (code w w root) in E3. rewrite LR in E3. cbn [orPanic bind] in E3.
  destruct (compMap_frame w w rnd L (code w w root) RR I s4 s3 E3) as (mi & Fr & Ch).
  assert (Rne : rinner RR <> []) by (intros En; rewrite En in Lm; simpl in Lm; lia).
  destruct Ch as (c & Ec & Lt); [auto| |].
  { intros u Hu. unfold netOf. rewrite (nth_error_nth _ _ _ (P4 u Hu)). reflexivity. }
  apply Fr; [apply P4; eapply nth_error_In; eauto|]. intros Eu. rewrite Lm in Ec. apply (Hr c). rewrite <- Ec.
  symmetry. eapply NoDup_nth_error; eauto; [lia|]. congruence.
Qed.
End Cell.
