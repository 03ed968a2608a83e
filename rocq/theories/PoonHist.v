(** Structure with one Gaussian for each pixel, on data whose first two pixels of a column are always 0. *)
From Coq Require Import Reals Lra.
From Verif Require Import Base Res Arith LogMath LogSpec GraphSpec Storer StorerLemmas Spn Leaves Build
  Stats Poon PoonSpec PoonCodes PoonLemmas PoonLink PoonConn PoonTop PoonLearn ProbSpec PoonRun PoonBuilt PoonStruct PoonTotal PoonOrder PoonWhole.
Local Open Scope Z_scope.

Lemma xdiv00 : xdiv (Fin 0) (Fin 0) = NaN.
Proof. cbn [xdiv]; destruct (Req_EM_T 0 0) as [_|]; [|congruence]; unfold xsign; destruct (Rlt_dec 0 0); [lra|]; destruct (Rlt_dec 0 0); [lra|]; auto. Qed.

Lemma total_zero V : (forall x, In x V -> x = 0) -> total V = 0.
Proof.
  unfold total. intros H. assert (K : forall a, fold_left Z.add V a = a); [|apply K]. induction V as [|x V IH]; intros a; simpl; auto.
  rewrite (H x (or_introl eq_refl)). rewrite IH; [lia|]. intros; apply H; right; auto.
Qed.

Lemma hist_zero V : V <> [] -> (forall x, In x V -> x = 0) -> @histMuSigma XR V = (NaN, NaN).
Proof.
  intros Ne Hz. unfold histMuSigma, histMean, histVar. rewrite (total_zero V Hz). destruct V as [|x V]; [congruence|]. rewrite (Hz x (or_introl eq_refl)).
  assert (N : forall (f : Z * xreal -> Z -> xreal) V i, snd (fold_left (fun (st : Z * xreal) ci => (fst st + 1, xadd (snd st) (f st ci))) V (i, NaN)) = NaN).
  { intros f. induction V0 as [|y V0 IH]; intros i; simpl; auto. }
  cbn [fold_left fst snd]. change (@fdiv XR) with xdiv. change (@fz XR 0) with (Fin 0). rewrite xdiv00.
  cbn [fmul fadd XR xmul xadd]. change (F XR) with xreal.
  cbv zeta. rewrite (N (fun st ci => xmul (xdiv (Fin (IZR ci)) (Fin 0)) (Fin (IZR (fst st))))).
  rewrite (N (fun st ci => xmul (xmul (xdiv (Fin (IZR ci)) (Fin 0)) (xsub (Fin (IZR (fst st))) NaN)) (xsub (Fin (IZR (fst st))) NaN))). reflexivity.
Qed.

Lemma steps_cons a b d : 0 < d -> a <= b -> steps a b d = a :: steps (a + d) b d.
Proof.
  intros Hd Hab. unfold steps. replace (b - a + d) with ((b - (a + d) + d) + 1 * d) by ring. rewrite Z.div_add by lia.
  assert (0 <= (b - (a + d) + d) / d) by (apply Z.div_pos; lia). rewrite Z2Nat.inj_add by lia. rewrite Nat.add_comm. cbn [Nat.add Z.to_nat Pos.to_nat Pos.iter_op].
  change (Pos.to_nat 1) with 1%nat. cbn [seq map Nat.add]. f_equal; [lia|]. rewrite <- seq_shift, map_map. apply map_ext. intros i. lia.
Qed.

(** The first rectangle that is not a single pixel. *)
Lemma fine_first r cw ch : 2 <= r -> 0 < cw -> 0 < ch -> exists l1 l2, fine r cw ch = l1 ++ (1, 2, 0, 0) :: l2 /\
  forall i, In i l1 -> fst (fst (fst i)) = 1 /\ snd (fst (fst i)) = 1.
Proof.
  intros Hr Hw Hh. unfold fine. rewrite (steps_cons 0 (cw - 1) 1), (steps_cons 0 (ch - 1) 1) by lia.
  assert (E1 : steps 1 r 1 = 1 :: 2 :: steps 3 r 1) by (rewrite (steps_cons 1), (steps_cons (1 + 1)) by lia; auto).
  cbn [flat_map]. rewrite E1. cbn [flat_map].
  rewrite (steps_cons (0 * r) ((0 + 1) * r - 1) 1) by lia. rewrite (steps_cons (0 * r) ((0 + 1) * r - 2) 1) by lia.
  match goal with |- exists l1 l2, ((?X ++ ?Y ++ ?Z) ++ ?W) ++ ?V = _ /\ _ => idtac end || idtac.
  rewrite <- !app_assoc.
  match goal with |- exists l1 l2, ?X ++ _ = _ /\ _ => exists X end.
  eexists. split; [f_equal; cbn [flat_map map app]; reflexivity|].
  intros i Hi. repeat (apply in_app_or in Hi; destruct Hi as [Hi|Hi]); try (apply in_flat_map in Hi; destruct Hi as (x1 & _ & Hi)); apply in_map_iff in Hi; destruct Hi as (y1 & <- & _); auto.
Qed.

Lemma foldr_hit {T U} (P Q : U -> Prop) (f : U -> T -> res U) l i0 :
  (forall s i s', In i l -> P s -> f s i = Ok s' -> P s') ->
  (forall s i s', In i l -> P s -> Q s -> f s i = Ok s' -> Q s') ->
  (forall s s', P s -> f s i0 = Ok s' -> Q s') -> In i0 l ->
  forall s s', P s -> foldr_ f l s = Ok s' -> P s' /\ Q s'.
Proof.
  intros HP HQ H0 Hi s s' Ps E.
  assert (K : forall l', incl l' l -> forall s s', P s -> Q s -> foldr_ f l' s = Ok s' -> P s' /\ Q s').
  { induction l' as [|i l' IH]; intros Inc t t' Pt Qt Et; simpl in Et; [injection Et as <-; auto|]. bk Et.
    assert (Il : In i l) by (apply Inc; left; auto). apply (IH ltac:(intros j Hj; apply Inc; right; auto) x t'); eauto. }
  assert (M : forall l', incl l' l -> In i0 l' -> forall s s', P s -> foldr_ f l' s = Ok s' -> P s' /\ Q s').
  { induction l' as [|i l' IH]; intros Inc Hi' t t' Pt Et; [destruct Hi'|]. simpl in Et. bk Et. assert (Il : In i l) by (apply Inc; left; auto).
    assert (Inc' : incl l' l) by (intros j Hj; apply Inc; right; auto). destruct Hi' as [->|Hi'].
    - apply (K l' Inc' x t'); eauto.
    - apply (IH Inc' Hi' x t'); eauto. }
  eapply (M l); eauto. apply incl_refl.
Qed.

Section Hist.
Variables w h : Z.
Variable logProb : xreal -> xreal -> xreal -> xreal.
Variables trunc round : xreal -> Z.
Variable rnd : nat -> nat -> nat.
Hypothesis w1 : 0 < w.
Hypothesis h1 : 0 < h.
Hypothesis fit : codes_fit w h.
Hypothesis lp : forall x, logProb NaN NaN x = NaN.
Variable m : nat.
Variable r : Z.
Hypothesis r2 : 2 <= r.
Hypothesis rw : (r | w).
Hypothesis rh : (r | h).
Hypothesis m1 : (0 < m)%nat.
Local Notation lstate := (lstate XR).

Definition W (H : nodes XR) (s : lstate) : Prop := lH s = H /\ wf xreal (lst s) /\ exists t, tables xreal (lst s) 0 = Some t.

Lemma storeInf_eff H (s s' : lstate) u v : W H s -> storeInf s u v = Ok s' ->
  W H s' /\ cval xreal (lst s') 0 u 0 = Some v /\ forall u', u' <> u -> cval xreal (lst s') 0 u' 0 = cval xreal (lst s) 0 u' 0.
Proof.
  intros (EH & Wf & t & Et) E. unfold storeInf, Storer.table, storeVia, tStoreSingle in E. change (F XR) with xreal in E. rewrite Et in E. cbn [fst] in E.
  destruct (tstore_ok xreal (lst s) 0 t u 0 v Wf Et) as (st & Es & W' & T' & _ & C & O). rewrite Es in E. cbn [bind] in E. injection E as <-. cbn [withSt lst lH].
  assert (Tt : tables xreal st 0 = Some t) by (rewrite T'; exact Et). split; [split; [auto|split; [auto|exists t; exact Tt]]|]. split; auto. intros u' Nu. apply O. tauto.
Qed.

Lemma unitBest_eff H k I i (z z' : lstate * xreal) u : W H (fst z) -> @unitBest XR k I i z u = Ok z' ->
  exists l v, nk (netOf H u) = KLeaf l /\ lvalue l I = Some v /\ W H (fst z') /\ cval xreal (lst (fst z')) 0 u 0 = Some v /\
    forall u', u' <> u -> cval xreal (lst (fst z')) 0 u' 0 = cval xreal (lst (fst z)) 0 u' 0.
Proof.
  destruct z as [s mx]. cbn [fst]. intros Ws. unfold unitBest. destruct Ws as (EH & Wf & T). rewrite EH. destruct (nk (netOf H u)) as [| |l] eqn:K; try discriminate.
  intros E. bk E. apply orPanic_ok in E0. exists l, x. split; auto. split; auto.
  destruct ((lM s k =? -1) || @fgt XR x mx); bk E; injection E as <-; cbn [fst].
  - destruct (storeInf_eff H (withM s k (Z.of_nat i)) x0 u x) as (A1 & A2 & A3); auto. split; auto.
  - destruct (storeInf_eff H s x0 u x) as (A1 & A2 & A3); auto. split; auto.
Qed.

Section One.
Variable L : Poon.table.
Variable H : nodes XR.
Variable I : varset.
Variable b : rect.
Variable ub : nat.
Variable lb : leaf XR.
Hypothesis Hub : nk (netOf H ub) = KLeaf lb.
Hypothesis Hv : lvalue lb I = Some NaN.
Hypothesis Rb : L (code w h b) = Some (mkRegion [ub] 1).

Definition bad (s : lstate) : Prop := cval xreal (lst s) 0 ub 0 = Some NaN.

Lemma unitBest_bad k i (z z' : lstate * xreal) u : W H (fst z) -> @unitBest XR k I i z u = Ok z' -> W H (fst z') /\ (bad (fst z) \/ u = ub -> bad (fst z')).
Proof.
  intros Wz E. destruct (unitBest_eff H k I i z z' u Wz E) as (l & v & K & V & W' & C & O). split; auto. unfold bad.
  destruct (Nat.eq_dec ub u) as [<-|D].
  - intros _. rewrite C. congruence.
  - intros [B|B]; [rewrite O; auto|congruence].
Qed.

Lemma compUnit_W s xy s' : W H s -> @compUnit XR w h L I s xy = Ok s' -> W H s' /\ (bad s -> bad s').
Proof.
  intros Ws E. unfold compUnit in E. cbv zeta in E. bk E. bk E. injection E as <-. cbn [fst].
  change ((fun z : lstate * xreal => W H (fst z) /\ (bad s -> bad (fst z))) x0). revert E1. apply foldi_inv.
  - intros i z u z' _ [Wz Bz] Ez. destruct (unitBest_bad _ i z z' u Wz Ez) as [W' B']. split; auto.
  - cbn [fst]. split; auto.
Qed.

Lemma compUnit_hit s s' : b = Rect (left b) (top b) (left b + 1) (top b + 1) -> W H s -> @compUnit XR w h L I s (left b, top b) = Ok s' -> bad s'.
Proof.
  intros Eb Ws E. unfold compUnit in E. cbv zeta in E. cbn [fst snd] in E.
  assert (Ec : encode w h (left b) (top b) (left b + 1) (top b + 1) = code w h b) by (rewrite Eb at 5; reflexivity). rewrite Ec, Rb in E. cbn [orPanic bind rinner foldi foldi_from] in E.
  unfold foldi in E. cbn [foldi_from] in E. bk E. injection E as <-. bk E0. injection E0 as <-.
  destruct (unitBest_bad (code w h b) 0%nat (withM s (code w h b) (-1), @fz XR 0) x0 ub) as [_ B]; auto.
Qed.

Lemma compUnits_bad s s' : b = Rect (left b) (top b) (left b + 1) (top b + 1) -> inside w h b -> W H s -> @compUnitRegions XR w h L I s = Ok s' -> W H s' /\ bad s'.
Proof.
  intros Eb Ib Ws E. unfold compUnitRegions in E. revert Ws E. apply (foldr_hit (W H) bad (@compUnit XR w h L I) _ (left b, top b)).
  - intros t i t' _ Wt Et. apply (compUnit_W t i t' Wt Et).
  - intros t i t' _ Wt Bt Et. apply (compUnit_W t i t' Wt Et). auto.
  - intros t t' Wt Et. apply (compUnit_hit t t' Eb Wt Et).
  - unfold inside in Ib. apply in_prod_iff. rewrite !In_steps by lia. split; (split; [lia|apply Z.divide_1_l]).
Qed.
End One.

Lemma structure_hist data : data <> [] -> (forall I, In I data -> I 0 = Some 0 /\ I w = Some 0) ->
  @structure XR w h logProb trunc round rnd data m 1 r = Panic.
Proof.
  intros Nd Hz. assert (r1 : 0 < r) by lia. unfold structure. cbn [Nat.eqb].
  destruct (createRegions_l w h (@unitPar XR data 1) logProb trunc round w1 h1 fit m 1 r m1 ltac:(lia) r1 rw rh) as (H0 & L & E & C).
  change (F XR) with xreal in *. rewrite E. cbn [bind fst snd].
  pose proof (createRegions_info w h w1 h1 fit _ _ _ _ m 1 r r1 rw rh H0 L E) as Li.
  pose proof (createRegions_units w h w1 h1 fit _ _ _ _ m 1 r r1 rw rh H0 L E) as Un.
  destruct (start_Inv (A := XR) w h r L H0 C) as [V0 Lall].
  unfold maxThroughData. destruct data as [|I data]; [congruence|]. cbn [foldr_]. cut (@mapInference XR w h rnd L r (startL L r H0) I = Panic); [intros ->; reflexivity|].
  unfold mapInference. destruct (@compUnitRegions XR w h L I (startL L r H0)) as [s2| |] eqn:E2; [|reflexivity|exfalso]; cbn [bind].
  2:{ revert E2. apply compUnitRegions_nf. }
  assert (rw' : r <= w) by (apply Z.divide_pos_le; auto). assert (rh' : r <= h) by (apply Z.divide_pos_le; auto).
  (* the two pixels *)
  assert (Px : forall y, 0 <= y < 2 -> exists u R, L (code w h (Rect 0 y 1 (y + 1))) = Some R /\ rinner R = [u] /\ inf s2 u = NaN).
  { intros y By. set (b := Rect 0 y 1 (y + 1)). assert (Ib : inside w h b) by (unfold inside; simpl; lia). assert (Ub : unitR b) by (unfold unitR; simpl; lia).
    assert (Rb : region_at r b) by (right; exists 0, 0; unfold b; cbn [left top right bottom]; lia).
    destruct (L (code w h b)) as [R|] eqn:LR; [|exfalso; eapply Lall; eauto]. destruct (Li b R Ib LR) as (_ & Sb & _ & Lb & _).
    specialize (Lb Ub). destruct (rinner R) as [|u [|]] eqn:ER; try discriminate. exists u, R. split; auto. split; auto.
    destruct (Un b R Ib Ub LR 0%nat u) as [_ En]; [rewrite ER; reflexivity|]. cbn [fst snd] in En.
    assert (ERR : R = mkRegion [u] 1).
    { destruct R as [ri st]. cbn [rinner rstep] in *. subst ri. f_equal. destruct Sb as [[Eo _]|[_ (_ & _ & Dv & _)]]; auto. unfold b in Dv. simpl in Dv. apply Z.divide_1_r in Dv. lia. }
    assert (Ez : pixelOf w b = 0 \/ pixelOf w b = w) by (unfold pixelOf, b; simpl; assert (y = 0 \/ y = 1) as [->| ->] by lia; [left; lia|right; lia]).
    assert (Hp : forall J, In J (I :: data) -> J (pixelOf w b) = Some 0) by (intros J HJ; destruct (Hz J HJ); destruct Ez as [->| ->]; auto).
    assert (Ep : @unitPar XR (I :: data) 1 (pixelOf w b) 0 = (NaN, NaN)).
    { unfold unitPar. cbn [Nat.eqb]. apply hist_zero; [discriminate|]. intros v Hv. unfold pixelValues in Hv. apply in_map_iff in Hv. destruct Hv as (J & <- & HJ). rewrite (Hp J HJ). auto. }
    match type of En with _ = Some (mkNode (KLeaf ?l) _) => set (lb := l) in * end.
    assert (Hv : lvalue lb I = Some NaN).
    { unfold lb. assert (E1 : fst (@unitPar XR (I :: data) 1 (pixelOf w b) 0) = NaN) by (rewrite Ep; auto). assert (E3 : snd (@unitPar XR (I :: data) 1 (pixelOf w b) 0) = NaN) by (rewrite Ep; auto).
      rewrite E1, E3. cbn [gaussLeaf lvalue]. f_equal. unfold gaussValue. change (@feq XR NaN (@fz XR 0)) with false. cbv iota.
      rewrite (Hp I (or_introl eq_refl)). apply lp. }
    assert (Hu : nk (netOf H0 u) = KLeaf lb) by (unfold netOf; rewrite (nth_error_nth _ _ _ En); reflexivity).
    rewrite ERR in LR.
    destruct (compUnits_bad L H0 I b u lb Hu Hv LR (startL L r H0) s2) as [(_ & _ & t & Et) Bd]; auto.
    { pose proof (start_stOk H0) as S0. split; [reflexivity|]. split; [apply S0|apply S0]. }
    unfold inf, Storer.table. change (F XR) with xreal. rewrite Et. cbn [fst]. change (@fz XR 0) with (Fin 0). rewrite (read_l (lst s2) 0 t u Et). unfold bad in Bd. rewrite Bd. reflexivity. }
  destruct (fine_first r (Z.quot w r) (Z.quot h r) r2) as (l1 & l2 & Ef & U1).
  { pose proof (quot_mul w r r1 w1 rw). nia. }
  { pose proof (quot_mul h r r1 h1 rh). nia. }
  rewrite Ef.
  assert (Sk : forall l t, (forall i, In i l1 -> fst (fst (fst i)) = 1 /\ snd (fst (fst i)) = 1) -> foldr_ (@compFine XR w h rnd L I) (l1 ++ l) t = foldr_ (@compFine XR w h rnd L I) l t).
  { intros l t. clear. induction l1 as [|i l1 IH]; intros Hf; simpl; auto. destruct (Hf i (or_introl eq_refl)) as [Ex Ey].
    destruct i as [[[x y] x1] y1]. cbn [fst snd] in *. subst x y. cbn [compFine Z.eqb Pos.eqb andb bind]. apply IH. intros j Hj. apply Hf. right. auto. }
  rewrite Sk by auto. cbn [foldr_]. cut (@compFine XR w h rnd L I s2 (1, 2, 0, 0) = Panic); [intros ->; reflexivity|].
  set (a := Rect 0 0 1 2). change (@compRect XR w h rnd L I s2 (left a) (top a) (right a) (bottom a) = Panic).
  assert (Ia : inside w h a) by (unfold inside; simpl; lia). assert (Ua : ~ unitR a) by (unfold unitR; simpl; lia).
  unfold compRect. cbv zeta. change (encode w h (left a) (top a) (right a) (bottom a)) with (code w h a).
  destruct (L (code w h a)) as [R|] eqn:LR; [|reflexivity]. cbn [orPanic bind]. unfold compMap. cbv zeta. set (s0 := withM s2 _ _) in *.
  match goal with |- bind ?e _ = _ => destruct e as [[cU s1]| |] eqn:E1 end; [|reflexivity|exfalso].
  2:{ destruct (unused (lH s0) R); [discriminate|]. apply pick_nf in E1. auto. }
  cbn [bind].
  assert (K1 : lst s1 = lst s0).
  { destruct (unused (lH s0) R); [injection E1 as _ <-; auto|]. apply pick_ok in E1. destruct E1 as (_ & _ & _ & K'). auto. }
  rewrite (decode_code w h w1 h1 fit a Ia). cbn [bind].
  assert (Rs : rstep R = 1).
  { destruct (Li a R Ia LR) as (_ & [[Eo _]|[_ (_ & _ & Dv & _)]] & _); auto. unfold a in Dv. simpl in Dv. apply Z.divide_1_r in Dv. lia. }
  rewrite Rs. change (mapCuts w h 1 (left a) (top a) (right a) (bottom a)) with [(code w h (Rect 0 1 1 (1 + 1)), code w h (Rect 0 0 1 (0 + 1)))].
  destruct (Px 0 ltac:(lia)) as (u0 & R0 & L0 & I0 & N0). destruct (Px 1 ltac:(lia)) as (u1 & R1 & L1 & I1 & N1).
  cbn [foldr_]. unfold tryCut. cbn [fst snd]. rewrite L0, L1. cbn [orPanic bind]. rewrite I0, I1.
  assert (Ix : forall (u : nat) z, idxZ [u] z = Ok u \/ idxZ [u] z = Panic).
  { intros u z. unfold idxZ. destruct (z <? 0); auto. unfold idx. destruct (Z.to_nat z) as [|[|]]; simpl; auto. }
  assert (J0 : @inf XR s1 u0 = NaN) by (rewrite <- N0; unfold inf; rewrite K1; reflexivity).
  assert (J1 : @inf XR s1 u1 = NaN) by (rewrite <- N1; unfold inf; rewrite K1; reflexivity).
  destruct (Ix u1 (lM s1 (code w h (Rect 0 1 1 (1 + 1))))) as [->| ->]; [|reflexivity]. cbn [bind].
  destruct (Ix u0 (lM s1 (code w h (Rect 0 0 1 (0 + 1))))) as [->| ->]; [|reflexivity]. cbn [bind]. cbv zeta.
  change (F XR) with xreal. rewrite J0, J1. reflexivity.
Qed.
End Hist.
