(** One batch of DiscriminativeBGD over the reals. *)
From Coq Require Import Reals Lra FunctionalExtensionality.
From Verif Require Import Base Res Arith LogMath LogSpec LogLemmas GraphSpec GraphLemmas Search SearchLemmas Topo TopoLemmas Storer StorerSpec StorerLemmas
  Spn DP SpnSpec SpnLemmas ProbSpec ProbLemmas Walk WalkLemmas Struct StructSpec StructLemmas Derive DeriveSpec DiffLemmas DeriveLemmas GradLemmas StepLemmas DeriveCases Hard PipeLemmas
  Train TrainSpec TrainRange TrainKeep TrainShape TrainAll TrainKept TrainGrad TrainSteps TrainBatch TrainHard TrainDisc TrainRoot TrainBgd TrainGradD.

Lemma foldi_totalJ {T U} (P : nat -> U -> Prop) (f : nat -> U -> T -> res U) l :
  (forall i s x, nth_error l i = Some x -> P i s -> exists s', f i s x = Ok s' /\ P (S i) s') -> forall s, P 0 s ->
  exists s', foldi f l s = Ok s' /\ P (length l) s'.
Proof.
  unfold foldi. assert (K : forall i0, (forall i s x, nth_error l i = Some x -> P (i0 + i) s -> exists s', f (i0 + i) s x = Ok s' /\ P (S (i0 + i)) s') -> forall s, P i0 s -> exists s', foldi_from i0 f l s = Ok s' /\ P (i0 + length l) s').
  { induction l as [|x l IH]; intros i0 Hf s Ps; simpl.
    - rewrite Nat.add_0_r. eauto.
    - destruct (Hf 0 s x eq_refl) as (s1 & E1 & P1); [rewrite Nat.add_0_r; auto|]. rewrite Nat.add_0_r in E1, P1. rewrite E1. cbn [bind].
      replace (i0 + S (length l)) with (i0 + 1 + length l) by lia. apply IH; [|replace (i0 + 1) with (S i0) by lia; auto].
      intros i t y Hy Pt. replace (i0 + 1 + i) with (i0 + S i) by lia. apply Hf; auto. replace (i0 + S i) with (i0 + 1 + i) by lia; auto. }
  intros Hf s P0. apply (K 0); auto.
Qed.

Section Any.
Context {A : arith}.
Local Notation F := (F A).
Local Notation storer := (storer F).
Local Notation entry := (sEntry F (fz 0)).

Lemma storeAt_cnode (st : storer) kt t u i v st' k x : wf F st -> tables F st kt = Some t -> k <> kt ->
  storeAt st (Some t) u i v = Ok st' -> cnode F st' k x = cnode F st k x.
Proof.
  intros W Et Hk. unfold storeAt, tStore. destruct (theap F st t u) as [m|] eqn:Eu; intros E; injection E as <-; unfold cnode; simpl; auto.
  destruct (tables F st k) as [t'|] eqn:Ek; auto. rewrite upd_diff; auto. intros ->. apply Hk. eapply (w2 F st W); eauto.
Qed.

Definition grad (st : storer) (r i : nat) : F :=
  fsub (fexp (fsub (fst (entry st 2 r (Z.of_nat i))) (fst (entry st 0 r (Z.of_nat i)))))
       (fexp (fsub (fst (entry st 5 r (Z.of_nat i))) (fst (entry st 3 r (Z.of_nat i))))).

Lemma storeDGD_entries (net : network A) r f (st : storer) t W : wf F st -> acyclic (children net) -> tables F st 6 = Some t -> nk (net r) = KSum W ->
  exists st', storeDGD (S (S f)) r 0 2 3 5 6 net st = Ok st' /\ winv 6 st st' /\
    (forall i, i < length W -> cval F st' 6 r (Z.of_nat i) = Some (fadd (fst (entry st 6 r (Z.of_nat i))) (grad st r i))) /\
    forall x l, ~ (x = r /\ (0 <= l < Z.of_nat (length W))%Z) -> cval F st' 6 x l = cval F st 6 x l.
Proof.
  intros Wf Ha Ht EK. unfold storeDGD. cbn [storeLoopD]. unfold storeNodeD at 1. rewrite EK. unfold table. cbn [fst]. rewrite Ht.
  assert (HR : forall a k i, winv 6 st a -> k <> 6%Z -> (forall x, cnode F a k x = cnode F st k x) ->
    mapAt a (fst (tValue F st (tables F st k) r)) i = fst (entry st k r (Z.of_nat i))).
  { intros a k i Hw Hk Hc. rewrite <- mapAt_entry. pose proof (proj2 (proj2 (proj2 Hw)) k r (Z.of_nat i) Hk) as Hv. unfold cval in Hv. rewrite Hc in Hv.
    unfold cnode, tValue in *. unfold mapAt, map_get. destruct (tables F st k) as [tt|]; auto. cbn [fst] in *. destruct (theap F st tt r); auto. rewrite Hv. auto. }
  destruct (foldi_totalJ (fun i (a : storer) => winv 6 st a /\ (forall k x, k <> 6%Z -> cnode F a k x = cnode F st k x) /\
      (forall j, j < i -> cval F a 6 r (Z.of_nat j) = Some (fadd (fst (entry st 6 r (Z.of_nat j))) (grad st r j))) /\
      forall x l, ~ (x = r /\ (0 <= l < Z.of_nat i)%Z) -> cval F a 6 x l = cval F st 6 x l)
    (fun i st0 (_ : F) =>
        let delta := fsub (fexp (fsub (mapAt st0 (fst (tValue F st (tables F st 2) r)) i) (mapAt st0 (fst (tValue F st (tables F st 0) r)) i)))
                          (fexp (fsub (mapAt st0 (fst (tValue F st (tables F st 5) r)) i) (mapAt st0 (fst (tValue F st (tables F st 3) r)) i))) in
        storeAt st0 (Some t) r (Z.of_nat i) (fadd (fst (tEntry F (fz 0) st0 (Some t) r (Z.of_nat i))) delta)) W) with (s := st) as (st' & E & H1 & H2 & H3 & H4).
  - intros i a w Hi (H1 & H2 & H3 & H4). cbv zeta. rewrite !HR by (auto; try discriminate; intros; apply H2; discriminate).
    destruct (storeAt_ok 6%Z t st Ht a r (Z.of_nat i) (fadd (fst (tEntry F (fz 0) a (Some t) r (Z.of_nat i))) (grad st r i)) H1) as (b & Eb & Hw & Hv & Ho).
    exists b. split; [exact Eb|]. split; auto. split; [|split].
    + intros k x Hk. rewrite <- (H2 k x Hk). apply (storeAt_cnode a 6 t r (Z.of_nat i) _ b k x (proj1 H1)) in Eb; auto. rewrite (proj1 (proj2 H1)). auto.
    + intros j Hj. destruct (Nat.eq_dec j i) as [->|D].
      * rewrite Hv. f_equal. f_equal. rewrite (tEntry_cval F (fz 0) a 6 t) by (rewrite (proj1 (proj2 H1)); auto). rewrite sEntry_cval. rewrite H4 by lia. auto.
      * rewrite Ho by (right; lia). apply H3. lia.
    + intros x l Hx. rewrite Ho; [apply H4; intros [-> Hl]; apply Hx; split; auto; lia|]. destruct (Nat.eq_dec x r) as [->|]; auto. right. intros ->. apply Hx. split; auto. lia.
  - split; [apply winv_refl; auto|]. split; auto. split; [intros; lia|auto].
  - exists st'. unfold table in E. rewrite E. cbn [bind]. rewrite (no_children r net Ha net eq_refl). cbn [storeLoopD]. split; auto.
Qed.

Lemma resetTickets_entry ks : forall (st : storer) k x l, wf F st ->
  entry (resetTickets F st ks) k x l = if in_dec Z.eq_dec k ks then (fz 0, false) else entry st k x l.
Proof.
  induction ks as [|j ks IH]; intros st k x l W; [reflexivity|].
  change (resetTickets F st (j :: ks)) with (resetTickets F (fst (reset F st j)) ks).
  assert (W' : wf F (fst (reset F st j))) by exact (wf_resetTickets F [j] st W).
  rewrite IH by auto. destruct (in_dec Z.eq_dec k ks) as [Hk|Hk].
  - destruct (in_dec Z.eq_dec k (j :: ks)) as [|Hn]; auto. exfalso. apply Hn. right; auto.
  - destruct (in_dec Z.eq_dec k (j :: ks)) as [[->|Hc]|Hn]; [apply reset_this|contradiction|]. apply reset_other; auto. intros ->. apply Hn. left; auto.
Qed.
End Any.

Section Real.
Variables (N r M : nat).
Local Notation entry := (sEntry xreal (Fin 0)).
Variable net : network XR.
Hypothesis Hl : learnable net N r UseQueue.
Hypothesis HM : at_most M r net.
Variable P : params XR.
Variables eta lambda : R.
Hypothesis HE : peta P = Fin eta.
Hypothesis HLm : plambda P = Fin lambda.
Variable Y : list Z.
Hypothesis HY : NoDup Y.
Variable ws : list R.
Hypothesis EK : nk (net r) = @KSum XR (map Fin ws).
Variables (ordN : nat -> (nat -> bool) -> list nat) (ordP : nat -> nat -> (Z -> option xreal) -> list (Z * xreal)).
Hypothesis HN : ranges_nodes N ordN.
Hypothesis HP : ranges_entries M ordP.

Definition fitI (I : varset) : Prop := has_all Y I /\ leaf_values net I r /\ leaf_values net (without Y I) r /\
  (0 < lval net I (fun _ => None) N r)%R /\ (0 < lval net (without Y I) (fun _ => None) N r)%R.

Definition instG (i : nat) (w : R) (I : varset) (G : R) : Prop :=
  exists D E, weight_derivative net I N r r i w D /\ weight_derivative net (without Y I) N r r i w E /\
    G = (if Nat.eqb i 0 then D / lval net I (fun _ => None) N r - E / lval net (without Y I) (fun _ => None) N r else D - E)%R.

Definition KD (c : list varset) (s : dstate XR) : Prop :=
  tnet (ds s) = net /\ KB6 r M net s /\ (forall k, (0 <= k < 6)%Z -> blank (tst (ds s)) k) /\ tcnt (ds s) = length c /\ length (dy s) = length Y /\
  (forall i w, nth_error ws i = Some w -> exists Gs, Forall2 (instG i w) c Gs /\
     cval xreal (tst (ds s)) 6 r (Z.of_nat i) = match c with [] => None | _ => Some (Fin (Rsum Gs)) end) /\
  (forall x l, ~ (x = r /\ (0 <= l < Z.of_nat (length ws))%Z) -> cval xreal (tst (ds s)) 6 x l = None).

Lemma xq a s : (0 <= a)%R -> (0 < s)%R -> xexp (xsub (xln a) (xln s)) = Fin (a / s).
Proof.
  intros Ha0 Hs0. unfold xln. destruct (Rlt_dec 0 s) as [_|]; [|lra]. destruct (Rlt_dec 0 a) as [Ha1|Ha1].
  - simpl. f_equal. unfold Rminus. rewrite exp_plus, exp_Ropp, !exp_ln by lra. reflexivity.
  - simpl. f_equal. replace a with 0%R by lra. unfold Rdiv. rewrite Rmult_0_l. reflexivity.
Qed.

Lemma dbgd_one c s I : fitI I -> KD c s -> exists s', @dbgdInstance XR (2 * N + 1) (S N) r Y s I = Ok (s', I) /\ KD (c ++ [I]) s'.
Proof.
  intros (HI & HV & HV' & HS & HZ) (En & H6 & Hb & Hc & Hy & HD & HO). pose proof Hl as (Hbd & Hr & Ha & Hs & Hd & HL & HSn & Hne & HW).
  pose proof H6 as (HKR & (HG & Hsok & Hfull & Hroot)).
  destruct (three N r net Hl I ks7 (tst (ds s)) 0 1 2 ws HV HG) as (a1 & a2 & a3 & E1 & E2 & E3 & G3 & O3 & V3 & _ & Z3 & D3); auto; try lia;
    try (unfold ks7; simpl; tauto); try (apply Hb; lia).
  destruct (three N r net Hl (without Y I) ks7 a3 3 4 5 ws HV' G3) as (b1 & b2 & b3 & F1 & F2 & F3 & G6 & O6 & V6 & _ & Z6 & D6); auto; try lia;
    try (unfold ks7; simpl; tauto); try (intros u l; rewrite O3 by lia; apply Hb; lia).
  destruct (pull_without I Y (dy s) HY Hy HI) as (y1 & Y1 & Y2 & Y3).
  assert (Eg : @gradients XR (2 * N + 1) (S N) r Y s I = Ok (b3, I, y1)).
  { unfold gradients. rewrite En, E1. cbn [bind fst]. rewrite E2. cbn [bind fst]. rewrite E3. cbn [bind fst].
    rewrite Y1. cbn [bind fst snd]. rewrite F1. cbn [bind fst]. rewrite F2. cbn [bind fst]. rewrite F3. cbn [bind fst]. rewrite Y2. reflexivity. }
  assert (Ht : exists t, tables xreal b3 6 = Some t).
  { pose proof (proj2 G6 6%Z ltac:(unfold ks7; simpl; tauto)) as Q. unfold Storer.table in Q. cbn [snd] in Q. change (F XR) with xreal in Q. destruct (tables xreal b3 6); [eauto|discriminate]. }
  destruct Ht as (t & Ht). assert (EN : S N = S (S (pred N))) by lia.
  destruct (@storeDGD_entries XR net r (pred N) b3 t (map Fin ws) (@fresh_wf XR _ (proj1 G6)) Ha Ht EK) as (st' & Es & Hw & Hi & Ho).
  rewrite <- EN in Es.
  assert (Ei : @dbgdInstance XR (2 * N + 1) (S N) r Y s I = Ok (@mkD XR (@mkT XR (resetTickets xreal st' six) net (S (tcnt (ds s)))) y1, I)).
  { unfold dbgdInstance. rewrite Eg. cbn [bind]. rewrite En. change (F XR) with xreal in *. rewrite Es. reflexivity. }
  eexists. split; [exact Ei|].
  pose proof (dbgd_KB6 r N M net HM Hr Ha (2 * N + 1) (S N) Y s I _ H6 Ei) as H6'. cbn [fst] in H6'.
  assert (Hc6 : forall x l, cval xreal (resetTickets xreal st' six) 6 x l = cval xreal st' 6 x l).
  { intros x l. pose proof (@resetTickets_entry XR six st' 6%Z x l (proj1 Hw)) as Q. destruct (in_dec Z.eq_dec 6%Z six) as [Hin|_]; [unfold six in Hin; simpl in Hin; lia|].
    rewrite !sEntry_cval in Q. change (F XR) with xreal in Q. destruct (cval xreal (resetTickets xreal st' six) 6 x l), (cval xreal st' 6 x l); congruence. }
  unfold KD. cbn [ds dy tnet tst tcnt]. split; auto. split; auto. split; [|split; [|split; [auto|split]]].
  - intros k Hk x l. pose proof (@resetTickets_entry XR six st' k x l (proj1 Hw)) as Q. destruct (in_dec Z.eq_dec k six) as [_|Hn]; [exact Q|].
    exfalso. apply Hn. unfold six. simpl. lia.
  - rewrite app_length, Hc. simpl. lia.
  - intros i w Hwi. destruct (HD i w Hwi) as (Gs & K1 & K2).
    destruct (D3 i w Hwi) as (D & D0 & D1 & D2). destruct (D6 i w Hwi) as (E & E0 & E4 & E5).
    exists (Gs ++ [(if Nat.eqb i 0 then D / lval net I (fun _ => None) N r - E / lval net (without Y I) (fun _ => None) N r else D - E)%R]). split.
    + apply Forall2_app; auto. constructor; auto. exists D, E. auto.
    + rewrite Hc6. assert (Li : i < length (map Fin ws)) by (rewrite map_length; apply nth_error_Some; congruence).
      specialize (Hi i Li). change (F XR) with xreal in *. rewrite Hi. clear Hi.
      replace (match c ++ [I] with [] => None | _ :: _ => Some (Fin (Rsum (Gs ++ [(if Nat.eqb i 0 then D / lval net I (fun _ => None) N r - E / lval net (without Y I) (fun _ => None) N r else D - E)%R]))) end)
        with (Some (Fin (Rsum (Gs ++ [(if Nat.eqb i 0 then D / lval net I (fun _ => None) N r - E / lval net (without Y I) (fun _ => None) N r else D - E)%R])))) by (destruct c; reflexivity).
      f_equal. rewrite Rsum_snoc. change (@fz XR 0) with (Fin 0).
      assert (X6 : fst (entry b3 6 r (Z.of_nat i)) = Fin (Rsum Gs)).
      { rewrite O6, O3 by lia. rewrite sEntry_cval. rewrite K2. destruct c; auto. inversion K1. reflexivity. }
      unfold grad. change (F XR) with xreal. change (@fz XR 0) with (Fin 0). rewrite X6.
      assert (X2 : entry b3 2 r (Z.of_nat i) = entry a3 2 r (Z.of_nat i)) by (apply O6; lia).
      assert (X1 : entry b3 0 r (Z.of_nat i) = entry a3 0 r (Z.of_nat i)) by (apply O6; lia). rewrite X2, X1, D1, E4.
      change (@fsub XR) with xsub. change (@fexp XR) with xexp. change (@fadd XR) with xadd.
      destruct i as [|i].
      * cbn [Z.of_nat Nat.eqb]. rewrite V3, V6. rewrite !xq by auto. reflexivity.
      * rewrite Z3, Z6 by lia. cbn [Nat.eqb]. replace (Fin 0) with (xln 1) by (unfold xln; destruct (Rlt_dec 0 1); [|lra]; f_equal; apply ln_1).
        rewrite !xq by (auto; lra). simpl. f_equal. field.
  - intros x l Hx. rewrite Hc6. rewrite map_length in Ho. change (F XR) with xreal in *. rewrite Ho by auto.
    pose proof (O6 6%Z x l ltac:(lia) ltac:(lia) ltac:(lia)) as Q1. rewrite (O3 6%Z x l ltac:(lia) ltac:(lia) ltac:(lia)) in Q1. rewrite !sEntry_cval in Q1. rewrite (HO x l Hx) in Q1.
    destruct (cval xreal b3 6 x l); [discriminate|auto].
Qed.

Local Notation b := (IZR (pbatch P)).
Local Notation flush := (flushD (@applyDGDFrom XR ordN ordP (peta P) (plambda P) 6 (pnorm P) (pbatch P)) [6%Z]).
Local Notation one := (@dbgdInstance XR (2 * N + 1) (S N) r Y).

Definition doneB (data : list varset) (net' : network XR) : Prop := exists ws', length ws' = length ws /\
  net' r = mkNode (@KSum XR (if pnorm P then @normalize XR (map Fin ws') else map Fin ws')) (nch (net r)) /\
  (forall x, x <> r -> net' x = net x) /\
  forall i w, nth_error ws i = Some w -> exists Gs, Forall2 (instG i w) data Gs /\
    nth_error ws' i = Some (w + eta * Rsum Gs / b - 2 * lambda * w)%R.

Lemma dbgd_flush c s : (0 < pbatch P)%Z -> c <> [] -> KD c s -> exists s', flush s = Ok s' /\ doneB c (tnet (ds s')) /\ tcnt (ds s') = tcnt (ds s).
Proof.
  intros Hb Hc (En & H6 & Hbl & Hn & Hy & HD & HO). pose proof Hl as (Hbd & Hr & Ha & Hs & Hd & HL & HSn & Hne & HW).
  pose proof H6 as (HKR & (HG & Hsok & Hfull & Hroot)). unfold flushD, applyDGDFrom. rewrite En, HE, HLm.
  rewrite (@applyRange_l XR r N M net) with (n := net); auto.
  2:{ intros u Hu. eapply reach_bounded; eauto. }
  2:{ intros u W EW i dd Hi. change (F XR) with xreal in *. destruct (Nat.eq_dec u r) as [->|Hu]; [|rewrite HO in Hi by tauto; discriminate].
      rewrite EK in EW. injection EW as <-. rewrite map_length. destruct (Z_lt_dec i 0); [rewrite HO in Hi by lia; discriminate|].
      destruct (Z_lt_dec i (Z.of_nat (length ws))); [lia|]. rewrite HO in Hi by lia. discriminate. }
  cbn [bind]. eexists. split; [reflexivity|]. cbn [ds tnet tcnt]. split; auto.
  set (f := fun d w : F XR => @stepW XR (Fin lambda) (pbatch P) (@fmul XR (Fin eta) d) w).
  set (W := @stepped XR f (cval xreal (tst (ds s)) 6 r) 0 (map Fin ws)).
  assert (HWl : length W = length ws) by (unfold W; rewrite stepped_length, map_length; auto).
  assert (HB0 : (0 < b)%R) by (apply IZR_lt; auto).
  assert (HWi : forall i w, nth_error ws i = Some w -> exists Gs, Forall2 (instG i w) c Gs /\ nth_error W i = Some (Fin (w + eta * Rsum Gs / b - 2 * lambda * w))).
  { intros i w Hw. destruct (HD i w Hw) as (Gs & F1 & F2). exists Gs. split; auto. unfold W.
    rewrite (@stepped_nth XR _ _ _ 0 i (Fin w)) by (rewrite nth_error_map, Hw; auto). cbn [Nat.add].
    change (cval (F XR)) with (cval xreal). rewrite F2. destruct c as [|I0 c]; [congruence|]. f_equal. unfold f, stepW.
    simpl. unfold xdiv. destruct (Req_EM_T b 0); [lra|]. simpl. f_equal. unfold Rdiv. lra. }
  assert (EF : W = map Fin (map unfin W)).
  { apply nth_error_ext. intros i. rewrite !nth_error_map. destruct (nth_error ws i) as [w|] eqn:Ew.
    - destruct (HWi i w Ew) as (Gs & _ & EW). change (F XR) with xreal in *. rewrite !EW. reflexivity.
    - assert (EW : nth_error W i = None) by (apply nth_error_None; apply nth_error_None in Ew; lia). change (F XR) with xreal in *. rewrite !EW. reflexivity. }
  exists (map unfin W). rewrite map_length. split; auto. split; [|split].
  - unfold applied. rewrite EK. change (cnode (F XR)) with (cnode xreal).
    assert (Hcn : exists m, cnode xreal (tst (ds s)) 6 r = Some m).
    { destruct (HW r _ (reach_refl _ _) EK) as (_ & ws0 & E0 & Hwl & _). apply map_inj_Fin in E0. subst ws0.
      destruct ws as [|w ws1] eqn:Ews; [destruct (nch (net r)); [congruence|discriminate]|]. destruct (HD 0 w eq_refl) as (Gs & _ & E). unfold cval in E.
      destruct (cnode xreal (tst (ds s)) 6 r) as [m|]; [eauto|]. destruct c; [congruence|discriminate]. }
    destruct Hcn as (m & ->). rewrite <- EF. reflexivity.
  - intros x Hx. unfold applied. destruct (nk (net x)); auto. change (cnode (F XR)) with (cnode xreal). destruct (cnode xreal (tst (ds s)) 6 x) as [m|] eqn:Ec; auto.
    exfalso. unfold cnode in Ec. destruct (tables xreal (tst (ds s)) 6) as [t|] eqn:Et; [|discriminate]. destruct (Hfull t x m Ec) as (l & Hl').
    specialize (HO x l ltac:(tauto)). unfold cval, cnode in HO. rewrite Et, Ec in HO. change (F XR) with xreal in *. destruct (mheap xreal (tst (ds s)) m l); congruence.
  - intros i w Hw. destruct (HWi i w Hw) as (Gs & F1 & F2). exists Gs. split; auto. change (F XR) with xreal in *. rewrite nth_error_map, F2. reflexivity.
Qed.

Lemma dbgd_short data : forall c s, (forall I, In I data -> fitI I) -> (0 < pbatch P)%Z -> (Z.of_nat (length c + length data) < pbatch P)%Z -> KD c s ->
  exists s', overData (fun s I => x <- one s I; afterOne P flush x) data s = Ok (s', data) /\ KD (c ++ data) s'.
Proof.
  induction data as [|I data IH]; intros c s HF Hb Hlen K; cbn [overData]; [exists s; rewrite app_nil_r; auto|].
  destruct (dbgd_one c s I) as (s1 & E1 & K1); [apply HF; left; auto|auto|]. rewrite E1. cbn [bind]. unfold afterOne at 1. cbn [fst snd].
  rewrite remOf_ok by auto. cbn [bind].
  assert (Ec : tcnt (ds s1) = length c + 1) by (destruct K1 as (_ & _ & _ & -> & _); rewrite app_length; auto). rewrite Ec.
  cbn [length] in Hlen. rewrite Z.mod_small by lia. destruct (Z.eqb_spec (Z.of_nat (length c + 1)) 0) as [|_]; [lia|]. cbn [bind fst snd].
  destruct (IH (c ++ [I]) s1) as (s2 & E2 & K2); auto; [intros; apply HF; right; auto|rewrite app_length; simpl; lia|].
  rewrite E2. cbn [bind fst snd]. exists s2. split; auto. rewrite <- app_assoc in K2. auto.
Qed.

Lemma overData_app {f : dstate XR -> varset -> res (dstate XR * varset)} a c : forall s s1 s2 a' c', overData f a s = Ok (s1, a') -> overData f c s1 = Ok (s2, c') -> overData f (a ++ c) s = Ok (s2, a' ++ c').
Proof.
  induction a as [|I a IH]; intros s s1 s2 a' c' E1 E2; cbn [overData app] in *; [injection E1 as <- <-; auto|].
  destruct (f s I) as [[t J]| |]; try discriminate. cbn [bind fst snd] in *. destruct (overData f a t) as [[t1 J1]| |] eqn:E3; try discriminate. cbn [bind fst snd] in E1.
  injection E1 as -> <-. rewrite (IH t s1 s2 J1 c' E3 E2). reflexivity.
Qed.

Lemma dbgd_batch_l data : piter P = 1%Z -> data <> [] -> (Z.of_nat (length data) <= pbatch P)%Z -> (forall I, In I data -> fitI I) ->
  exists net', @discriminativeBGD XR ordN ordP (2 * N + 1) (S N) r P Y data net = Ok (net', data) /\ doneB data net'.
Proof.
  intros Hit Hne Hlen HF. assert (Hb : (0 < pbatch P)%Z) by (destruct data; [congruence|simpl in Hlen; lia]).
  assert (K0 : KD [] (mkD (start 7 net) (repeat 0%Z (length Y)))).
  { destruct (@tickets_good XR 7) as (HG & _ & Hbl). unfold KD, start. cbn [ds dy tnet tst tcnt length]. split; auto. split.
    { split; [split; [apply ow_refl|auto]|]. cbn [ds tst]. split; [exact HG|]. split; [apply sok_tickets|]. split; [apply full_tickets|]. intros y l _. apply Hbl. }
    assert (HN' : forall x l, cval xreal (@tickets_ XR 7) 6 x l = None).
    { intros x l. pose proof (Hbl 6%Z x l) as Q. rewrite sEntry_cval in Q. change (F XR) with xreal in Q. destruct (cval xreal _ 6 x l); [discriminate|auto]. }
    split; [intros k _ u l; apply Hbl|]. split; auto. split; [apply repeat_length|]. split; [|intros; apply HN'].
    intros i w _. exists []. split; [constructor|]. apply HN'. }
  unfold discriminativeBGD, dBatches, dEpochs, epochs. rewrite Hit. change (Z.to_nat 1) with 1. cbn [repeat foldr_ fst snd].
  destruct (Z_lt_dec (Z.of_nat (length data)) (pbatch P)) as [Hlt|Hge].
  - destruct (dbgd_short data [] _ HF Hb Hlt K0) as (s1 & E1 & K1). rewrite E1. cbn [bind fst snd app] in *. rewrite remOf_ok by auto. cbn [bind].
    assert (Ec : tcnt (ds s1) = length data) by apply K1. rewrite Ec. rewrite Z.mod_small by lia.
    destruct (Z.eqb_spec (Z.of_nat (length data)) 0) as [E0|_]; [destruct data; [congruence|simpl in E0; lia]|].
    destruct (dbgd_flush data s1 Hb Hne K1) as (s2 & E2 & D2 & _). rewrite E2. cbn [bind]. eauto.
  - destruct (exists_last Hne) as (a & I & ->). rewrite app_length in *. cbn [length] in *.
    destruct (dbgd_short a [] _ ltac:(intros; apply HF; apply in_or_app; auto) Hb ltac:(simpl; lia) K0) as (s1 & E1 & K1). cbn [app] in K1.
    destruct (dbgd_one a s1 I) as (s2 & E2 & K2); [apply HF; apply in_or_app; right; left; auto|auto|].
    destruct (dbgd_flush (a ++ [I]) s2 Hb Hne K2) as (s3 & E3 & D3 & C3).
    assert (Ec : tcnt (ds s2) = length a + 1) by (destruct K2 as (_ & _ & _ & -> & _); rewrite app_length; auto).
    assert (Em : (Z.of_nat (length a + 1) mod pbatch P = 0)%Z) by (replace (Z.of_nat (length a + 1)) with (pbatch P) by lia; apply Z_mod_same_full).
    assert (E4 : overData (fun s I => x <- one s I; afterOne P flush x) [I] s1 = Ok (s3, [I])).
    { cbn [overData]. rewrite E2. cbn [bind]. unfold afterOne. cbn [fst snd]. rewrite remOf_ok by auto. cbn [bind]. rewrite Ec, Em. cbn [Z.eqb]. rewrite E3. reflexivity. }
    rewrite (overData_app a [I] _ _ _ _ _ E1 E4). cbn [bind fst snd]. rewrite remOf_ok by auto. cbn [bind]. rewrite C3, Ec, Em. cbn [Z.eqb bind]. eauto.
Qed.
End Real.
