(** One step of DiscriminativeGD over the reals. *)
From Coq Require Import Reals Lra FunctionalExtensionality.
From Verif Require Import Base Res Arith LogMath LogSpec LogLemmas GraphSpec GraphLemmas Search SearchLemmas Topo TopoLemmas Storer StorerSpec StorerLemmas
  Spn DP SpnSpec SpnLemmas ProbSpec ProbLemmas Walk WalkLemmas Struct StructSpec StructLemmas Derive DeriveSpec DiffLemmas DeriveLemmas GradLemmas StepLemmas DeriveCases Hard PipeLemmas
  Train TrainSpec TrainRange TrainKeep TrainShape TrainAll TrainKept TrainGrad TrainSteps TrainBatch TrainHard TrainDisc TrainRoot.

Lemma applyDGD_fuel {A : arith} (net : network A) r f s w z u st eta lambda nrm b : acyclic (children net) ->
  applyDGD (S (S f)) r s w z u st eta lambda nrm b net = applyDGD 2 r s w z u st eta lambda nrm b net.
Proof.
  intros Ha. unfold applyDGD. cbn [dgdLoop]. destruct (dgdNode _ _ _ _ _ _ _ _ _ _ _); auto. cbn [bind].
  rewrite (no_children r net Ha net eq_refl). auto.
Qed.

Section Real.
Variables (N r : nat).
Local Notation entry := (sEntry xreal (Fin 0)).
Local Notation single := (sSingle xreal (Fin 0)).
Variable net : network XR.
Hypothesis Hl : learnable net N r UseQueue.

(** Values, derivatives and derivatives of the weights, with three tickets. *)
Lemma three I ks (st : storer xreal) itk dtk wtk ws : leaf_values net I r -> @good XR ks st ->
  In itk ks -> In dtk ks -> In wtk ks -> (0 <= itk)%Z -> (0 <= dtk)%Z -> (0 <= wtk)%Z -> itk <> dtk -> itk <> wtk -> dtk <> wtk ->
  blank st itk -> blank st dtk -> nk (net r) = @KSum XR (map Fin ws) ->
  exists st1 st2 st3, storeInference net (2 * N + 1) r I itk st = Ok (st1, (Some r, itk)) /\
    @deriveSPN XR net UseQueue (S N) r st1 dtk itk = Ok (st2, (r, dtk)) /\
    @deriveWeights XR net UseQueue (S N) r st2 wtk dtk itk = Ok (st3, (r, wtk)) /\ @good XR ks st3 /\
    (forall k u l, k <> itk -> k <> dtk -> k <> wtk -> entry st3 k u l = entry st k u l) /\
    fst (entry st3 itk r 0%Z) = xln (lval net I (fun _ => None) N r) /\ (0 <= lval net I (fun _ => None) N r)%R /\ 
    (forall l, l <> 0%Z -> fst (entry st3 itk r l) = Fin 0) /\
    (forall i w, nth_error ws i = Some w -> exists D, (0 <= D)%R /\ fst (entry st3 wtk r (Z.of_nat i)) = xln D /\ weight_derivative net I N r r i w D).
Proof.
  intros HV HG I1 I2 I3 P1 P2 P3 N1 N2 N3 B1 B2 EK. pose proof Hl as (Hb & Hr & Ha & Hs & Hd & HL & HS & Hne & HW).
  destruct (front N r UseQueue net I ks st itk dtk Hl HV HG) as (st1 & st2 & E1 & E2 & HG2 & Hv & Hder & Ho & Hp); auto.
  pose proof HG2 as ((ops2 & Hst2) & HT2).
  destruct (deriveWeights_real net N r I UseQueue st2 ops2 wtk dtk itk Hst2 Hb Hr Ha HL HW HV (fun _ => HT2 _ I3)) as (st3 & E3 & H3);
    try (destruct (Z.ltb_spec wtk 0); lia); [exact Hv|exact Hder|].
  replace (wtk <? 0)%Z with false in * by (symmetry; apply Z.ltb_ge; lia).
  destruct (@deriveWeights_entries_l XR net N r UseQueue st2 ops2 wtk dtk itk Hst2 Hb Hr HL (fun _ => HT2 _ I3)) as (st3' & E3' & _ & H3' & _);
    try (destruct (Z.ltb_spec wtk 0); lia).
  replace (wtk <? 0)%Z with false in * by (symmetry; apply Z.ltb_ge; lia).
  change (F XR) with xreal in *. change (@fz XR 0) with (Fin 0) in *.
  rewrite E3 in E3'. injection E3' as <-.
  exists st1, st2, st3. split; auto. split; auto. split; auto. split; [|split; [|split; [|split; [|split]]]].
  - refine (@good_call XR ks st2 wtk st3 HG2 _). intros K1 K2. exact (kept_deriveWeights net r _ UseQueue _ st2 wtk dtk itk st3 _ P3 K1 K2 E3).
  - intros k u l K1 K2 K3. rewrite H3', Ho; auto.
  - rewrite H3' by auto. destruct (Hv r (reach_refl _ _)) as (v & Ev & Es). unfold sSingle in Es. rewrite Es. cbn [fst].
    destruct (P_gen net N r Hb Hr Ha HW I HV r (reach_refl _ _)) as (Ev' & _). rewrite Ev' in Ev. injection Ev as <-.
    rewrite (lval_none net N r I Hb Hr Ha HW HV N r (reach_refl _ _) (le_n _)). auto.
  - rewrite (lval_none net N r I Hb Hr Ha HW HV N r (reach_refl _ _) (le_n _)). apply (P_gen net N r Hb Hr Ha HW I HV r (reach_refl _ _)).
  - intros l Hl0. rewrite H3', Hp by auto. rewrite B1. auto.
  - intros i w Hw. destruct (H3 r ws i w (reach_refl _ _) EK Hw) as (D & K1 & K2 & K3). exists D. split; auto. split; auto. rewrite K2. auto.
Qed.

Variable P : params XR.
Variables eta lambda : R.
Hypothesis HE : peta P = Fin eta.
Hypothesis HLm : plambda P = Fin lambda.
Hypothesis Hit : piter P = 1%Z.
Variable Y : list Z.
Hypothesis HY : NoDup Y.

Lemma dgd_one_l I ws : has_all Y I -> leaf_values net I r -> leaf_values net (without Y I) r ->
  nk (net r) = @KSum XR (map Fin ws) ->
  let S := lval net I (fun _ => None) N r in let Z := lval net (without Y I) (fun _ => None) N r in (0 < S)%R -> (0 < Z)%R ->
  exists net' ws', @discriminativeGD XR (2 * N + 1) (Datatypes.S N) r P Y [I] net = Ok (net', [I]) /\ length ws' = length ws /\
    net' r = mkNode (@KSum XR (if pnorm P then @normalize XR (map Fin ws') else map Fin ws')) (nch (net r)) /\
    (forall x, x <> r -> net' x = net x) /\
    forall i w, nth_error ws i = Some w -> exists D E, weight_derivative net I N r r i w D /\ weight_derivative net (without Y I) N r r i w E /\
      nth_error ws' i = Some (w + eta * (if Nat.eqb i 0 then D / S - E / Z else D - E) - 2 * lambda * w)%R.
Proof.
  intros HI HV HV' EK SS ZZ HS HZ. pose proof Hl as (Hb & Hr & Ha & Hs & Hd & HL & HSn & Hne & HW).
  destruct (@tickets_good XR 6) as (HG & _ & Hbl).
  destruct (three I [0; 1; 2; 3; 4; 5]%Z (@tickets_ XR 6) 0 1 2 ws HV HG) as (a1 & a2 & a3 & E1 & E2 & E3 & G3 & O3 & V3 & _ & Z3 & D3); auto; try lia;
    try (simpl; tauto); try (intros u l; apply Hbl).
  destruct (three (without Y I) [0; 1; 2; 3; 4; 5]%Z a3 3 4 5 ws HV' G3) as (b1 & b2 & b3 & F1 & F2 & F3 & G6 & O6 & V6 & _ & Z6 & D6); auto; try lia;
    try (simpl; tauto); try (intros u l; rewrite O3 by lia; apply Hbl).
  fold SS in V3. fold ZZ in V6. 
  assert (Hly : length (repeat 0%Z (length Y)) = length Y) by apply repeat_length.
  destruct (pull_without I Y (repeat 0%Z (length Y)) HY Hly HI) as (y1 & Y1 & Y2 & _).
  unfold discriminativeGD, dEpochs, epochs. rewrite Hit. change (Z.to_nat 1) with 1. unfold start. cbn [repeat foldr_ overData bind fst snd].
  unfold dgdInstance at 1, gradients. cbn [ds dy start tnet tst tcnt]. rewrite E1. cbn [bind fst]. rewrite E2. cbn [bind fst]. rewrite E3. cbn [bind fst].
  rewrite Y1. cbn [bind fst snd]. rewrite F1. cbn [bind fst]. rewrite F2. cbn [bind fst]. rewrite F3. cbn [bind fst]. rewrite Y2. cbn [bind].
  destruct N as [|N']; [lia|]. rewrite (applyDGD_fuel net r N') by auto.
  destruct (@applyDGD_l XR net r 0 2 3 5 b3 (peta P) (plambda P) (pnorm P) 1 Ha) as (net' & En & Hn & Hx). rewrite En. cbn [bind fst snd overData ds tnet].
  destruct (Hn _ EK) as (W' & W1 & W2 & W3). change (F XR) with xreal in *. change (@fz XR 0) with (Fin 0) in *.
  assert (W4 : forall i w, nth_error ws i = Some w -> exists D E, weight_derivative net I (Datatypes.S N') r r i w D /\ weight_derivative net (without Y I) (Datatypes.S N') r r i w E /\
      nth_error W' i = Some (Fin (w + eta * (if Nat.eqb i 0 then D / SS - E / ZZ else D - E) - 2 * lambda * w)%R)).
  { intros i w Hw. destruct (D3 i w Hw) as (D & D0 & D1 & D2).  destruct (D6 i w Hw) as (E & E0 & E4 & E5). exists D, E. split; auto. split; auto.
    rewrite (W3 i (Fin w)) by (rewrite nth_error_map, Hw; auto). f_equal.
    assert (X2 : entry b3 2 r (Z.of_nat i) = entry a3 2 r (Z.of_nat i)) by (apply O6; lia). change (F XR) with xreal in *. change (@fz XR 0) with (Fin 0) in *. rewrite X2, D1, E4.
    assert (X1 : entry b3 0 r (Z.of_nat i) = entry a3 0 r (Z.of_nat i)) by (apply O6; lia). change (F XR) with xreal in *. change (@fz XR 0) with (Fin 0) in *. rewrite X1.
    change (@fsub XR) with xsub. change (@fexp XR) with xexp.
    assert (XQ : forall a s, (0 <= a)%R -> (0 < s)%R -> xexp (xsub (xln a) (xln s)) = Fin (a / s)).
    { intros a s Ha0 Hs0. unfold xln. destruct (Rlt_dec 0 s) as [_|]; [|lra]. destruct (Rlt_dec 0 a) as [Ha1|Ha1].
      - simpl. f_equal. unfold Rminus. rewrite exp_plus, exp_Ropp, !exp_ln by lra. reflexivity.
      - simpl. f_equal. replace a with 0%R by lra. unfold Rdiv. rewrite Rmult_0_l. reflexivity. }
    destruct i as [|i].
    - cbn [Z.of_nat Nat.eqb]. rewrite V3, V6. rewrite !XQ by auto. rewrite HE, HLm. unfold stepW. simpl. unfold xdiv. destruct (Req_EM_T 1 0); [lra|]. simpl. f_equal. field. lra.
    - rewrite Z3, Z6 by lia. cbn [Nat.eqb]. replace (Fin 0) with (xln 1) by (unfold xln; destruct (Rlt_dec 0 1); [|lra]; f_equal; apply ln_1).
      rewrite !XQ by (auto; lra). rewrite HE, HLm. unfold stepW. simpl. unfold xdiv. destruct (Req_EM_T 1 0); [lra|]. simpl. f_equal. field. }
  assert (EF : W' = map Fin (map unfin W')).
  { apply nth_error_ext. intros i. rewrite !nth_error_map. destruct (nth_error ws i) as [w|] eqn:Ew.
    - destruct (W4 i w Ew) as (D & E & _ & _ & EW). rewrite EW. reflexivity.
    - rewrite map_length in W2. assert (EW : nth_error W' i = None) by (apply nth_error_None; apply nth_error_None in Ew; lia). rewrite EW. reflexivity. }
  exists net', (map unfin W'). split; [reflexivity|]. split; [rewrite map_length, W2, map_length; auto|]. split; [|split].
  - rewrite <- EF. rewrite W1. reflexivity.
  - intros x Hxr. apply Hx. auto.
  - intros i w Hw. destruct (W4 i w Hw) as (D & E & K1 & K2 & K3). exists D, E. split; auto. split; auto. rewrite nth_error_map, K3. reflexivity.
Qed.
End Real.
