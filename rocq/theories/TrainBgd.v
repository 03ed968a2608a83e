(** GenerativeBGD over the reals. *)
From Coq Require Import Reals Lra Classical_Prop FunctionalExtensionality.
From Verif Require Import Base Res Arith LogMath LogSpec LogLemmas GraphSpec GraphLemmas Topo TopoLemmas Search SearchLemmas
  Storer StorerSpec StorerLemmas Spn DP SpnSpec SpnLemmas Leaves ProbSpec ProbLemmas ProbCases Walk WalkLemmas
  Struct StructSpec StructLemmas Derive DeriveSpec DiffLemmas DeriveLemmas GradLemmas StepLemmas DeriveCases Hard PipeLemmas
  GensLemmas Train TrainSpec TrainRange TrainKeep TrainShape TrainAll TrainKept TrainGrad TrainSteps TrainBatch.

Section Bgd.
Variables (N r M : nat) (d : discipline).
Local Notation entry := (sEntry xreal (Fin 0)).
Variable P : params XR.
Variables eta lambda : R.
Hypothesis HE : peta P = Fin eta.
Hypothesis HLm : plambda P = Fin lambda.
Hypothesis Heta : (0 <= eta)%R.
Hypothesis Hlam : (0 <= lambda < 1/2)%R.
Hypothesis Hb : (0 < pbatch P)%Z.
Variable net0 : network XR.
Hypothesis HM : at_most M r net0.
Variables (ordN : nat -> (nat -> bool) -> list nat) (ordP : nat -> nat -> (Z -> option xreal) -> list (Z * xreal)).
Hypothesis HN : ranges_nodes N ordN.
Hypothesis HP : ranges_entries M ordP.
Local Notation b := (IZR (pbatch P)).

Definition KB (n : network XR) (c : list varset) (s : tstate XR) : Prop :=
  tnet s = n /\ @good XR [0; 1; 2]%Z (tst s) /\ blank (tst s) 0 /\ @sok XR M (reach (children net0) r) (tst s) /\
  (forall u ws i w, reach (children n) r u -> nk (n u) = @KSum XR (map Fin ws) -> nth_error ws i = Some w ->
     exists Ds, Forall2 (fun I D => weight_derivative n I N r u i w D) c Ds /\ (forall D, In D Ds -> (0 <= D)%R) /\
       entry (tst s) 2 u (Z.of_nat i) = match c with [] => (Fin 0, false) | _ => (xln (Rsum Ds), true) end) /\
  (forall x l, ~ reach (children n) r x \/ ~ sumPos n x l -> entry (tst s) 2 x l = (Fin 0, false)).

Lemma Rsum_snoc l x : Rsum (l ++ [x]) = (Rsum l + x)%R.
Proof. induction l as [|a l IH]; simpl in *; [lra|]. rewrite IH. lra. Qed.

Lemma bgd_one n c s I : only_weights r net0 n -> learnable n N r d -> leaf_values n I r -> KB n c s ->
  exists s', @bgdInstance XR (2 * N + 1) (S N) r d s I = Ok s' /\ KB n (c ++ [I]) s'.
Proof.
  intros Ho Hl HV (En & HG & Hbl & Hsok & HD & HO).
  destruct (front N r d n I [0; 1; 2]%Z (tst s) 1 0 Hl HV HG) as (st1 & st2 & E1 & E2 & HG2 & Hv & Hder & Ho2 & _); auto; try lia; try (simpl; auto; fail).
  unfold bgdInstance. rewrite En, E1. cbn [bind fst]. rewrite E2. cbn [bind fst].
  pose proof Hl as (Hbd & Hr & Ha & Hs & Hd & HL & HS & Hne & HW).
  pose proof HG2 as ((ops2 & Hst2) & HT2).
  destruct (deriveWeightsBatch_entries_l XR n N r d st2 ops2 2 0 1 Hst2 Hbd Hr HL) as (st3 & E3 & W1 & W2 & W3); try lia; [apply HT2; simpl; auto|].
  change (F XR) with xreal in *. change (@fz XR 0) with (Fin 0) in *. rewrite E3. cbn [bind fst].
  assert (HG3 : @good XR [0; 1; 2]%Z st3).
  { refine (@good_call XR _ st2 2 st3 HG2 _). intros K1 K2. exact (kept_deriveWeightsBatch n r _ d _ st2 2 0 1 st3 _ ltac:(lia) K1 K2 E3). }
  pose proof (@fresh_wf XR _ (proj1 HG3)) as Wf3. pose proof (@fresh_wf XR _ (proj1 (@good_reset XR _ _ 1%Z HG3))) as Wf4.
  eexists. split; [reflexivity|]. unfold KB. cbn [tst tnet]. split; auto. split; [apply (@good_reset XR), (@good_reset XR); auto|].
  split; [intros u l; apply (@reset_this XR)|]. split; [|split].
  - apply (@sok_reset XR), (@sok_reset XR). refine (@k_wb XR r M net0 HM _ n Ho d st2 2%Z 0%Z 1%Z (st3, (r, 2%Z)) _ E3).
    refine (@k_spn XR r M net0 HM _ n Ho d st1 0%Z 1%Z (st2, (r, 0%Z)) _ E2). refine (@k_inf XR r M net0 HM _ n Ho I 1%Z (tst s) (st1, (Some r, 1%Z)) Hsok E1).
  - intros u ws i w Hu EK Hw. destruct (HD u ws i w Hu EK Hw) as (Ds & F1 & F2 & F3).
    destruct (HW u _ Hu EK) as (_ & ws0 & E0 & Hwl & _). apply map_inj_Fin in E0. subst ws0.
    destruct (nth_error (nch (n u)) i) as [x|] eqn:Ex.
    2:{ apply nth_error_None in Ex. assert (i < length ws) by (apply nth_error_Some; congruence). lia. }
    assert (Hxr : reach (children n) r x) by (eapply reach_snoc; [exact Hu|eapply nth_error_In; eauto]).
    destruct (Hder u Hu) as (D & HD0 & HD1 & HD2). destruct (Hv x Hxr) as (v & Ev & Es).
    destruct (P_gen n N r Hbd Hr Ha HW I HV x Hxr) as (Ev' & HPp & _). rewrite Ev' in Ev. injection Ev as <-.
    assert (Hpd : (0 <= ProbLemmas.P n N I x * D)%R) by (apply Rmult_le_pos; auto).
    exists (Ds ++ [(ProbLemmas.P n N I x * D)%R]). split; [|split].
    + apply Forall2_app; auto. constructor; auto. eapply weight_derivative_l; eauto.
    + intros y Hy. apply in_app_or in Hy as [Hy|[<-|[]]]; auto.
    + rewrite (@reset_other XR) by (auto; lia). rewrite (@reset_other XR) by (auto; lia). 
      specialize (W1 u _ i x Hu EK Ex). cbv zeta in W1. change (@fz XR 0) with (Fin 0). change (F XR) with xreal. rewrite W1. clear W1.
      rewrite Ho2 by lia. rewrite F3, Es, HD1. cbn [fst]. change (@fadd XR) with xadd. rewrite xadd_xln by auto.
      rewrite Rsum_snoc. destruct c as [|I0 c]; cbn [snd fst app].
      * inversion F1; subst. simpl. f_equal. f_equal. lra.
      * rewrite logSumExpPair_l by apply logval_xln. rewrite !lin_xln by (auto; apply Rsum_nonneg; auto). f_equal. f_equal. lra.
  - intros x l Hx. rewrite (@reset_other XR) by (auto; lia). rewrite (@reset_other XR) by (auto; lia). change (@fz XR 0) with (Fin 0). change (F XR) with xreal.
    rewrite W3 by auto. rewrite Ho2 by lia. auto.
Qed.

Definition KA (s : tstate XR) : Prop :=
  only_weights r net0 (tnet s) /\ state_ok N r d (pnorm P) (tnet s) /\ @good XR [0; 1; 2]%Z (tst s) /\ blank (tst s) 0 /\ blank (tst s) 2 /\
  @sok XR M (reach (children net0) r) (tst s).

Lemma bgd_batch c s : c <> [] -> KA s -> (forall I, In I c -> leaf_values net0 I r) ->
  exists s', runBatch (@bgdInstance XR (2 * N + 1) (S N) r d)
      (flushWith (@applyFastGD XR ordN ordP (peta P) (plambda P) 2 (pnorm P) (pbatch P)) 2) s c = Ok s' /\
    gradient_step N r (pnorm P) eta lambda b c (tnet s) (tnet s') /\ KA s'.
Proof.
  intros Hc (Ho & (Hl & Hlive) & HG & Hb0 & Hb2 & Hsok) HV. set (n := tnet s) in *.
  assert (X : forall c2 c1 s1, KB n c1 s1 -> (forall I, In I c2 -> leaf_values net0 I r) ->
    exists s2, foldr_ (@bgdInstance XR (2 * N + 1) (S N) r d) c2 s1 = Ok s2 /\ KB n (c1 ++ c2) s2).
  { clear - Ho Hl HM. induction c2 as [|I c2 IH]; intros c1 s1 H1 HV; cbn [foldr_]; [exists s1; rewrite app_nil_r; auto|].
    destruct (bgd_one n c1 s1 I Ho Hl) as (s2 & E & H2); auto; [eapply leaf_values_ow; eauto; apply HV; left; auto|].
    rewrite E. cbn [bind]. destruct (IH (c1 ++ [I]) s2 H2) as (s3 & E3 & H3); [intros; apply HV; right; auto|].
    exists s3. split; auto. rewrite <- app_assoc in H3. auto. }
  destruct (X c [] s) as (s2 & E2 & (En & HG2 & Hbl & Hsok2 & HD & HO)); auto.
  { split; auto. split; auto. split; auto. split; auto. split; [|intros x l _; apply Hb2]. intros u ws i w _ _ _. exists []. split; [constructor|].
    split; [intros D []|]. apply Hb2. }
  cbn [app] in *. unfold runBatch. rewrite E2. cbn [bind]. unfold flushWith, applyFastGD. rewrite En, HE, HLm.
  pose proof Hl as (Hbd & Hr & Ha & Hs & Hd & HL & HS & Hne & HW).
  assert (Ech : children n = children net0) by (apply (ow_children r); auto).
  assert (Hnone : forall x l, ~ reach (children n) r x \/ ~ sumPos n x l -> cval xreal (tst s2) 2 x l = None).
  { intros x l Hx. specialize (HO x l Hx). rewrite sEntry_cval in HO. destruct (cval xreal (tst s2) 2 x l); congruence. }
  rewrite (@applyRange_l XR r N M net0) with (n := n); auto.
  2:{ intros u Hu. eapply reach_bounded; eauto. rewrite Ech. auto. }
  2:{ intros u W EK i dd Hi. change (F XR) with xreal in *. destruct (classic (reach (children n) r u /\ sumPos n u i)) as [[K1 K2]|K].
      - destruct K2 as (_ & j & Hj & ->). destruct (HW u W K1 EK) as (_ & ws & -> & Hwl & _). rewrite map_length. lia.
      - rewrite Hnone in Hi; [discriminate|]. apply not_and_or in K. auto. }
  cbn [bind]. eexists. split; [reflexivity|]. cbn [tnet tst].
  assert (HB0 : (0 < b)%R) by (apply IZR_lt; auto).
  destruct (moved N r d (pnorm P) eta lambda b c n (@applied XR (@fastStep XR (Fin eta) (Fin lambda) (pbatch P)) (pnorm P) (tst s2) 2 n)) as (M1 & M2 & M3); auto; [split; auto| | |].
  - intros u ws Hu EK. destruct (HW u _ Hu EK) as (Hne' & ws0 & E0 & Hwl & _). apply map_inj_Fin in E0. subst ws0.
    assert (HX : forall i w, nth_error ws i = Some w -> exists Ds, Forall2 (fun I D => weight_derivative n I N r u i w D) c Ds /\
      (forall D, In D Ds -> (0 <= D)%R) /\ cval xreal (tst s2) 2 u (Z.of_nat i) = Some (xln (Rsum Ds))).
    { intros i w Hw. destruct (HD u ws i w Hu EK Hw) as (Ds & F1 & F2 & F3). exists Ds. split; auto. split; auto.
      rewrite sEntry_cval in F3. destruct c; [congruence|]. destruct (cval xreal (tst s2) 2 u (Z.of_nat i)); congruence. }
    assert (Hcn : exists m, cnode xreal (tst s2) 2 u = Some m).
    { destruct ws as [|w ws]; [destruct (nch (n u)); [congruence|discriminate]|]. destruct (HX 0 w eq_refl) as (Ds & _ & _ & E). unfold cval in E.
      destruct (cnode xreal (tst s2) 2 u) as [m|]; [eauto|discriminate]. }
    destruct Hcn as (m & Hm).
    set (W := @stepped XR (@fastStep XR (Fin eta) (Fin lambda) (pbatch P)) (cval xreal (tst s2) 2 u) 0 (map Fin ws)).
    assert (HWl : length W = length ws) by (unfold W; rewrite stepped_length, map_length; auto).
    assert (HWi : forall i w, nth_error ws i = Some w -> exists Ds, Forall2 (fun I D => weight_derivative n I N r u i w D) c Ds /\
      (forall D, In D Ds -> (0 <= D)%R) /\ nth_error W i = Some (Fin (w + eta * Rsum Ds / b - 2 * lambda * w))).
    { intros i w Hw. destruct (HX i w Hw) as (Ds & F1 & F2 & F3). exists Ds. split; auto. split; auto. unfold W.
      rewrite (@stepped_nth XR _ _ _ 0 i (Fin w)) by (rewrite nth_error_map, Hw; auto). cbn [Nat.add].
      change (cval (F XR)) with (cval xreal). rewrite F3. f_equal. unfold fastStep, stepW. change (@fexp XR) with xexp. rewrite xexp_xln by (apply Rsum_nonneg; auto).
      simpl. unfold xdiv. destruct (Req_EM_T b 0); [lra|]. simpl. f_equal. unfold Rdiv. lra. }
    exists (map unfin W). rewrite map_length. split; [auto|].
    assert (EF : W = map Fin (map unfin W)).
    { apply nth_error_ext. intros i. rewrite !nth_error_map. destruct (nth_error ws i) as [w|] eqn:Ew.
      - destruct (HWi i w Ew) as (Ds & _ & _ & EW). change (F XR) with xreal in *. rewrite !EW. reflexivity.
      - assert (EW : nth_error W i = None) by (apply nth_error_None; apply nth_error_None in Ew; lia). change (F XR) with xreal in *. rewrite !EW. reflexivity. }
    split.
    + rewrite <- EF. unfold applied. rewrite EK. change (cnode (F XR)) with (cnode xreal). rewrite Hm. reflexivity.
    + intros i w Hw. destruct (HWi i w Hw) as (Ds & F1 & F2 & F3). exists Ds. split; auto. split; auto. change (F XR) with xreal in *. rewrite nth_error_map, F3. reflexivity.
  - intros u Hu. unfold applied. destruct (nk (n u)) as [W| |] eqn:EK; auto. change (cnode (F XR)) with (cnode xreal). change (cval (F XR)) with (cval xreal).
    destruct (cnode xreal (tst s2) 2 u) as [m|] eqn:Ec; auto. exfalso. destruct Hu as [Hu|Hu]; [|exact (Hu W eq_refl)].
    rewrite Ech in Hu. apply Hu. pose proof (proj1 Hsok2) as Hk. unfold cnode in Ec. destruct (tables xreal (tst s2) 2) as [t|]; [|discriminate]. exact (Hk t u m Ec).
  - split; [exact M2|]. split; [eapply ow_trans; eauto|]. split; [exact M3|]. split; [apply (@good_reset XR); auto|]. split; [|split].
    + intros u l. exact (eq_trans (@reset_other XR (tst s2) 2%Z 0%Z u l (@fresh_wf XR _ (proj1 HG2)) ltac:(lia)) (Hbl u l)).
    + intros u l. apply (@reset_this XR).
    + apply (@sok_reset XR). auto.
Qed.

Lemma generativeBGD_real data : (forall I, In I data -> leaf_values net0 I r) -> state_ok N r d (pnorm P) net0 ->
  exists cs net', batches (Z.to_nat (pbatch P)) data cs /\ @generativeBGD XR ordN ordP (2 * N + 1) (S N) r d P data net0 = Ok net' /\
    chain (gradient_step N r (pnorm P) eta lambda b) (concat (repeat cs (Z.to_nat (piter P)))) net0 net' /\ state_ok N r d (pnorm P) net'.
Proof.
  intros HV Hok. unfold generativeBGD. destruct (batches_exist (Z.to_nat (pbatch P)) ltac:(lia) data) as (cs & Hcs). exists cs.
  assert (Hbn : 0 < Z.to_nat (pbatch P)) by lia. pose proof (batches_in _ _ _ Hbn Hcs) as Hin.
  destruct (chain_epochs P (batchEpoch (pbatch P) (@bgdInstance XR (2 * N + 1) (S N) r d)
      (flushWith (@applyFastGD XR ordN ordP (peta P) (plambda P) 2 (pnorm P) (pbatch P)) 2) data) (@tnet XR)
    (gradient_step N r (pnorm P) eta lambda b) KA cs) with (s := @start XR 3 net0) as (s' & E & H1 & H2).
  - intros s Hs. rewrite (batchEpoch_runs _ Hb _ _ data cs s Hcs). apply chain_fold; auto. intros c s1 Hc Hs1.
    destruct (Hin c Hc) as [Hne Hcin]. apply bgd_batch; auto.
  - destruct (@tickets_good XR 3) as (HG & _ & Hbl). split; [apply ow_refl|]. split; auto. split; auto. split; [intros u l; apply Hbl|].
    split; [intros u l; apply Hbl|apply sok_tickets].
  - rewrite E. cbn [bind]. exists (tnet s'). split; auto. split; auto. split; auto. apply H2.
Qed.
End Bgd.
