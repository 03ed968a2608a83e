(** Soft learning with normalisation keeps the weights of every sum a distribution, and comes to an end. *)
From Coq Require Import Reals Lra Lia Classical FunctionalExtensionality.
From Verif Require Import Base Res Arith LogMath LogSpec LogLemmas GraphSpec GraphLemmas Topo TopoLemmas Search SearchLemmas
  Storer StorerSpec StorerLemmas Spn DP SpnSpec SpnLemmas Leaves ProbSpec ProbLemmas ProbCases Walk WalkLemmas
  Struct StructSpec StructLemmas Derive DeriveSpec DiffLemmas DeriveLemmas GradLemmas StepLemmas DeriveCases Hard PipeLemmas
  GensLemmas Train TrainSpec TrainRange TrainKeep TrainShape TrainAll TrainKept TrainGrad TrainSteps TrainBatch HardGainSpec HardGainLemmas PoonSpec PoonLearnSpec
  HardKeepSpec BelowLemmas HardKeepLemmas SoftDerive.
Local Open Scope R_scope.

(** ** One step *)
Section Moved.
Variables (N M r : nat) (k : R) (n n' : network XR).
Hypothesis Hk : 0 < k.
Hypothesis Hl : hard_learnable_below n N M r.
Hypothesis HS : forall u ws, reach (children n) r u -> nk (n u) = @KSum XR (map Fin ws) ->
  exists W, length W = length ws /\ n' u = mkNode (@KSum XR (@maybeNorm XR true W)) (nch (n u)) /\
    forall i w, nth_error ws i = Some w -> exists x, nth_error W i = Some (Fin x) /\ k * w <= x.
Hypothesis HO : forall u, (~ reach (children n) r u \/ forall w, nk (n u) <> KSum w) -> n' u = n u.

Lemma soft_weights u : n' u = n u \/ exists ws ws', reach (children n) r u /\ nk (n u) = @KSum XR (map Fin ws) /\ length ws' = length ws /\
  (forall x, In x ws' -> 0 < x) /\ Rsum ws' = 1 /\ n' u = mkNode (@KSum XR (map Fin ws')) (nch (n u)).
Proof.
  destruct Hl as (_ & _ & _ & _ & _ & _ & _ & _ & HW).
  destruct (classic (reach (children n) r u)) as [Hu|Hu]; [|left; apply HO; auto].
  destruct (nk (n u)) as [w| |l] eqn:EK; try (left; apply HO; right; intros w'; congruence).
  right. destruct (HW u w Hu EK) as (ws & -> & L & Pos & Sm). destruct (HS u ws Hu EK) as (W & LW & En & Hi).
  destruct (all_fin W) as (w1 & -> & P1).
  { intros y Hy. apply In_nth_error in Hy. destruct Hy as (i & Hy). assert (Hil : (i < length ws)%nat) by (rewrite <- LW; apply nth_error_Some; intros Hn; pose proof (eq_trans (eq_sym Hy) Hn); discriminate).
    destruct (nth_error ws i) as [w|] eqn:Ew; [|apply nth_error_None in Ew; lia].
    destruct (Hi i w Ew) as (x & Ex & Hx). pose proof (eq_trans (eq_sym Hy) Ex) as E. injection E as ->. exists x. split; auto.
    specialize (Pos w (nth_error_In _ _ Ew)). pose proof (Rmult_lt_0_compat k w Hk Pos). lra. }
  rewrite map_length in LW. assert (Ne : w1 <> []). { intros ->. destruct ws; [cbn in Sm; lra|discriminate]. }
  pose proof (rsum_pos w1 Ne P1) as S1. exists ws, (map (fun x => x / Rsum w1) w1). split; auto. split; auto. rewrite map_length. split; auto. split; [|split].
  - intros x Hx. apply in_map_iff in Hx. destruct Hx as (y & <- & Hy). apply Rdiv_lt_0_compat; auto.
  - rewrite rsum_div. field. lra.
  - rewrite En. cbn [maybeNorm]. rewrite (normalize_exact w1); auto. intros x Hx. specialize (P1 x Hx). lra.
Qed.

Lemma soft_moved : only_weights r n n' /\ hard_learnable_below n' N M r.
Proof.
  assert (Ho : only_weights r n n').
  { split; intros u; destruct (soft_weights u) as [E|(ws & ws' & Hu & EK & L & _ & _ & E)]; rewrite E; auto.
    right. split; auto. exists (map Fin ws). eexists. split; auto. split; [reflexivity|]. rewrite !map_length. auto. }
  split; auto. apply (hlb_ow r n n' N M Hl Ho). pose proof Hl as (_ & _ & _ & _ & _ & _ & _ & _ & HW).
  intros u w. rewrite (ow_children r n n' Ho), (proj1 Ho). intros Hu EK.
  destruct (soft_weights u) as [E|(ws & ws' & _ & EK0 & L & Pos & Sm & E)]; rewrite E in EK; [apply HW; auto|]. cbn [nk] in EK. injection EK as <-.
  exists ws'. split; auto. split; auto. destruct (HW u _ Hu EK0) as (w1 & E1 & L1 & _). apply map_inj_Fin in E1. subst w1. congruence.
Qed.
End Moved.

(** ** Values and derivatives of one instance *)
Section Front.
Variables (N M r : nat) (d : discipline).
Local Notation entry := (sEntry xreal (Fin 0)).
Local Notation single := (sSingle xreal (Fin 0)).

Definition logs (n : network XR) (st : storer xreal) (k : Z) : Prop :=
  forall u, reach (children n) r u -> exists D, 0 <= D /\ single st k u = (xln D, true).

Lemma front_weak n I ks (st : storer xreal) itk dtk : hard_learnable_below n N M r -> leaf_values n I r -> @good XR ks st ->
  In itk ks -> In dtk ks -> (0 <= itk)%Z -> (0 <= dtk)%Z -> itk <> dtk -> blank st dtk ->
  exists st1 st2, storeInference n (2 * N + 1) r I itk st = Ok (st1, (Some r, itk)) /\
    @deriveSPN XR n d (S N) r st1 dtk itk = Ok (st2, (r, dtk)) /\ @good XR ks st2 /\
    logs n st2 itk /\ logs n st2 dtk /\
    (forall k u l, k <> itk -> k <> dtk -> entry st2 k u l = entry st k u l).
Proof.
  intros Hl HV HG Hi1 Hi2 H1 H2 Hneq Hblank.
  pose proof HG as ((ops & Hst) & HT). pose proof Hl as (Hb & Hr & _ & _ & HL & _).
  destruct (prune_below n N M r Hl) as (n1 & Hag & (Hb1 & _ & Ha1 & Hs1 & HL1 & HS1 & Hne1 & _ & HW1)). pose proof (reach_below n n1 r Hag) as Rb.
  assert (HV1 : leaf_values n1 I r) by (intros u l Hu; apply Rb in Hu; rewrite Hag by auto; apply HV; auto).
  pose proof (live_nonneg r n1 HS1 HW1) as HWn1.
  destruct (@storeInference_l XR n1 N r I itk st ops Hst Hb1 Hr Ha1 Hs1 HL1 HS1 Hne1 (fun _ => HT _ Hi1)) as [[HP _]|(st1 & tk1 & E1 & Ei & Hv & Ho1 & _)].
  { destruct (P_gen n1 N r Hb1 Hr Ha1 HWn1 I HV1 r (reach_refl _ _)) as (Ev & _). rewrite Ev in HP. discriminate. }
  rewrite (storeInference_below n n1 r Hag) in E1.
  destruct (Z.ltb_spec itk 0) as [|_]; [lia|]. subst tk1.
  change (F XR) with xreal in *. change (@fz XR 0) with (Fin 0) in *.
  assert (HG1 : @good XR ks st1).
  { refine (@good_call XR ks st itk st1 HG _). intros K1 K2. exact (kept_storeInference n r _ _ I itk st st1 _ H1 K1 K2 E1). }
  pose proof HG1 as ((ops1 & Hst1) & HT1).
  assert (HWn : weights_nonneg n r) by (intros u w Hu; pose proof (proj2 (Rb u) Hu) as Hu1; pose proof (HWn1 u w Hu1) as K; rewrite Hag in K by auto; exact K).
  assert (HPv : forall u, reach (children n) r u -> 0 <= ProbLemmas.P n1 N I u /\ single st1 itk u = (xln (ProbLemmas.P n1 N I u), true)).
  { intros u Hu. apply Rb in Hu. destruct (P_gen n1 N r Hb1 Hr Ha1 HWn1 I HV1 u Hu) as (Ev & HPp & _). split; auto.
    destruct (Hv u Hu) as (v & K1 & K2). rewrite Ev in K1. injection K1 as <-. exact K2. }
  destruct (deriveSPN_weak n N r Hb Hr HWn HL (ProbLemmas.P n1 N I) (fun u Hu => proj1 (HPv u Hu)) d dtk itk st1 ops1 Hst1) as (st2 & tk2 & E2 & Ed & Hder & Ho2).
  { intros _. split; [apply HT1; auto|]. intros u Hu. unfold sSingle. rewrite Ho1 by auto. rewrite Hblank. auto. }
  { intros u Hu. apply HPv. auto. }
  { destruct (Z.ltb_spec dtk 0); lia. }
  destruct (Z.ltb_spec dtk 0) as [|_]; [lia|]. subst tk2.
  exists st1, st2. split; auto. split; auto. split; [|split; [|split]].
  - refine (@good_call XR ks st1 dtk st2 HG1 _). intros K1 K2. exact (kept_deriveSPN n r _ d _ st1 dtk itk st2 _ H2 K1 K2 E2).
  - intros u Hu. destruct (HPv u Hu) as (K1 & K2). exists (ProbLemmas.P n1 N I u). split; auto. unfold sSingle in *. rewrite Ho2; auto.
  - exact Hder.
  - intros k u l K1 K2. rewrite Ho2, Ho1; auto.
Qed.

(** ** GenerativeGD *)
Variable P : params XR.
Variable eta : R.
Hypothesis HE : peta P = Fin eta.
Hypothesis Heta : 0 <= eta.
Hypothesis Hnrm : pnorm P = true.
Variable net0 : network XR.

Definition KGw (ks : list Z) (s : tstate XR) : Prop :=
  only_weights r net0 (tnet s) /\ hard_learnable_below (tnet s) N M r /\ @good XR ks (tst s) /\ blank (tst s) 0.

Lemma gd_weak s I : KGw [0; 1]%Z s -> leaf_values net0 I r ->
  exists s', @gdInstance XR (2 * N + 1) (S N) r d P s I = Ok s' /\ True /\ KGw [0; 1]%Z s'.
Proof.
  intros (Ho & Hl & HG & Hbl) HV0. assert (HV : leaf_values (tnet s) I r) by (eapply leaf_values_ow; eauto).
  destruct (front_weak (tnet s) I [0; 1]%Z (tst s) 1 0 Hl HV HG) as (st1 & st2 & E1 & E2 & HG2 & Hv & Hder & _); auto; try lia; try (simpl; auto; fail).
  unfold gdInstance. rewrite E1. cbn [bind fst]. rewrite E2. cbn [bind fst]. rewrite HE, Hnrm.
  pose proof Hl as (Hb & Hr & _ & _ & HL & _ & _ & _ & HW).
  destruct (@applyWeights_l XR (tnet s) N r d (Fin eta) st2 0 1 true Hb Hr HL) as (net' & E & H1 & H2).
  { intros u w Hu EK. destruct (HW u w Hu EK) as (ws & -> & L & _). rewrite map_length. auto. }
  rewrite E. cbn [bind]. eexists. split; [reflexivity|]. split; auto. cbn [tnet tst].
  destruct (soft_moved N M r 1 (tnet s) net' ltac:(lra) Hl) as (M1 & M2); [|auto|].
  { intros u ws Hu EK. destruct (H1 u _ Hu EK) as (W & K1 & K2 & K3). rewrite map_length in K2. exists W. split; auto. split; auto.
    intros i w Hw. destruct (HW u _ Hu EK) as (ws0 & E0 & L & _). apply map_inj_Fin in E0. subst ws0.
    destruct (nth_error (nch (tnet s u)) i) as [c|] eqn:Ec.
    2:{ apply nth_error_None in Ec. assert (i < length ws)%nat by (apply nth_error_Some; congruence). lia. }
    specialize (K3 i c (Fin w) Ec ltac:(rewrite nth_error_map, Hw; auto)).
    assert (Hc : reach (children (tnet s)) r c) by (eapply reach_snoc; [exact Hu|eapply nth_error_In; eauto]).
    destruct (Hv c Hc) as (v & Hv0 & Ev). destruct (Hder u Hu) as (D & HD0 & ED).
    change (F XR) with xreal in *. change (@fz XR 0) with (Fin 0) in *. rewrite Ev, ED in K3. cbn [fst] in K3. change (@fadd XR (xln v) (xln D)) with (xadd (xln v) (xln D)) in K3. rewrite xadd_xln in K3 by auto.
    change (@fexp XR) with xexp in K3. pose proof (Rmult_le_pos _ _ Hv0 HD0) as Hp. rewrite xexp_xln in K3 by auto.
    eexists. split; [exact K3|]. pose proof (Rmult_le_pos _ _ Heta Hp). lra. }
  split; [eapply ow_trans; eauto|]. split; auto. split; [apply good_reset, good_reset; auto|].
  intros u l. apply (@reset_this XR).
Qed.

Lemma gd_keeps data : (forall I, In I data -> leaf_values net0 I r) -> hard_learnable_below net0 N M r ->
  exists net', @generativeGD XR (2 * N + 1) (S N) r d P data net0 = Ok net' /\ only_weights r net0 net' /\ hard_learnable_below net' N M r.
Proof.
  intros HV Hok. unfold generativeGD.
  destruct (chain_epochs P (foldr_ (@gdInstance XR (2 * N + 1) (S N) r d P) data) (@tnet XR)
    (fun _ _ _ => True) (KGw [0; 1]%Z) data) with (s := @start XR 2 net0) as (s' & E & _ & H2).
  - intros s Hs. apply chain_fold; auto. intros I s1 HI Hs1. apply gd_weak; auto.
  - destruct (@tickets_good XR 2) as (HG & _ & Hbl). split; [apply ow_refl|]. split; auto. split; auto. intros u l. apply Hbl.
  - rewrite E. cbn [bind]. exists (tnet s'). split; auto. split; apply H2.
Qed.

(** ** GenerativeBGD *)
Variable lambda : R.
Hypothesis HLm : plambda P = Fin lambda.
Hypothesis Hlam : 2 * lambda < 1.
Hypothesis Hb : (0 < pbatch P)%Z.
Hypothesis HM : at_most M r net0.
Variables (ordN : nat -> (nat -> bool) -> list nat) (ordP : nat -> nat -> (Z -> option xreal) -> list (Z * xreal)).
Hypothesis HN : ranges_nodes N ordN.
Hypothesis HP : ranges_entries M ordP.
Local Notation b := (IZR (pbatch P)).

Definition KBw (n : network XR) (c : list varset) (s : tstate XR) : Prop :=
  tnet s = n /\ @good XR [0; 1; 2]%Z (tst s) /\ blank (tst s) 0 /\ @sok XR M (reach (children net0) r) (tst s) /\
  (forall u ws i w, reach (children n) r u -> nk (n u) = @KSum XR (map Fin ws) -> nth_error ws i = Some w ->
     exists D, 0 <= D /\ entry (tst s) 2 u (Z.of_nat i) = match c with [] => (Fin 0, false) | _ => (xln D, true) end) /\
  (forall x l, ~ reach (children n) r x \/ ~ sumPos n x l -> entry (tst s) 2 x l = (Fin 0, false)).

Lemma bgd_one_weak n c s I : only_weights r net0 n -> hard_learnable_below n N M r -> leaf_values n I r -> KBw n c s ->
  exists s', @bgdInstance XR (2 * N + 1) (S N) r d s I = Ok s' /\ KBw n (c ++ [I]) s'.
Proof.
  intros Ho Hl HV (En & HG & Hbl & Hsok & HD & HO).
  destruct (front_weak n I [0; 1; 2]%Z (tst s) 1 0 Hl HV HG) as (st1 & st2 & E1 & E2 & HG2 & Hv & Hder & Ho2); auto; try lia; try (simpl; auto; fail).
  unfold bgdInstance. rewrite En, E1. cbn [bind fst]. rewrite E2. cbn [bind fst].
  pose proof Hl as (Hbd & Hr & _ & _ & HL & _ & _ & _ & HW).
  pose proof HG2 as ((ops2 & Hst2) & HT2).
  destruct (deriveWeightsBatch_entries_l XR n N r d st2 ops2 2 0 1 Hst2 Hbd Hr HL) as (st3 & E3 & W1 & W2 & W3); try lia; [apply HT2; simpl; auto|].
  change (F XR) with xreal in *. change (@fz XR 0) with (Fin 0) in *. rewrite E3. cbn [bind fst].
  assert (HG3 : @good XR [0; 1; 2]%Z st3).
  { refine (@good_call XR _ st2 2 st3 HG2 _). intros K1 K2. exact (kept_deriveWeightsBatch n r _ d _ st2 2 0 1 st3 _ ltac:(lia) K1 K2 E3). }
  pose proof (@fresh_wf XR _ (proj1 HG3)) as Wf3. pose proof (@fresh_wf XR _ (proj1 (@good_reset XR _ _ 1%Z HG3))) as Wf4.
  eexists. split; [reflexivity|]. unfold KBw. cbn [tst tnet]. split; auto. split; [apply (@good_reset XR), (@good_reset XR); auto|].
  split; [intros u l; apply (@reset_this XR)|]. split; [|split].
  - apply (@sok_reset XR), (@sok_reset XR). refine (@k_wb XR r M net0 HM _ n Ho d st2 2%Z 0%Z 1%Z (st3, (r, 2%Z)) _ E3).
    refine (@k_spn XR r M net0 HM _ n Ho d st1 0%Z 1%Z (st2, (r, 0%Z)) _ E2). refine (@k_inf XR r M net0 HM _ n Ho I 1%Z (tst s) (st1, (Some r, 1%Z)) Hsok E1).
  - intros u ws i w Hu EK Hw. destruct (HD u ws i w Hu EK Hw) as (D0 & F2 & F3).
    destruct (HW u _ Hu EK) as (ws0 & E0 & Hwl & _). apply map_inj_Fin in E0. subst ws0.
    destruct (nth_error (nch (n u)) i) as [x|] eqn:Ex.
    2:{ apply nth_error_None in Ex. assert (i < length ws)%nat by (apply nth_error_Some; congruence). lia. }
    assert (Hxr : reach (children n) r x) by (eapply reach_snoc; [exact Hu|eapply nth_error_In; eauto]).
    destruct (Hder u Hu) as (D & HD0 & HD1). destruct (Hv x Hxr) as (v & Hv0 & Es).
    assert (Hpd : 0 <= v * D) by (apply Rmult_le_pos; auto).
    exists (match c with [] => v * D | _ => v * D + D0 end). split; [destruct c; lra|].
    rewrite (@reset_other XR) by (auto; lia). rewrite (@reset_other XR) by (auto; lia).
    specialize (W1 u _ i x Hu EK Ex). cbv zeta in W1. change (@fz XR 0) with (Fin 0). change (F XR) with xreal. rewrite W1. clear W1.
    rewrite Ho2 by lia. rewrite F3, Es, HD1. cbn [fst]. change (@fadd XR) with xadd. rewrite xadd_xln by auto.
    destruct c as [|I0 c]; cbn [snd fst app]; [reflexivity|].
    rewrite logSumExpPair_l by apply logval_xln. rewrite !lin_xln by auto. reflexivity.
  - intros x l Hx. rewrite (@reset_other XR) by (auto; lia). rewrite (@reset_other XR) by (auto; lia). change (@fz XR 0) with (Fin 0). change (F XR) with xreal.
    rewrite W3 by auto. rewrite Ho2 by lia. auto.
Qed.

Definition KAw (s : tstate XR) : Prop :=
  only_weights r net0 (tnet s) /\ hard_learnable_below (tnet s) N M r /\ @good XR [0; 1; 2]%Z (tst s) /\ blank (tst s) 0 /\ blank (tst s) 2 /\
  @sok XR M (reach (children net0) r) (tst s).

Lemma bgd_batch_weak c s : c <> [] -> KAw s -> (forall I, In I c -> leaf_values net0 I r) ->
  exists s', runBatch (@bgdInstance XR (2 * N + 1) (S N) r d)
      (flushWith (@applyFastGD XR ordN ordP (peta P) (plambda P) 2 (pnorm P) (pbatch P)) 2) s c = Ok s' /\ True /\ KAw s'.
Proof.
  intros Hc (Ho & Hl & HG & Hb0 & Hb2 & Hsok) HV. set (n := tnet s) in *.
  assert (X : forall c2 c1 s1, KBw n c1 s1 -> (forall I, In I c2 -> leaf_values net0 I r) ->
    exists s2, foldr_ (@bgdInstance XR (2 * N + 1) (S N) r d) c2 s1 = Ok s2 /\ KBw n (c1 ++ c2) s2).
  { clear - Ho Hl HM. induction c2 as [|I c2 IH]; intros c1 s1 H1 HV; cbn [foldr_]; [exists s1; rewrite app_nil_r; auto|].
    destruct (bgd_one_weak n c1 s1 I Ho Hl) as (s2 & E & H2); auto; [eapply leaf_values_ow; eauto; apply HV; left; auto|].
    rewrite E. cbn [bind]. destruct (IH (c1 ++ [I]) s2 H2) as (s3 & E3 & H3); [intros; apply HV; right; auto|].
    exists s3. split; auto. rewrite <- app_assoc in H3. auto. }
  destruct (X c [] s) as (s2 & E2 & (En & HG2 & Hbl & Hsok2 & HD & HO)); auto.
  { split; auto. split; auto. split; auto. split; auto. split; [|intros x l _; apply Hb2]. intros u ws i w _ _ _. exists 0. split; [lra|]. apply Hb2. }
  cbn [app] in *. unfold runBatch. rewrite E2. cbn [bind]. unfold flushWith, applyFastGD. rewrite En, HE, HLm, Hnrm.
  pose proof Hl as (Hbd & Hr & _ & _ & HL & HS & _ & _ & HW).
  assert (Ech : children n = children net0) by (apply (ow_children r); auto).
  assert (Hnone : forall x l, ~ reach (children n) r x \/ ~ sumPos n x l -> cval xreal (tst s2) 2 x l = None).
  { intros x l Hx. specialize (HO x l Hx). rewrite sEntry_cval in HO. destruct (cval xreal (tst s2) 2 x l); congruence. }
  rewrite (@applyRange_l XR r N M net0) with (n := n); auto.
  2:{ intros u Hu. eapply reach_bounded; eauto. rewrite Ech. auto. }
  2:{ intros u W EK i dd Hi. change (F XR) with xreal in *. destruct (classic (reach (children n) r u /\ sumPos n u i)) as [[K1 K2]|K].
      - destruct K2 as (_ & j & Hj & ->). destruct (HW u W K1 EK) as (ws & -> & Hwl & _). rewrite map_length. lia.
      - rewrite Hnone in Hi; [discriminate|]. apply not_and_or in K. auto. }
  cbn [bind]. eexists. split; [reflexivity|]. split; auto. cbn [tnet tst].
  assert (HB0 : 0 < b) by (apply IZR_lt; auto).
  destruct (soft_moved N M r (1 - 2 * lambda) n (@applied XR (@fastStep XR (Fin eta) (Fin lambda) (pbatch P)) true (tst s2) 2 n)) as (M1 & M2); auto; [lra| | |].
  - intros u ws Hu EK. destruct (HW u _ Hu EK) as (ws0 & E0 & Hwl & _). apply map_inj_Fin in E0. subst ws0.
    assert (HX : forall i w, nth_error ws i = Some w -> exists D, 0 <= D /\ cval xreal (tst s2) 2 u (Z.of_nat i) = Some (xln D)).
    { intros i w Hw. destruct (HD u ws i w Hu EK Hw) as (D & F2 & F3). exists D. split; auto.
      rewrite sEntry_cval in F3. destruct c; [congruence|]. destruct (cval xreal (tst s2) 2 u (Z.of_nat i)); congruence. }
    assert (Hcn : exists m, cnode xreal (tst s2) 2 u = Some m).
    { destruct ws as [|w ws]; [pose proof (HS u _ Hu EK); destruct (nch (n u)); [congruence|discriminate]|]. destruct (HX 0%nat w eq_refl) as (D & _ & E). unfold cval in E.
      destruct (cnode xreal (tst s2) 2 u) as [m|]; [eauto|discriminate]. }
    destruct Hcn as (m & Hm).
    exists (@stepped XR (@fastStep XR (Fin eta) (Fin lambda) (pbatch P)) (cval xreal (tst s2) 2 u) 0 (map Fin ws)).
    split; [rewrite stepped_length, map_length; auto|]. split.
    + unfold applied. rewrite EK. change (cnode (F XR)) with (cnode xreal). rewrite Hm. reflexivity.
    + intros i w Hw. destruct (HX i w Hw) as (D & F2 & F3). exists (w + eta * D / b - 2 * lambda * w). split.
      * rewrite (@stepped_nth XR _ _ _ 0 i (Fin w)) by (rewrite nth_error_map, Hw; auto). cbn [Nat.add].
        change (cval (F XR)) with (cval xreal). rewrite F3. f_equal. unfold fastStep, stepW. change (@fexp XR) with xexp. rewrite xexp_xln by auto.
        simpl. unfold xdiv. destruct (Req_EM_T b 0); [lra|]. simpl. f_equal. unfold Rdiv. lra.
      * assert (0 <= eta * D / b). { apply Rmult_le_pos; [apply Rmult_le_pos; auto|]. left. apply Rinv_0_lt_compat. auto. } lra.
  - intros u Hu. unfold applied. destruct (nk (n u)) as [W| |] eqn:EK; auto. change (cnode (F XR)) with (cnode xreal). change (cval (F XR)) with (cval xreal).
    destruct (cnode xreal (tst s2) 2 u) as [m|] eqn:Ec; auto. exfalso. destruct Hu as [Hu|Hu]; [|exact (Hu W eq_refl)].
    rewrite Ech in Hu. apply Hu. pose proof (proj1 Hsok2) as Hk. unfold cnode in Ec. destruct (tables xreal (tst s2) 2) as [t|]; [|discriminate]. exact (Hk t u m Ec).
  - split; [eapply ow_trans; eauto|]. split; [exact M2|]. split; [apply (@good_reset XR); auto|]. split; [|split].
    + intros u l. exact (eq_trans (@reset_other XR (tst s2) 2%Z 0%Z u l (@fresh_wf XR _ (proj1 HG2)) ltac:(lia)) (Hbl u l)).
    + intros u l. apply (@reset_this XR).
    + apply (@sok_reset XR). auto.
Qed.

Lemma bgd_keeps data : (forall I, In I data -> leaf_values net0 I r) -> hard_learnable_below net0 N M r ->
  exists net', @generativeBGD XR ordN ordP (2 * N + 1) (S N) r d P data net0 = Ok net' /\ only_weights r net0 net' /\ hard_learnable_below net' N M r.
Proof.
  intros HV Hok. unfold generativeBGD. destruct (batches_exist (Z.to_nat (pbatch P)) ltac:(lia) data) as (cs & Hcs).
  assert (Hbn : (0 < Z.to_nat (pbatch P))%nat) by lia. pose proof (batches_in _ _ _ Hbn Hcs) as Hin.
  destruct (chain_epochs P (batchEpoch (pbatch P) (@bgdInstance XR (2 * N + 1) (S N) r d)
      (flushWith (@applyFastGD XR ordN ordP (peta P) (plambda P) 2 (pnorm P) (pbatch P)) 2) data) (@tnet XR)
    (fun _ _ _ => True) KAw cs) with (s := @start XR 3 net0) as (s' & E & _ & H2).
  - intros s Hs. rewrite (batchEpoch_runs _ Hb _ _ data cs s Hcs). apply chain_fold; auto. intros c s1 Hc Hs1.
    destruct (Hin c Hc) as [Hne Hcin]. apply bgd_batch_weak; auto.
  - destruct (@tickets_good XR 3) as (HG & _ & Hbl). split; [apply ow_refl|]. split; auto. split; auto. split; [intros u l; apply Hbl|].
    split; [intros u l; apply Hbl|apply sok_tickets].
  - rewrite E. cbn [bind]. exists (tnet s'). split; auto. split; apply H2.
Qed.
End Front.

Lemma soft_keeps_l (net : network XR) N M r d eta lambda (P : params XR) data ordN ordP :
  0 <= eta -> peta P = Fin eta -> plambda P = Fin lambda -> pnorm P = true ->
  hard_learnable_below net N M r -> (forall I, In I data -> leaf_values net I r) ->
  ranges_nodes N ordN -> ranges_entries M ordP ->
  (exists net', @generativeGD XR (2 * N + 1) (S N) r d P data net = Ok net' /\ only_weights r net net' /\ hard_learnable_below net' N M r) /\
  ((0 < pbatch P)%Z -> 2 * lambda < 1 ->
    exists net', @generativeBGD XR ordN ordP (2 * N + 1) (S N) r d P data net = Ok net' /\ only_weights r net net' /\ hard_learnable_below net' N M r).
Proof.
  intros He HE HL Hn Hh HV HN HP. split; [eapply gd_keeps; eauto|]. intros Hb Hl. pose proof Hh as (_ & _ & _ & _ & _ & _ & _ & HM & _). eapply bgd_keeps; eauto.
Qed.
