From Coq Require Import Reals Lra Lia Classical FunctionalExtensionality.
From Verif Require Import Base Res Arith LogMath LogSpec LogLemmas GraphSpec GraphLemmas Storer StorerSpec StorerLemmas Spn SpnSpec SpnLemmas Leaves ProbSpec ProbLemmas ProbCases
  Search Struct StructSpec StructLemmas Derive DeriveSpec DiffLemmas DeriveCases GradLemmas StepLemmas Hard PipeLemmas
  Train TrainSpec TrainRange TrainKeep TrainShape TrainAll TrainKept TrainGrad TrainSteps TrainBatch TrainBgd TrainCases HardGainSpec HardGainLemmas HardKeepSpec BelowLemmas HardKeepLemmas SoftDerive SoftKeepLemmas.
Local Open Scope R_scope.

(** A sum with one child, and an instance that its leaf gives probability zero. *)
Definition znet : network XR := fun u => match u with 0%nat => mkNode (@KSum XR [Fin 1]) [1%nat] | _ => mkNode (KLeaf (mleafR 0 [1; 0] 0)) [] end.
Definition never : varset := setvar (fun _ => None) 0 1.

Lemma znet_hard : hard_learnable znet 2 1 0.
Proof.
  split. { intros u c. unfold children. destruct u as [|u]; simpl; [intros [<-|[]]; lia|tauto]. }
  split; [lia|]. split. { intros u c Hc Hr. unfold children in Hc. destruct u as [|u]; simpl in Hc; [|tauto]. destruct Hc as [<-|[]]. apply reach_inv in Hr. destruct Hr as [Hr|(d & Hd & _)]; [discriminate|]. destruct Hd. }
  split. { apply (graded_siblings_ok _ (fun u => u)). intros u c. unfold children. destruct u as [|u]; simpl; intros H; intuition lia. }
  split. { intros u l. destruct u; simpl; [discriminate|auto]. }
  split. { intros u w. destruct u; simpl; discriminate. }
  split; [discriminate|]. split.
  { split; [lia|]. intros u Hu. split; [destruct u; simpl; lia|]. intros w. destruct u as [|u]; simpl; try discriminate. intros E. injection E as <-. simpl. lia. }
  intros u w _ EK. destruct u as [|u]; cbn in EK; try discriminate. injection EK as <-. exists [1]. split; auto. split; auto. split; [|cbn; lra]. intros x [<-|[]]; lra.
Qed.
Lemma never_value : lvalue (mleafR 0 [1; 0] 0) never = Some NInf.
Proof.
  unfold mleafR, multiLeaf, multiValue. cbn [lvalue m_varid m_pr]. unfold never, setvar. cbn [Z.eqb]. unfold prAt. cbn [Z.ltb Z.compare]. change (Z.to_nat 1) with 1%nat. cbn [map nth_error option_map].
  change (@flog XR) with xlog. unfold xlog. destruct (Rlt_dec 0 0); [lra|]. destruct (Req_EM_T 0 0); [reflexivity|lra].
Qed.
Lemma znet_values : leaf_values znet never 0.
Proof. intros u l _ EK. destruct u as [|u]; [discriminate|]. cbn in EK. injection EK as <-. rewrite never_value. eexists. split; [reflexivity|exact Logic.I]. Qed.

Lemma znet_learnable d : learnable znet 2 0 d.
Proof.
  pose proof znet_hard as (H1 & H2 & H3 & H4 & H5 & H6 & H7 & _ & HW). do 4 (split; auto). split; [right|split; auto; split; auto; split; auto].
  2:{ apply live_nonneg; auto. }
  split; [|split].
  - intros x Hx. unfold children in Hx. destruct x as [|x]; simpl in Hx; [destruct Hx as [Hx|[]]; discriminate|destruct Hx].
  - intros x. unfold children. destruct x as [|x]; simpl; repeat constructor; intros [].
  - intros x y c Hx Hy. unfold children in *. destruct x as [|x]; [|destruct Hx]. destruct y as [|y]; [auto|destruct Hy].
Qed.

Lemma never_derivative D : weight_derivative znet never 2 0 0 0 1 D -> D = 0.
Proof.
  intros H. eapply uniqueness_limite; [exact H|]. apply (affine_derivative _ 0). intros t.
  cbn [lval set_weight Nat.eqb znet nk nch firstn skipn map app combine fst snd unfin Rsum Rprod]. rewrite never_value. cbn [lin]. lra.
Qed.

Lemma single_batch z (I : varset) cs : (0 < z)%Z -> batches (Z.to_nat z) [I] cs -> cs = [[I]].
Proof.
  intros Hb Hcs. inversion Hcs as [|l H1 H2|c l cs' H1 H2 E]; subst; [reflexivity|]. destruct c as [|x [|y c]]; cbn in H1, E; [lia| |discriminate]. injection E as -> ->.
  inversion H2 as [|l H3 H4|c l cs2 H3 H4 E]; subst; [reflexivity|congruence|]. apply app_eq_nil in E. destruct E as [-> _]. cbn in H3. lia.
Qed.

Lemma normalize_dead z : z <= 0 -> @normalize XR [Fin z] = [NaN].
Proof.
  intros Hz. unfold normalize, minBelow0. cbn. destruct (Rlt_dec z 0) as [L|L].
  - destruct (Rlt_dec z 0); [|contradiction]. cbn. destruct (Req_EM_T (0 + (z + - z)) 0) as [_|K]; [|exfalso; apply K; lra]. unfold xsign. destruct (Rlt_dec 0 (z + - z)); [lra|]. destruct (Rlt_dec (z + - z) 0); [lra|]. reflexivity.
  - assert (E0 : z = 0) by lra. destruct (Rlt_dec 0 0); [lra|]. cbn. destruct (Req_EM_T (0 + z) 0) as [_|K]; [|exfalso; apply K; lra]. unfold xsign. destruct (Rlt_dec 0 z); [lra|]. destruct (Rlt_dec z 0); [lra|]. reflexivity.
Qed.

Lemma soft_overshoot_l : exists (net : network XR) N M r I, hard_learnable net N M r /\ leaf_values net I r /\
  forall d (P : params XR) eta lambda ordN ordP, 0 <= eta -> peta P = Fin eta -> plambda P = Fin lambda -> pnorm P = true -> piter P = 1%Z ->
    ranges_nodes N ordN -> ranges_entries M ordP -> (0 < pbatch P)%Z -> 1 <= 2 * lambda ->
    exists net', @generativeBGD XR ordN ordP (2 * N + 1) (S N) r d P [I] net = Ok net' /\ nk (net' r) = @KSum XR [NaN].
Proof.
  exists znet, 2%nat, 1%nat, 0%nat, never. split; [exact znet_hard|]. split; [exact znet_values|].
  intros d P eta lambda ordN ordP He HE HL Hn Hi HN HP Hb Hl. pose proof znet_hard as (Hbd & Hr & _ & _ & _ & _ & _ & HM & _).
  destruct (batches_exist (Z.to_nat (pbatch P)) ltac:(lia) [never]) as (cs & Hcs). pose proof (single_batch _ _ _ Hb Hcs) as ->.
  unfold generativeBGD, epochs. rewrite Hi. change (Z.to_nat 1) with 1%nat. cbn [repeat foldr_].
  rewrite (batchEpoch_runs _ Hb _ _ [never] [[never]] _ Hcs). cbn [foldr_].
  destruct (bgd_one 2 0 1 d znet HM znet [] (@start XR 3 znet) never (ow_refl _ _) (znet_learnable d) znet_values) as (s2 & E2 & (En & HG2 & Hbl & Hsok2 & HD & HO)).
  { destruct (@tickets_good XR 3) as (HG & _ & Hbl). split; auto. split; auto. split; [intros u l; apply Hbl|]. split; [apply sok_tickets|].
    split; [|intros x l _; apply Hbl]. intros u ws i w _ _ _. exists []. split; [constructor|]. split; [intros D []|apply Hbl]. }
  unfold runBatch. cbn [foldr_]. cbn [Nat.mul Nat.add] in *. rewrite E2. cbn [bind]. unfold flushWith, applyFastGD. rewrite En, HE, HL, Hn.
  destruct (HD 0%nat [1] 0%nat 1 (reach_refl _ _) eq_refl eq_refl) as (Ds & F1 & F2 & F3). cbn [app] in *.
  inversion F1 as [|? D ? l0 HD1 HD2]; subst. inversion HD2; subst. apply never_derivative in HD1. subst D. clear F1 HD2.
  assert (Ec : cval xreal (tst s2) 2 0%nat 0 = Some (xln (Rsum [0]))) by (rewrite sEntry_cval in F3; cbn [Z.of_nat] in F3; destruct (cval xreal (tst s2) 2 0%nat 0); congruence).
  rewrite (@applyRange_l XR 0 2 1 znet) with (n := znet); auto.
  2:{ intros u Hu. eapply reach_bounded; eauto. }
  2:{ intros u W EK i dd Hci. change (F XR) with xreal in *. destruct (classic (sumPos znet u i)) as [(_ & j & Hj & ->)|K].
      - destruct u as [|u]; [|discriminate]. injection EK as <-. simpl in *. lia.
      - specialize (HO u i (or_intror K)). rewrite sEntry_cval in HO. rewrite Hci in HO. discriminate. }
  cbn [bind]. eexists. split; [reflexivity|]. cbn [tnet]. unfold applied. cbn [znet nk nch].
  change (cnode (F XR)) with (cnode xreal). change (cval (F XR)) with (cval xreal).
  assert (Hcn : exists m, cnode xreal (tst s2) 2 0%nat = Some m) by (unfold cval in Ec; destruct (cnode xreal (tst s2) 2 0%nat) as [m|]; [eauto|discriminate]).
  destruct Hcn as (m & Hm). rewrite Hm. cbn [nk stepped Z.of_nat]. change (F XR) with xreal in *. rewrite Ec. cbn [maybeNorm]. f_equal.
  unfold fastStep, stepW. change (@fexp XR) with xexp. rewrite xexp_xln by (cbn; lra).
  assert (B : 0 < IZR (pbatch P)) by (apply IZR_lt; lia). cbn. destruct (Req_EM_T (IZR (pbatch P)) 0); [lra|]. cbn.
  apply normalize_dead. unfold Rdiv. nra.
Qed.
