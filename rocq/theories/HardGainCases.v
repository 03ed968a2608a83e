From Coq Require Import Reals Lra Lia FunctionalExtensionality.
From Verif Require Import Base Res Arith LogMath LogSpec LogLemmas GraphSpec GraphLemmas Spn SpnSpec SpnLemmas Leaves ProbSpec ProbLemmas ProbCases ArgLemmas MapSpec MapLemmas MapCases
  Search Derive DeriveSpec DiffLemmas DeriveCases Hard HardSpec HardLemmas PipeLemmas Train TrainSpec TrainShape TrainSteps TrainCases GainCases HardGainSpec HardGainLemmas.
Local Open Scope R_scope.

(** Variables 0 and 1 take 0. *)
Definition plain : varset := fun x => if (x =? 0)%Z then Some 0%Z else if (x =? 1)%Z then Some 0%Z else None.
Lemma plain_ok : evidence_ok wcard plain.
Proof. intros y v. unfold plain. destruct (Z.eqb_spec y 0); [|destruct (Z.eqb_spec y 1); [|discriminate]]; intros E; injection E as <-; subst y; unfold wcard; simpl; lia. Qed.
Lemma plain_values : leaf_values (wnet wl5) plain 0.
Proof.
  destruct wnet_case2 as (_ & _ & _ & HM & _). pose proof (multi_discrete _ _ _ HM) as HL.
  intros u l Hu EK. destruct (HL u l Hu EK) as (_ & x & HD). pose proof plain_ok as He.
  destruct (dleaf_value wcard l x _ HD He) as (E1 & _ & E2 & _). rewrite E1. eexists. split; [reflexivity|]. apply logval_xln.
Qed.
Lemma plain_answer : leaves_answer (wnet wl5) plain 0.
Proof. destruct wnet_case2 as (_ & _ & _ & HM & _). apply (multi_answer (wnet wl5) wcard 0 HM plain plain_ok). Qed.
Lemma wnet_hard : hard_learnable (wnet wl5) 6 2 0.
Proof.
  pose proof wnet_learnable as (Hb & Hr & Ha & Hs & _ & HL & HS & Hne & HW). repeat (split; [assumption|]). split; [exact wnet_most|].
  intros u w _ EK. destruct u as [|[|[|[|[|u]]]]]; cbn in EK; try discriminate. injection EK as <-. exists [/4; 3/4]. split; auto. split; auto. split; [|cbn; lra]. intros x [<-|[<-|[]]]; lra.
Qed.

(** The network with other weights. *)
Definition mixed_at (n : network XR) (v : R) : Prop := nk (n 0%nat) = @KSum XR (map Fin [1 - v; v]) /\ nch (n 0%nat) = [1; 2]%nat /\ forall u, u <> 0%nat -> n u = wnet wl5 u.
Lemma max_leaf (x : Z) ps mi (I : varset) v p : I x = Some (Z.of_nat v) -> nth_error ps v = Some p -> 0 < p -> mleaf (mleafR x ps mi) I = p.
Proof.
  intros Hx Hp H. unfold mleaf, mleafR, multiLeaf, multiMax, multiValue. cbn [lmax m_varid m_pr]. rewrite Hx. unfold prAt.
  destruct (Z.ltb_spec (Z.of_nat v) 0); [lia|]. rewrite Nat2Z.id, nth_error_map, Hp. simpl. destruct (Rlt_dec 0 p); [|lra]. simpl. apply exp_ln. auto.
Qed.
Lemma val_leaf (x : Z) ps mi (I : varset) v p : I x = Some (Z.of_nat v) -> nth_error ps v = Some p -> 0 < p -> pleaf (mleafR x ps mi) I = p.
Proof. exact (leaf_lin x ps mi I v p). Qed.

Section Step.
Variables (n : network XR) (v : R).
Hypothesis Hm : mixed_at n v.
Hypothesis Hl : hard_learnable n 6 2 0.
Hypothesis HA : leaves_answer n plain 0.
Hypothesis HV : leaf_values n plain 0.
Lemma mixed_children : children n = children (wnet wl5).
Proof. destruct Hm as (_ & H1 & H2). extensionality u. unfold children. destruct u as [|u]; [rewrite H1; reflexivity|]. rewrite H2 by lia. reflexivity. Qed.
Lemma mixed_below u c : reach (children n) 0 u -> In c (children n u) -> reach (children n) 0 c.
Proof. intros. eapply reach_snoc; eauto. Qed.
Lemma r0 : reach (children n) 0 0. Proof. apply reach_refl. Qed.
Lemma r1 : reach (children n) 0 1. Proof. apply (mixed_below 0); [apply r0|]. rewrite mixed_children. cbn. auto. Qed.
Lemma r2 : reach (children n) 0 2. Proof. apply (mixed_below 0); [apply r0|]. rewrite mixed_children. cbn. auto. Qed.
Lemma r3 : reach (children n) 0 3. Proof. apply (mixed_below 1); [apply r1|]. rewrite mixed_children. cbn. auto. Qed.
Lemma r4 : reach (children n) 0 4. Proof. apply (mixed_below 1); [apply r1|]. rewrite mixed_children. cbn. auto. Qed.
Lemma r5 : reach (children n) 0 5. Proof. apply (mixed_below 2); [apply r2|]. rewrite mixed_children. cbn. auto. Qed.
Lemma mixed_max : MX n 6 plain 1 = /6 /\ MX n 6 plain 2 = /10.
Proof.
  pose proof (live_max 6 2 0 plain n Hl HA) as G. destruct Hm as (_ & _ & H2).
  destruct (G 3%nat r3) as (_ & _ & E3), (G 4%nat r4) as (_ & _ & E4), (G 5%nat r5) as (_ & _ & E5), (G 1%nat r1) as (_ & _ & E1), (G 2%nat r2) as (_ & _ & E2).
  rewrite H2 in E1, E2, E3, E4, E5 by lia. cbn [wnet nk nch map Rprod] in *.
  rewrite (max_leaf 0 _ _ plain 0 (/3)) in E3 by (auto; lra). rewrite (max_leaf 1 _ _ plain 0 (/2)) in E4 by (auto; lra). unfold wl5 in E5. rewrite (max_leaf 0 _ _ plain 0 (/5)) in E5 by (auto; lra).
  rewrite E1, E2, E3, E4, E5. lra.
Qed.
Lemma mixed_val : value n 6 plain 0 = Ok (xln (/6 * (1 - v) + /10 * v)).
Proof.
  pose proof (live_value 6 2 0 plain n Hl HV) as G. destruct Hm as (H0 & H1 & H2).
  destruct (G 3%nat r3) as (_ & _ & E3), (G 4%nat r4) as (_ & _ & E4), (G 5%nat r5) as (_ & _ & E5), (G 1%nat r1) as (_ & _ & E1), (G 2%nat r2) as (_ & _ & E2), (G 0%nat r0) as (E & _ & E0).
  rewrite H2 in E1, E2, E3, E4, E5 by lia. cbn [wnet nk nch map Rprod] in *.
  rewrite (val_leaf 0 _ _ plain 0 (/3)) in E3 by (auto; lra). rewrite (val_leaf 1 _ _ plain 0 (/2)) in E4 by (auto; lra). unfold wl5 in E5. rewrite (val_leaf 0 _ _ plain 0 (/5)) in E5 by (auto; lra).
  rewrite E. do 2 f_equal. rewrite H0, H1 in E0. rewrite (E0 [1 - v; v] eq_refl). unfold psum. cbn [combine map Rsum fst snd]. rewrite E1, E2, E3, E4, E5. lra.
Qed.
Lemma mixed_step eta lambda n' : 0 < eta -> 0 <= 2 * lambda <= eta -> 3/4 <= v < 1 -> @hard_step XR 0 true (Fin eta) (Fin lambda) 1 [plain] n n' ->
  exists v', mixed_at n' v' /\ v <= v' < 1 /\ (2 * lambda < eta -> v < v').
Proof.
  intros He Hlm Hv St. pose proof Hm as (H0 & H1 & H2).
  destruct (hard_one_root 6 2 0 eta lambda He Hlm plain n n' _ Hl HA St H0) as (ws & j & w & EK & Ew & At & En).
  rewrite H0 in EK. injection EK as EK. destruct ws as [|a [|b [|c ws]]]; try discriminate. cbn [map] in EK. injection EK as <- <-.
  assert (Ej : j = 1%nat).
  { destruct At as (w1 & y & c & x & K1 & K2 & K3 & K4 & K5). rewrite H0 in K1. injection K1 as <-. rewrite H1 in K3. pose proof (live_max 6 2 0 plain n Hl HA) as G. destruct mixed_max as (M1 & M2).
    destruct (G 0%nat r0) as (E & _ & E0). rewrite H0, H1 in E0. specialize (E0 [1 - v; v] eq_refl). pose proof (pmax_ge (MX n 6 plain) [1; 2]%nat [1 - v; v] 1 2%nat v eq_refl eq_refl) as Hge. rewrite <- E0, M2 in Hge.
    destruct j as [|[|j]]; cbn in Ew; try (destruct j; discriminate); auto. exfalso. cbn in K2, K3. injection K2 as <-. injection K3 as <-. destruct (G 1%nat r1) as (E' & _). rewrite E' in K4. injection K4 as <-.
    rewrite M1 in K5. rewrite xlog_nonneg, xadd_xln in K5 by lra. unfold MX in Hge. rewrite K5 in Hge. rewrite lin_xln in Hge by lra. lra. }
  subst j. cbn in Ew. injection Ew as <-. pose proof (gain_pos eta lambda He Hlm v ltac:(lra)) as Hg. set (g := gain eta lambda v) in *. cbn [bump map] in En.
  exists ((v + g) / (1 + g)). split; [|split].
  - split; [|split].
    + rewrite En. cbn [nk map]. do 2 f_equal. f_equal. field. lra.
    + rewrite En. cbn [nch]. auto.
    + intros u Hu. rewrite <- H2 by auto. destruct (hard_one_real 6 2 0 eta lambda He Hlm plain n n' Hl HA St u) as [E|(ws & j & w & _ & K & _)]; auto. rewrite H2 in K by auto.
      destruct u as [|[|[|[|[|u]]]]]; try congruence; cbn in K; discriminate.
  - split; apply Rmult_le_reg_r with (1 + g) || apply Rmult_lt_reg_r with (1 + g); try lra; unfold Rdiv; rewrite Rmult_assoc, Rinv_l, Rmult_1_r by lra; try lra.
    assert (v * g <= 1 * g) by (apply Rmult_le_compat_r; lra). lra.
  - intros Hlt. assert (0 < g).
    { unfold g, gain. assert (eta < eta / v) by (apply Rmult_lt_reg_r with v; [lra|]; unfold Rdiv; rewrite Rmult_assoc, Rinv_l, Rmult_1_r by lra; rewrite <- (Rmult_1_r eta) at 2; apply Rmult_lt_compat_l; lra).
      assert (2 * lambda * v <= 2 * lambda * 1) by (apply Rmult_le_compat_l; lra). lra. }
    apply Rmult_lt_reg_r with (1 + g); [lra|]. unfold Rdiv. rewrite Rmult_assoc, Rinv_l, Rmult_1_r by lra. assert (v * g < 1 * g) by (apply Rmult_lt_compat_r; lra). lra.
Qed.
End Step.

Lemma mixed_chain eta lambda : 0 < eta -> 0 <= 2 * lambda < eta -> forall k n n' v, mixed_at n v -> hard_learnable n 6 2 0 -> leaves_answer n plain 0 -> leaf_values n plain 0 -> 3/4 <= v < 1 ->
  chain (fun _ : varset => @hard_step XR 0 true (Fin eta) (Fin lambda) 1 [plain]) (repeat plain k) n n' ->
  exists v', mixed_at n' v' /\ hard_learnable n' 6 2 0 /\ leaf_values n' plain 0 /\ v <= v' < 1 /\ ((0 < k)%nat -> v < v').
Proof.
  intros He Hlm. induction k as [|k IH]; intros n n' v Hm Hl HA HV Hv C; cbn [repeat] in C; inversion C as [|x l s s1 s2 St C']; subst.
  - exists v. repeat (split; [assumption|]). split; [lra|lia].
  - destruct (mixed_step n v Hm Hl HA eta lambda s1 He ltac:(lra) Hv St) as (v1 & M1 & B1 & L1). destruct (hard_one_keeps 6 2 0 eta lambda He ltac:(lra) plain n s1 Hl HA St) as (Hl1 & Ho1 & HA1).
    destruct (IH s1 n' v1 M1 Hl1 HA1 (leaf_values_ow 0 n s1 plain Ho1 HV) ltac:(lra) C') as (v2 & M2 & Hl2 & HV2 & B2 & _). exists v2. repeat (split; [assumption|]). specialize (L1 ltac:(lra)). split; [lra|]. intros _. lra.
Qed.

Lemma hard_likelihood_l : exists (net : network XR) N M r (card : Z -> nat) (I : varset),
  hard_learnable net N M r /\ complete net r /\ decomposable net r /\ multinomial_leaves net card r /\ evidence_ok card I /\
  forall (P : params XR) eta lambda ordP rnd, peta P = Fin eta -> plambda P = Fin lambda -> 0 < eta -> 0 <= 2 * lambda < eta -> pnorm P = true -> (0 < piter P)%Z ->
    ranges_entries M ordP -> (forall c i n, (0 < n)%nat -> (rnd c i n < n)%nat) ->
  exists net' p p', @generativeHardGD XR ordP rnd (2 * N + 1) (S N) r P [I] net = Ok net' /\
    value net N I r = Ok (xln p) /\ value net' N I r = Ok (xln p') /\ 0 < p' < p.
Proof.
  exists (wnet wl5), 6%nat, 2%nat, 0%nat, wcard, plain. destruct wnet_case2 as (_ & _ & _ & HM & HC & HD & _).
  split; [exact wnet_hard|]. split; [auto|]. split; [auto|]. split; [auto|]. split; [exact plain_ok|].
  intros P eta lambda ordP rnd HE HLm He Hlm Hn Hk HP Hr.
  destruct (hard_training_chain 6 2 0 eta lambda He ltac:(lra) plain P HE HLm Hn (wnet wl5) wnet_hard plain_answer plain_values ordP rnd HP Hr) as (net' & E & C).
  assert (Hm : mixed_at (wnet wl5) (3/4)). { split; [|split; auto]. cbn. do 4 f_equal. lra. }
  destruct (mixed_chain eta lambda He Hlm _ _ net' (3/4) Hm wnet_hard plain_answer plain_values ltac:(lra) C) as (v' & M' & Hl' & HV' & B & L). specialize (L ltac:(lia)).
  exists net', (/6 * (1 - 3/4) + /10 * (3/4)), (/6 * (1 - v') + /10 * v'). split; auto. split; [apply mixed_val; auto using wnet_hard, plain_values|]. split; [apply mixed_val; auto|]. lra.
Qed.

(** ** A network with one explanation *)
Local Notation snet := (wnet (@indLeaf XR 0 1)).
Lemma snet_hard : hard_learnable snet 6 2 0.
Proof.
  destruct wnet_case as (Hb & Ha & HW & _). split; auto. split; [lia|]. split; auto. split.
  { apply (graded_siblings_ok _ (fun u => match u with 0 => 0 | 1 | 2 => 1 | _ => 2 end)%nat). intros u c. unfold children. destruct u as [|[|[|[|[|u]]]]]; simpl; intros H; intuition (subst; simpl; lia). }
  split. { intros u l. destruct u as [|[|[|[|[|u]]]]]; simpl; try discriminate; auto. }
  split. { intros u w. destruct u as [|[|[|[|[|u]]]]]; simpl; discriminate. }
  split; [discriminate|]. split.
  { split; [lia|]. intros u Hu. split; [destruct u as [|[|[|[|[|u]]]]]; simpl; lia|]. intros w. destruct u as [|[|[|[|[|u]]]]]; simpl; try discriminate. intros E. injection E as <-. simpl. lia. }
  intros u w _ EK. destruct u as [|[|[|[|[|u]]]]]; cbn in EK; try discriminate. injection EK as <-. exists [/4; 3/4]. split; auto. split; auto. split; [|cbn; lra]. intros x [<-|[<-|[]]]; lra.
Qed.
Lemma snet_leaves u l : nk (snet u) = KLeaf l -> exists m J y, lvalue l plain = Some m /\ lmax l plain = Some m /\ logval m /\ largmax l plain = Some (J, y).
Proof.
  destruct u as [|[|[|[|[|u]]]]]; cbn [wnet nk]; try discriminate; intros E; injection E as <-.
  - exists (xlog (Fin (/3))). do 2 eexists. split; [reflexivity|]. split; [reflexivity|]. split; [|reflexivity]. rewrite xlog_nonneg by lra. apply logval_xln.
  - exists (xlog (Fin (/2))). do 2 eexists. split; [reflexivity|]. split; [reflexivity|]. split; [|reflexivity]. rewrite xlog_nonneg by lra. apply logval_xln.
  - exists NInf. do 2 eexists. split; [reflexivity|]. split; [reflexivity|]. split; [exact Logic.I|reflexivity].
Qed.
Lemma selective_case : hard_learnable snet 6 2 0 /\ leaf_values snet plain 0 /\ leaves_answer snet plain 0 /\ leaves_decided snet plain 0 /\ one_explanation snet 6 plain 0.
Proof.
  split; [exact snet_hard|]. split; [intros u l _ EK; destruct (snet_leaves u l EK) as (m & J & y & H1 & H2 & H3 & H4); eauto|].
  split; [intros u l _ EK; destruct (snet_leaves u l EK) as (m & J & y & H1 & H2 & H3 & H4); eauto 8|].
  split; [intros u l _ EK; destruct (snet_leaves u l EK) as (m & J & y & H1 & H2 & H3 & H4); congruence|].
  assert (E2 : value snet 6 plain 2 = Ok NInf).
  { cbn. destruct (Rlt_dec 0 (/2)); [reflexivity|lra]. }
  intros u w i j c c' _ EK Hij Hi Hj. destruct u as [|[|[|[|[|u]]]]]; cbn in EK; try discriminate. cbn in Hi, Hj.
  destruct i as [|[|i]]; cbn in Hi; try (destruct i; discriminate); injection Hi as <-; destruct j as [|[|j]]; cbn in Hj; try (destruct j; discriminate); injection Hj as <-; try congruence; auto.
Qed.
