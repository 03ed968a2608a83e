(** More evidence is never more likely; conditional probabilities. *)
From Coq Require Import Reals Lra Lia.
From Verif Require Import Base Res Arith LogSpec LogLemmas GraphSpec GraphLemmas Spn SpnSpec SpnLemmas Leaves ProbSpec ProbLemmas ProbCases DeriveCases CondSpec.
Local Open Scope R_scope.

Lemma member_le_Rsum {T} (f : T -> R) (l : list T) x : In x l -> (forall y, In y l -> 0 <= f y) -> f x <= Rsum (map f l).
Proof.
  induction l as [|y l IH]; [intros []|]. intros Hin H. cbn [map Rsum fold_right].
  assert (Hr : 0 <= Rsum (map f l)).
  { clear IH Hin. assert (H' : forall z, In z l -> 0 <= f z) by (intros; apply H; right; auto). clear H. induction l as [|z l IH]; cbn [map Rsum fold_right]; [lra|].
    pose proof (H' z (or_introl eq_refl)). assert (0 <= Rsum (map f l)) by (apply IH; intros; apply H'; right; auto). unfold Rsum in *. lra. }
  pose proof (H y (or_introl eq_refl)). unfold Rsum in *. destruct Hin as [->|Hin]; [lra|]. specialize (IH Hin ltac:(intros; apply H; right; auto)). lra.
Qed.

Section Cond.
Variable net : network XR.
Variable card : Z -> nat.
Variables N r : nat.
Local Notation ch := (children net).
Hypothesis Hb : bounded ch N.
Hypothesis Hr : (r < N)%nat.
Hypothesis Ha : acyclic ch.
Hypothesis HW : weights_nonneg net r.
Hypothesis HL : discrete_leaves net card r.
Local Notation P := (P net N).
Local Notation MX := (MX net N).

Lemma leaf_mono l x I J : dleaf card l x -> evidence_ok card I -> evidence_ok card J -> extends I J ->
  pleaf l J <= pleaf l I /\ mleaf l J <= mleaf l I.
Proof.
  intros HD HI HJ HE. destruct (dleaf_value card l x I HD HI) as (V1 & X1 & B1 & L1 & Z1). destruct (dleaf_value card l x J HD HJ) as (V2 & X2 & B2 & L2 & _).
  destruct (I x) as [v|] eqn:E.
  - assert (pleaf l J = pleaf l I /\ mleaf l J = mleaf l I) as [-> ->]; [|lra]. pose proof (HE x v E) as E'.
    destruct HD as [(ps & mi & -> & _)|(w & -> & _)]; unfold pleaf, mleaf; cbn [lvalue lmax multiLeaf indLeaf]; unfold multiValue, multiMax, indValue; cbn [m_varid]; rewrite E, E'; auto.
  - rewrite (Z1 eq_refl). split; auto. clear Z1.
    destruct HD as [(ps & mi & -> & HLn & Hp & Hs & Hm & Hmax)|(w & -> & Hw)]; unfold mleaf; cbn [lmax multiLeaf indLeaf].
    + unfold multiMax. cbn [m_varid m_pr m_modev]. rewrite E.
      assert (Hin : In (nth mi ps 0) ps) by (apply nth_In; lia). change (@flog XR) with xlog.
      destruct (J x) as [v|] eqn:EJ; [|lra]. unfold multiValue. cbn [m_varid m_pr]. try rewrite EJ.
      pose proof (HJ x v EJ) as Hv. rewrite <- HLn in Hv. rewrite prAt_ok by auto. cbn [option_map].
      change (@flog XR) with xlog. assert (Hiv : In (nth (Z.to_nat v) ps 0) ps) by (apply nth_In; lia).
      rewrite !xlog_nonneg by auto. rewrite !lin_xln by auto. auto.
    + unfold indValue. rewrite E. change (@fz XR 0) with (Fin 0). change (@fninf XR) with NInf.
      assert (L0 : lin (Fin 0) = 1) by (rewrite <- xln_one; apply lin_xln; lra).
      destruct (J x) as [v|]; [destruct (v =? Z.of_nat w)%Z|]; rewrite L0; simpl lin; try rewrite L0; simpl in L0; try lra.
Qed.

Lemma P_mono I J : evidence_ok card I -> evidence_ok card J -> extends I J -> forall u, reach ch r u -> P J u <= P I u.
Proof.
  intros HI HJ HE. apply (node_ind ch N r); auto. intros u Hu IH.
  destruct (P_spec net card N r Hb Hr Ha HW HL I HI u Hu) as (_ & _ & E1).
  destruct (P_spec net card N r Hb Hr Ha HW HL J HJ u Hu) as (_ & _ & E2).
  destruct (nk (net u)) as [w| |l] eqn:EK.
  - destruct (HW u w Hu EK) as (_ & ws & -> & HLen & Hnn). rewrite (E1 ws), (E2 ws) by auto. unfold psum.
    apply Rsum_le. intros (c & w) Hin. apply in_combine_wt in Hin as [Hc Hw]. simpl. apply Rmult_le_compat_r; auto.
  - rewrite E1, E2. apply Rprod_le. intros c Hc. split; [|apply IH; auto]. apply (P_nonneg net card N r); auto. eapply reach_snoc; eauto.
  - rewrite E1, E2. destruct (HL u l Hu EK) as (_ & x & Hd). apply (leaf_mono l x); auto.
Qed.

Lemma M_mono I J : evidence_ok card I -> evidence_ok card J -> extends I J -> forall u, reach ch r u -> MX J u <= MX I u.
Proof.
  intros HI HJ HE. apply (node_ind ch N r); auto. intros u Hu IH.
  destruct (M_spec net card N r Hb Hr Ha HW HL I HI u Hu) as (_ & HM & E1).
  destruct (M_spec net card N r Hb Hr Ha HW HL J HJ u Hu) as (_ & _ & E2).
  destruct (nk (net u)) as [w| |l] eqn:EK.
  - destruct (HW u w Hu EK) as (_ & ws & -> & HLen & Hnn). rewrite (E1 ws) in * by auto. rewrite (E2 ws) by auto. unfold pmax in *.
    destruct (Rmaxl_spec (map (fun cw => snd cw * MX J (fst cw)) (combine (nch (net u)) ws)) 0) as (_ & _ & [->|Hin]); auto.
    apply in_map_iff in Hin as ((c & w) & <- & Hin). pose proof Hin as Hin'. apply in_combine_wt in Hin' as [Hc Hw].
    destruct (Rmaxl_spec (map (fun cw => snd cw * MX I (fst cw)) (combine (nch (net u)) ws)) 0) as (_ & Hge & _).
    eapply Rle_trans; [|apply Hge; apply in_map_iff; exists (c, w); split; [reflexivity|exact Hin]]. simpl. apply Rmult_le_compat_l; auto.
  - rewrite E1, E2. apply Rprod_le. intros c Hc. split; [|apply IH; auto]. apply (M_spec net card N r Hb Hr Ha HW HL J HJ). eapply reach_snoc; eauto.
  - rewrite E1, E2. destruct (HL u l Hu EK) as (_ & x & Hd). apply (leaf_mono l x); auto.
Qed.

Lemma M_le_P I : evidence_ok card I -> forall u, reach ch r u -> MX I u <= P I u.
Proof.
  intros HI. apply (node_ind ch N r); auto. intros u Hu IH.
  destruct (P_spec net card N r Hb Hr Ha HW HL I HI u Hu) as (_ & HP & E1).
  destruct (M_spec net card N r Hb Hr Ha HW HL I HI u Hu) as (_ & _ & E2).
  destruct (nk (net u)) as [w| |l] eqn:EK.
  - destruct (HW u w Hu EK) as (_ & ws & -> & HLen & Hnn). rewrite (E1 ws) in * by auto. rewrite (E2 ws) by auto. unfold pmax.
    destruct (Rmaxl_spec (map (fun cw => snd cw * MX I (fst cw)) (combine (nch (net u)) ws)) 0) as (_ & _ & [->|Hin]); auto.
    apply in_map_iff in Hin as ((c & w) & <- & Hin). pose proof Hin as Hin'. apply in_combine_wt in Hin' as [Hc Hw]. simpl. unfold psum.
    apply Rle_trans with (w * P I c); [apply Rmult_le_compat_l; auto|].
    apply (member_le_Rsum (fun cw => P I (fst cw) * snd cw) _ (c, w)) in Hin.
    + simpl in Hin. rewrite Rmult_comm. exact Hin.
    + intros (c' & w') Hin'. apply in_combine_wt in Hin' as [Hc' Hw']. simpl. apply Rmult_le_pos; auto.
      apply (P_nonneg net card N r); auto. eapply reach_snoc; eauto.
  - rewrite E1, E2. apply Rprod_le. intros c Hc. split; [|apply IH; auto]. apply (M_spec net card N r Hb Hr Ha HW HL I HI). eapply reach_snoc; eauto.
  - rewrite E1, E2. destruct (HL u l Hu EK) as (_ & x & Hd). apply (dleaf_value card l x); auto.
Qed.
End Cond.

Lemma max_below_value_l (net : network XR) card N r I :
  bounded (children net) N -> (r < N)%nat -> acyclic (children net) -> weights_nonneg net r -> discrete_leaves net card r -> evidence_ok card I ->
  exists a c, value net N I r = Ok a /\ max_ net N I r = Ok c /\ xge a c = true.
Proof.
  intros Hb Hr Ha HW HL HI.
  destruct (P_spec net card N r Hb Hr Ha HW HL I HI r (reach_refl _ _)) as (E1 & H1 & _). destruct (M_spec net card N r Hb Hr Ha HW HL I HI r (reach_refl _ _)) as (E3 & H3 & _).
  do 2 eexists. split; [exact E1|]. split; [exact E3|]. apply xge_xln; auto. apply (M_le_P net card N r Hb Hr Ha HW HL); auto. apply reach_refl.
Qed.

Lemma evidence_mono_l (net : network XR) card N r I J :
  bounded (children net) N -> (r < N)%nat -> acyclic (children net) -> weights_nonneg net r -> discrete_leaves net card r ->
  evidence_ok card I -> evidence_ok card J -> extends I J ->
  exists a b c d, value net N I r = Ok a /\ value net N J r = Ok b /\ xge a b = true /\
    max_ net N I r = Ok c /\ max_ net N J r = Ok d /\ xge c d = true.
Proof.
  intros Hb Hr Ha HW HL HI HJ HE.
  destruct (P_spec net card N r Hb Hr Ha HW HL I HI r (reach_refl _ _)) as (E1 & H1 & _). destruct (P_spec net card N r Hb Hr Ha HW HL J HJ r (reach_refl _ _)) as (E2 & H2 & _).
  destruct (M_spec net card N r Hb Hr Ha HW HL I HI r (reach_refl _ _)) as (E3 & H3 & _). destruct (M_spec net card N r Hb Hr Ha HW HL J HJ r (reach_refl _ _)) as (E4 & H4 & _).
  do 4 eexists. split; [exact E1|]. split; [exact E2|]. split; [apply xge_xln; auto; apply (P_mono net card N r Hb Hr Ha HW HL); auto; apply reach_refl|].
  split; [exact E3|]. split; [exact E4|]. apply xge_xln; auto. apply (M_mono net card N r Hb Hr Ha HW HL); auto. apply reach_refl.
Qed.

Lemma conditional_l (net : network XR) card N r I x y :
  bounded (children net) N -> (r < N)%nat -> acyclic (children net) -> weights_nonneg net r -> discrete_leaves net card r ->
  complete net r -> decomposable net r -> evidence_ok card I -> I x = None -> in_scope net r x -> value net N I r = Ok (Fin y) ->
  exists c : nat -> R, (forall v, (v < card x)%nat -> 0 <= c v <= 1 /\
      exists z, value net N (also I x (Z.of_nat v)) r = Ok z /\ xexp (xsub z (Fin y)) = Fin (c v)) /\
    Rsum (map c (seq 0 (card x))) = 1.
Proof.
  intros Hb Hr Ha HW HL HC HD HI HX Hs Hy.
  destruct (P_spec net card N r Hb Hr Ha HW HL I HI r (reach_refl _ _)) as (E1 & H1 & _). rewrite E1 in Hy. injection Hy as Hy.
  assert (Hp : 0 < P net N I r). { destruct H1 as [|E0]; auto. rewrite <- E0, xln_zero in Hy. discriminate. }
  rewrite xln_pos in Hy by auto. injection Hy as Hy.
  exists (fun v => P net N (setv I x v) r / P net N I r).
  assert (Hok : forall v, (v < card x)%nat -> evidence_ok card (setv I x v)) by (intros; apply setv_ok; auto).
  assert (Hd : forall a, 0 <= a -> a / P net N I r = a * / P net N I r) by reflexivity. pose proof (Rinv_0_lt_compat _ Hp) as Hinv.
  split.
  - intros v Hv. pose proof (P_nonneg net card N r Hb Hr Ha HW HL _ r (Hok v Hv) (reach_refl _ _)) as H0. split; [split|].
    + apply Rmult_le_pos; lra.
    + apply Rmult_le_reg_r with (P net N I r); auto. unfold Rdiv. rewrite Rmult_assoc, Rinv_l by lra. rewrite Rmult_1_r, Rmult_1_l.
      apply (P_mono net card N r Hb Hr Ha HW HL); auto; [|apply reach_refl]. intros z w Ez. unfold setv. destruct (Z.eqb_spec z x); [congruence|auto].
    + destruct (P_spec net card N r Hb Hr Ha HW HL _ (Hok v Hv) r (reach_refl _ _)) as (E2 & H2 & _). exists (xln (P net N (setv I x v) r)). split; [exact E2|].
      destruct H2 as [H2|H2].
      * rewrite xln_pos by auto. cbn. f_equal. rewrite <- Hy. rewrite exp_plus, exp_Ropp, !exp_ln by auto. reflexivity.
      * rewrite <- H2, xln_zero. cbn. f_equal. unfold Rdiv. lra.
  - pose proof (P_sum_var net card N r Hb Hr Ha HW HL HC HD I x HI HX r (reach_refl _ _) Hs) as ES.
    replace (map (fun v => P net N (setv I x v) r / P net N I r) (seq 0 (card x))) with (map (fun v => / P net N I r * P net N (setv I x v) r) (seq 0 (card x)))
      by (apply map_ext; intros; unfold Rdiv; lra).
    rewrite Rsum_scal_l, <- ES. apply Rinv_l. lra.
Qed.
