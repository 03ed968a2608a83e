From Coq Require Import Reals Lra Lia.
From Verif Require Import Base Res Arith LogSpec LogLemmas GraphSpec GraphLemmas Spn SpnSpec Leaves ProbSpec ProbLemmas ProbCases CondSpec CondLemmas.
Local Open Scope R_scope.

Lemma cond_case_l :
  let net := wnet (@indLeaf XR 0 1) in let I := setvar (fun _ => None) 1 2 in
  bounded (children net) 6 /\ acyclic (children net) /\ weights_nonneg net 0 /\ discrete_leaves net wcard 0 /\ complete net 0 /\ decomposable net 0 /\
  evidence_ok wcard I /\ evidence_ok wcard (also I 0 1) /\ extends I (also I 0 1) /\ I 0%Z = None /\ in_scope net 0 0%Z /\
  exists y, value net 6 I 0 = Ok (Fin y).
Proof.
  pose proof wnet_case as H. cbv zeta in *. destruct H as (H1 & H2 & H3 & H4 & H5 & H6 & H7 & H8 & H9).
  assert (HE : evidence_ok wcard (also (setvar (fun _ => None) 1 2) 0 1)).
  { intros x v. unfold also. destruct (Z.eqb_spec x 0) as [->|]; [|apply H9]. intros E. injection E as <-. unfold wcard. simpl. lia. }
  do 7 (split; auto). split; auto. split. { intros x v. unfold also, setvar. destruct (Z.eqb_spec x 1) as [->|]; [auto|discriminate]. }
  split; auto. split; [apply H8; left; auto|].
  set (net := wnet (@indLeaf XR 0 1)) in *. set (I := setvar (fun _ => None) 1 2) in *.
  assert (Z0 : (0 < 6)%nat) by lia.
  assert (R_ : forall u, reach (children net) 0 u -> value net 6 I u = Ok (xln (P net 6 I u)) /\ 0 <= P net 6 I u /\ match nk (net u) with KSum w => forall ws, w = map Fin ws -> P net 6 I u = psum (P net 6 I) (nch (net u)) ws | KProd => P net 6 I u = Rprod (map (P net 6 I) (nch (net u))) | KLeaf l => P net 6 I u = pleaf l I end).
  { apply (P_spec net wcard 6 0 H1 Z0 H2 H3 H5 I H9). }
  assert (T : forall u c, reach (children net) 0 u -> In c (nch (net u)) -> reach (children net) 0 c) by (intros u c A B; eapply reach_snoc; eauto).
  pose proof (reach_refl (children net) 0%nat) as Q0.
  assert (Q1 : reach (children net) 0 1) by (apply (T 0%nat); cbn; auto). assert (Q2 : reach (children net) 0 2) by (apply (T 0%nat); cbn; auto).
  assert (Q3 : reach (children net) 0 3) by (apply (T 1%nat); cbn; auto). assert (Q4 : reach (children net) 0 4) by (apply (T 1%nat); cbn; auto).
  destruct (R_ 0%nat Q0) as (V0 & _ & S0). destruct (R_ 1%nat Q1) as (_ & N1 & S1). destruct (R_ 2%nat Q2) as (_ & N2 & _). destruct (R_ 3%nat Q3) as (_ & _ & S3). destruct (R_ 4%nat Q4) as (_ & _ & S4).
  change (P net 6 I 1%nat = Rprod (map (P net 6 I) [3; 4]%nat)) in S1. change (P net 6 I 3%nat = pleaf (mleafR 0 [/3; 2/3] 1) I) in S3. change (P net 6 I 4%nat = pleaf (mleafR 1 [/2; /4; /4] 0) I) in S4.
  specialize (S0 [/4; 3/4] eq_refl). change (P net 6 I 0%nat = psum (P net 6 I) [1; 2]%nat [/4; 3/4]) in S0. unfold psum in S0. cbn [combine map fst snd Rsum] in S0. cbn [map Rprod] in S1.
  assert (E3 : P net 6 I 3 = 1). { rewrite S3. unfold pleaf, mleafR, multiLeaf, multiValue. cbn [lvalue m_varid m_pr]. unfold I, setvar. cbn [Z.eqb]. change (@fz XR 0) with (Fin 0). rewrite <- xln_one. apply lin_xln. lra. }
  assert (E4 : P net 6 I 4 = /4). { rewrite S4. unfold pleaf, mleafR, multiLeaf, multiValue. cbn [lvalue m_varid m_pr]. unfold I, setvar. cbn [Z.eqb Pos.eqb]. unfold prAt. cbn [Z.ltb Z.compare]. change (Z.to_nat 2) with 2%nat. cbn [map nth_error option_map]. change (@flog XR) with xlog. rewrite xlog_nonneg by lra. apply lin_xln. lra. }
  exists (ln (P net 6 I 0)). rewrite V0, xln_pos; auto. rewrite S0. rewrite S1, E3, E4. lra.
Qed.
