(** DiscriminativeGD and DiscriminativeBGD only change the root, for every arithmetic. *)
From Coq Require Import FunctionalExtensionality Classical_Prop.
From Verif Require Import Base Res Arith LogMath GraphSpec GraphLemmas Search SearchLemmas Topo TopoLemmas Storer StorerSpec StorerLemmas
  Spn DP SpnSpec MapSpec Walk WalkLemmas Struct Derive DeriveLemmas GradLemmas StepLemmas Hard HardSpec HardLemmas PipeLemmas
  Train TrainSpec TrainRange TrainKeep TrainShape TrainAll TrainKept TrainSteps TrainBatch TrainHard TrainDisc TrainDiscHard.

Section Root.
Context {A : arith}.
Local Notation F := (F A).
Local Notation storer := (storer F).
Variables r N M : nat.
Variable net0 : network A.
Hypothesis HM : at_most M r net0.
Hypothesis Hbd : bounded (children net0) N.
Hypothesis Hr : r < N.
Hypothesis Ha : acyclic (children net0).
Variables (ordN : nat -> (nat -> bool) -> list nat) (ordP : nat -> nat -> (Z -> option F) -> list (Z * F)).
Hypothesis HN : ranges_nodes N ordN.
Hypothesis HP : ranges_entries M ordP.
Variables fuelT fuel : nat.
Variable P : params A.
Variable Y : list Z.
Local Notation below := (reach (children net0) r).
Local Notation entry := (sEntry F (fz 0)).

(** Line 213 and 247: the children of the root are not in V. *)
Lemma no_children (n : network A) : children n = children net0 ->
  fold_left (fun Q c => if negb (isLeaf n c) && memn c [r] then Q ++ [c] else Q) (nch (n r)) [] = [].
Proof using Ha.
  clear HM Hr. intros E. assert (Hc : forall c, In c (nch (n r)) -> c <> r).
  { intros c Hin ->. apply (Ha r r); [|apply reach_refl]. rewrite <- E. exact Hin. }
  revert Hc. generalize (nch (n r)). induction l as [|c cs IH]; intros Hc; auto. cbn [fold_left].
  replace (memn c [r]) with false. 2:{ symmetry. apply memn_false. intros [->|[]]. apply (Hc c); simpl; auto. }
  rewrite andb_false_r. apply IH. intros; apply Hc; right; auto.
Qed.
Lemma applyDGD_root s w z u st eta lambda nrm b (n n' : network A) : children n = children net0 ->
  applyDGD fuel r s w z u st eta lambda nrm b n = Ok n' -> forall x, x <> r -> n' x = n x.
Proof.
  intros Ec. unfold applyDGD. destruct fuel as [|f]; cbn [dgdLoop]; [discriminate|].
  destruct (dgdNode eta lambda nrm b st _ _ _ _ n r) as [n1| |] eqn:E1; try discriminate. cbn [bind]. rewrite (no_children n Ec).
  assert (H1 : forall x, x <> r -> n1 x = n x).
  { intros x Hx. unfold dgdNode in E1. destruct (nk (n r)); try congruence. destruct (mapi _ _); try discriminate. cbn [bind] in E1. injection E1 as <-.
    unfold setWeights. rewrite upd_diff; auto. }
  destruct f as [|f]; cbn [dgdLoop]; [discriminate|]. intros E. injection E as <-. auto.
Qed.

Definition KR (s : dstate A) : Prop := only_weights r net0 (tnet (ds s)) /\ forall x, x <> r -> tnet (ds s) x = net0 x.

Lemma discriminativeGD_root data net' data' : discriminativeGD fuelT fuel r P Y data net0 = Ok (net', data') -> forall x, x <> r -> net' x = net0 x.
Proof.
  unfold discriminativeGD. destruct (dEpochs P _ data _) as [x| |] eqn:E; try discriminate. cbn [bind]. intros E'. injection E' as <- _.
  assert (HO : forall one : dstate A -> varset -> res (dstate A * varset), (forall s I y, KR s -> one s I = Ok y -> KR (fst y)) ->
    forall d s y, KR s -> overData one d s = Ok y -> KR (fst y)).
  { intros one H1. induction d as [|I d IH]; intros s y Hs Ey; cbn [overData] in Ey; [injection Ey as <-; auto|].
    destruct (one s I) as [y1| |] eqn:E1; try discriminate. cbn [bind] in Ey. destruct (overData one d (fst y1)) as [y2| |] eqn:E2; try discriminate.
    cbn [bind] in Ey. injection Ey as <-. cbn [fst]. apply (IH (fst y1)); eauto. }
  unfold dEpochs, epochs in E. apply (foldr_ind (fun p : dstate A * list varset => KR (fst p))) in E.
  - apply E.
  - intros _ p p' _ Hp Ep. eapply HO; eauto. intros s I y (Ho & Hs) Ey. unfold dgdInstance in Ey.
    destruct (gradients _ _ _ _ _ _) as [[[st J] yy]| |]; try discriminate. cbn [bind] in Ey.
    destruct (applyDGD _ _ _ _ _ _ _ _ _ _ _ _) as [n'| |] eqn:En; try discriminate. cbn [bind] in Ey. injection Ey as <-. split; cbn [fst ds tnet].
    + apply ow_trans with (b := tnet (ds s)); auto. eapply applyDGD_ow; eauto.
    + intros z Hz. rewrite (applyDGD_root _ _ _ _ _ _ _ _ _ _ _ (ow_children r net0 _ Ho) En z Hz). auto.
  - split; [apply ow_refl|auto].
Qed.

(** *** DiscriminativeBGD: the table of line 118 only gets entries for the root *)
Definition ks7 : list Z := [0; 1; 2; 3; 4; 5; 6]%Z.
Definition K6 (st : storer) : Prop := good ks7 st /\ sok M below st /\ full st /\ forall x l, x <> r -> entry st 6 x l = (fz 0, false).

Lemma K6_kept st tk st' : K6 st -> tk <> 6%Z -> sok M below st' ->
  (forall J, kept_by J (fst (table F st tk)) -> J st -> J st') -> K6 st'.
Proof.
  intros (HG & Hs & Hf & He) Hne Hs' HK. split; [|split; [auto|split]].
  - refine (good_call _ st tk st' HG _). intros K1 K2. apply HK; auto.
  - apply HK; auto. apply full_kept.
  - intros x l Hx. rewrite (winv_entry st st' tk 6 x l); auto. apply HK; [apply winv_kept|]. apply winv_refl. apply fresh_wf. apply HG.
Qed.
Lemma K6_reset st k : k <> 6%Z -> K6 st -> K6 (fst (reset F st k)).
Proof.
  intros Hk (HG & Hs & Hf & He). split; [apply good_reset; auto|]. split; [apply sok_reset; auto|]. split; [apply full_reset; auto|].
  intros x l Hx. rewrite reset_other by (auto; apply fresh_wf; apply HG). auto.
Qed.
Lemma K6_storeDGD n st st' : children n = children net0 -> only_weights r net0 n -> K6 st -> storeDGD fuel r 0 2 3 5 6 n st = Ok st' -> K6 st'.
Proof.
  intros Ec Ho (HG & Hs & Hf & He) E.
  assert (Hs' : sok M below st') by exact (k_dgd r M net0 HM _ n Ho 0 2 3 5 6 st st' Hs E)%Z.
  split; [|split; [auto|split]].
  - refine (good_call _ st 6%Z st' HG _). intros K1 K2. exact (kept_storeDGD n r _ _ 0%Z 2%Z 3%Z 5%Z 6%Z st st' K1 K2 E).
  - exact (kept_storeDGD n r _ _ 0%Z 2%Z 3%Z 5%Z 6%Z st st' (full_kept _) Hf E).
  - intros x l Hx. rewrite <- (He x l Hx). clear He.
    assert (Ht : exists t, tables F st 6 = Some t).
    { pose proof (proj2 HG 6%Z ltac:(unfold ks7; simpl; tauto)) as H6. unfold table in H6. cbn [snd] in H6. destruct (tables F st 6); [eauto|discriminate]. }
    destruct Ht as (t & Ht).
    unfold storeDGD in E. destruct fuel as [|f]; cbn [storeLoopD] in E; [discriminate|].
    destruct (storeNodeD n _ _ _ _ _ st r) as [st1| |] eqn:E1; try discriminate. cbn [bind] in E. rewrite (no_children n Ec) in E.
    destruct f as [|f]; cbn [storeLoopD] in E; [discriminate|]. injection E as <-.
    unfold storeNodeD in E1. destruct (nk (n r)) as [W| |]; try congruence. unfold table in E1. cbn [fst] in E1. rewrite Ht in E1.
    apply (foldi_ind (fun s => winv 6 st s /\ forall l, cval F s 6 x l = cval F st 6 x l)) in E1.
    + rewrite !sEntry_cval. rewrite (proj2 E1 l). auto.
    + intros i c a b _ (HW & Hc) Eb. cbv zeta in Eb. match type of Eb with storeAt _ _ _ _ ?v = _ => set (vv := v) in Eb end. destruct (storeAt_ok 6%Z t st Ht a r (Z.of_nat i) vv HW) as (b' & Eb' & HW' & _ & Hoth).
      rewrite Eb' in Eb. injection Eb as <-. split; auto. intros l'. rewrite Hoth by auto. auto.
    + split; auto. apply winv_refl. apply fresh_wf. apply HG.
Qed.

Definition KB6 (s : dstate A) : Prop := KR s /\ K6 (tst (ds s)).
Lemma gradients_K6 (s : dstate A) I st J y : KB6 s -> gradients fuelT fuel r Y s I = Ok (st, J, y) -> K6 st.
Proof.
  intros ((Ho & _) & H0). unfold gradients. set (n := tnet (ds s)) in *.
  assert (HI : forall st I tk x, K6 st -> tk <> 6%Z -> (0 <= tk)%Z -> storeInference n fuelT r I tk st = Ok x -> K6 (fst x)).
  { intros st1 I1 tk [st2 x2] H Hne Hp E. apply (K6_kept st1 tk); auto.
    - exact (k_inf r M net0 HM _ n Ho I1 tk st1 _ (proj1 (proj2 H)) E).
    - intros Q K1 K2. exact (kept_storeInference n r Q _ I1 tk st1 st2 _ Hp K1 K2 E). }
  assert (HS : forall st tk itk x, K6 st -> tk <> 6%Z -> (0 <= tk)%Z -> deriveSPN n UseQueue fuel r st tk itk = Ok x -> K6 (fst x)).
  { intros st1 tk itk [st2 x2] H Hne Hp E. apply (K6_kept st1 tk); auto.
    - exact (k_spn r M net0 HM _ n Ho _ st1 tk itk _ (proj1 (proj2 H)) E).
    - intros Q K1 K2. exact (kept_deriveSPN n r Q _ _ st1 tk itk st2 _ Hp K1 K2 E). }
  assert (HW : forall st tk dtk itk x, K6 st -> tk <> 6%Z -> (0 <= tk)%Z -> deriveWeights n UseQueue fuel r st tk dtk itk = Ok x -> K6 (fst x)).
  { intros st1 tk dtk itk [st2 x2] H Hne Hp E. apply (K6_kept st1 tk); auto.
    - exact (k_w r M net0 HM _ n Ho _ st1 tk dtk itk _ (proj1 (proj2 H)) E).
    - intros Q K1 K2. exact (kept_deriveWeights n r Q _ _ st1 tk dtk itk st2 _ Hp K1 K2 E). }
  destruct (storeInference n fuelT r I 0 _) as [x1| |] eqn:E1; try discriminate. cbn [bind]. apply HI in E1; auto; try lia.
  destruct (deriveSPN n UseQueue fuel r (fst x1) 1 0) as [x2| |] eqn:E2; try discriminate. cbn [bind]. apply HS in E2; auto; try lia.
  destruct (deriveWeights n UseQueue fuel r (fst x2) 2 1 0) as [x3| |] eqn:E3; try discriminate. cbn [bind]. apply HW in E3; auto; try lia.
  destruct (pullValues I Y (dy s)) as [q| |]; try discriminate. cbn [bind].
  destruct (storeInference n fuelT r (fst q) 3 _) as [x4| |] eqn:E4; try discriminate. cbn [bind]. apply HI in E4; auto; try lia.
  destruct (deriveSPN n UseQueue fuel r (fst x4) 4 3) as [x5| |] eqn:E5; try discriminate. cbn [bind]. apply HS in E5; auto; try lia.
  destruct (deriveWeights n UseQueue fuel r (fst x5) 5 4 3) as [x6| |] eqn:E6; try discriminate. cbn [bind]. apply HW in E6; auto; try lia.
  destruct (pushValues (fst q) Y (snd q)) as [q2| |]; try discriminate. cbn [bind]. intros E. injection E as <- _ _. auto.
Qed.

Lemma dbgd_KB6 s I x : KB6 s -> dbgdInstance fuelT fuel r Y s I = Ok x -> KB6 (fst x).
Proof.
  intros H. unfold dbgdInstance. destruct (gradients fuelT fuel r Y s I) as [[[st J] y]| |] eqn:E; try discriminate. cbn [bind]. pose proof (gradients_K6 s I st J y H E) as H1.
  destruct (storeDGD _ _ _ _ _ _ _ _ _) as [st2| |] eqn:E2; try discriminate. cbn [bind]. intros E'. injection E' as <-. destruct H as ((Ho & Hs) & _). cbn [fst]. split; [split; auto|].
  cbn [ds tst]. change (K6 (fst (reset F (fst (reset F (fst (reset F (fst (reset F (fst (reset F (fst (reset F st2 0)) 1)) 2)) 3)) 4)) 5))).
  repeat (apply K6_reset; [lia|]). exact (K6_storeDGD (tnet (ds s)) st st2 (ow_children r net0 _ Ho) Ho H1 E2).
Qed.
Lemma flush_KB6 s s' : KB6 s -> flushD (applyDGDFrom ordN ordP (peta P) (plambda P) 6 (pnorm P) (pbatch P)) [6%Z] s = Ok s' -> KB6 s'.
Proof.
  intros ((Ho & Hs) & H6). unfold flushD, applyDGDFrom. destruct (applyRange _ _ _ _ _ _ _ _) as [n'| |] eqn:E; try discriminate. cbn [bind]. intros E'. injection E' as <-.
  pose proof H6 as (HG & Hsok & Hf & He). apply (applyRange_ok r N M net0 Hbd Hr ordN ordP HN HP) in E; auto. subst n'. split; [split|]; cbn [ds tnet tst].
  - apply (applied_ow r M net0); auto.
  - intros x Hx. rewrite <- Hs by auto. unfold applied. destruct (nk (tnet (ds s) x)); auto. destruct (cnode F (tst (ds s)) 6 x) as [m|] eqn:Ec; auto.
    exfalso. unfold cnode in Ec. destruct (tables F (tst (ds s)) 6) as [t|] eqn:Et; [|discriminate]. destruct (Hf t x m Ec) as (l & Hl).
    specialize (He x l Hx). rewrite sEntry_cval in He. unfold cval, cnode in He. rewrite Et, Ec in He. destruct (mheap F (tst (ds s)) m l); congruence.
  - change (K6 (fst (reset F (tst (ds s)) 6))). split; [apply good_reset; auto|]. split; [apply sok_reset; auto|]. split; [apply full_reset; auto|].
    intros x l _. apply reset_this.
Qed.

Lemma discriminativeBGD_root data net' data' : discriminativeBGD ordN ordP fuelT fuel r P Y data net0 = Ok (net', data') -> forall x, x <> r -> net' x = net0 x.
Proof.
  unfold discriminativeBGD, dBatches.
  assert (HO : forall one : dstate A -> varset -> res (dstate A * varset), (forall s I y, KB6 s -> one s I = Ok y -> KB6 (fst y)) ->
    forall d s y, KB6 s -> overData one d s = Ok y -> KB6 (fst y)).
  { intros one H1. induction d as [|I d IH]; intros s y Hs Ey; cbn [overData] in Ey; [injection Ey as <-; auto|].
    destruct (one s I) as [y1| |] eqn:E1; try discriminate. cbn [bind] in Ey. destruct (overData one d (fst y1)) as [y2| |] eqn:E2; try discriminate.
    cbn [bind] in Ey. injection Ey as <-. cbn [fst]. apply (IH (fst y1)); eauto. }
  destruct (dEpochs P _ data _) as [x| |] eqn:E; try discriminate. cbn [bind].
  assert (HX : KB6 (fst x)).
  { unfold dEpochs, epochs in E. apply (foldr_ind (fun p : dstate A * list varset => KB6 (fst p))) in E; auto.
    - intros _ p p' _ Hp Ep. eapply HO; eauto. intros s I y Hs Ey. cbv beta in Ey. destruct (dbgdInstance _ _ _ _ _ _) as [x1| |] eqn:E1; try discriminate. cbn [bind] in Ey.
      pose proof (dbgd_KB6 s I x1 Hs E1) as H1. unfold afterOne in Ey. destruct (remOf _ _) as [m| |]; try discriminate. cbn [bind] in Ey. destruct (m =? 0)%Z.
      + destruct (flushD _ _ _) as [s2| |] eqn:E2; try discriminate. cbn [bind] in Ey. injection Ey as <-. cbn [fst]. eapply flush_KB6; eauto.
      + cbn [bind] in Ey. injection Ey as <-. auto.
    - destruct (@tickets_good A 7) as (HG & _ & Hbl). split; [split; [apply ow_refl|auto]|]. cbn [fst ds tst start]. split; [exact HG|].
      split; [apply sok_tickets|]. split; [apply full_tickets|]. intros y l _. apply Hbl. }
  destruct (remOf _ _) as [m| |]; try discriminate. cbn [bind]. destruct (m =? 0)%Z.
  - cbn [bind]. intros E'. injection E' as <- _. apply HX.
  - destruct (flushD _ _ _) as [s2| |] eqn:E2; try discriminate. cbn [bind]. intros E'. injection E' as <- _. apply (flush_KB6 _ _ HX E2).
Qed.
End Root.
