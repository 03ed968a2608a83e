(** All the trainers: only weights change, the order of range loops does not matter. *)
From Coq Require Import FunctionalExtensionality.
From Verif Require Import Base Res Arith LogMath GraphSpec GraphLemmas Search SearchLemmas Topo TopoLemmas Storer Spn DP SpnSpec Walk WalkLemmas
  Struct Derive DeriveLemmas Hard Train TrainSpec TrainRange TrainKeep TrainShape.

Section All.
Context {A : arith}.
Local Notation F := (F A).
Local Notation storer := (storer F).
Variables r N M : nat.
Variable net : network A.
Local Notation below := (reach (children net) r).
Hypothesis HM : at_most M r net.
Hypothesis HB : forall u, below u -> u < N.
Variables (ordN ordN' : nat -> (nat -> bool) -> list nat) (ordP ordP' : nat -> nat -> (Z -> option F) -> list (Z * F)).
Hypothesis HN : ranges_nodes N ordN.
Hypothesis HN' : ranges_nodes N ordN'.
Hypothesis HP : ranges_entries M ordP.
Hypothesis HP' : ranges_entries M ordP'.
Variable rnd : nat -> nat -> nat -> nat.
Variables fuelT fuel : nat.
Variable P : params A.

Local Notation SOK := (sok M below).
Local Notation OW := (only_weights r net).

Section Steps.
Variable n : network A.
Hypothesis Hn : OW n.
Let E : children n = children net.
Proof. apply (ow_children r). auto. Qed.
Let HMn : at_most M r n.
Proof. eapply at_most_ow; eauto. Qed.
Let H1 : 1 <= M.
Proof. apply HM. Qed.
Let HC : forall u, reach (children n) r u -> length (nch (n u)) <= M.
Proof. intros u Hu. apply HMn. auto. Qed.

Lemma k_inf I tk st x : SOK st -> storeInference n fuelT r I tk st = Ok x -> SOK (fst x).
Proof. destruct x as [st' x]. rewrite <- E. intros Hs Ex. eapply sok_storeInference; eauto. Qed.
Lemma k_spn d st tk itk x : SOK st -> deriveSPN n d fuel r st tk itk = Ok x -> SOK (fst x).
Proof. destruct x as [st' x]. rewrite <- E. intros Hs Ex. eapply sok_deriveSPN; eauto. Qed.
Lemma k_w d st tk dtk itk x : SOK st -> deriveWeights n d fuel r st tk dtk itk = Ok x -> SOK (fst x).
Proof. destruct x as [st' x]. rewrite <- E. intros Hs Ex. eapply sok_deriveWeights; eauto. Qed.
Lemma k_wb d st tk dtk itk x : SOK st -> deriveWeightsBatch n d fuel r st tk dtk itk = Ok x -> SOK (fst x).
Proof. destruct x as [st' x]. rewrite <- E. intros Hs Ex. eapply sok_deriveWeightsBatch; eauto. Qed.
Lemma k_hard rn st tk I x : SOK st -> deriveHard n rn fuelT fuel r st tk I = Ok x -> SOK (fst x).
Proof. destruct x as [st' x]. rewrite <- E. intros Hs Ex. eapply sok_deriveHard; eauto. Qed.
Lemma k_dgd s w z u l st st' : SOK st -> storeDGD fuel r s w z u l n st = Ok st' -> SOK st'.
Proof. rewrite <- E. intros Hs Ex. eapply sok_storeDGD; eauto. intros W HW. apply HMn in HW; auto. constructor. Qed.
End Steps.

Definition J (s : tstate A) : Prop := OW (tnet s) /\ SOK (tst s).

Lemma J_start n : J (start n net).
Proof. split; [apply ow_refl|]. apply sok_tickets. Qed.

Lemma epochs_agree {T} (K : T -> Prop) (f g : T -> res T) : (forall s, K s -> agree K (f s) (g s)) -> forall s, K s -> agree K (epochs P f s) (epochs P g s).
Proof. intros H s Hs. unfold epochs. apply agree_foldr; auto. Qed.

(** From a result kept by a call to what holds of it. *)
Lemma keep {T} (K : T -> Prop) (x : res T) : (forall t, x = Ok t -> K t) -> agree K x x.
Proof. split; auto. Qed.

Lemma J_mk st n c : OW n -> SOK st -> J (mkT st n c).
Proof. split; auto. Qed.

Lemma gd_agree d s I : J s -> agree J (gdInstance fuelT fuel r d P s I) (gdInstance fuelT fuel r d P s I).
Proof.
  intros (Hn & Hs). unfold gdInstance. apply agree_bind with (K := fun x => SOK (fst x)); [apply keep; intros x; apply k_inf; auto|].
  intros x Hx. apply agree_bind with (K := fun x => SOK (fst x)); [apply keep; intros y; apply k_spn; auto|].
  intros y Hy. apply agree_bind with (K := OW).
  - apply keep. intros n E. apply ow_trans with (b := tnet s); auto. eapply deriveApply_ow; eauto.
  - intros n Hn'. apply agree_ok. apply J_mk; auto. apply sok_reset, sok_reset. auto.
Qed.
Lemma generativeGD_agree d data : agree OW (generativeGD fuelT fuel r d P data net) (generativeGD fuelT fuel r d P data net).
Proof.
  unfold generativeGD. apply agree_bind with (K := J).
  - apply epochs_agree; [|apply J_start]. intros s Hs. apply agree_foldr; auto. intros I s' _ Hs'. apply gd_agree; auto.
  - intros s Hs. apply agree_ok. apply Hs.
Qed.

Lemma hgd_agree s I : J s -> agree J (hgdInstance ordP rnd fuelT fuel r P s I) (hgdInstance ordP' rnd fuelT fuel r P s I).
Proof.
  intros (Hn & Hs). unfold hgdInstance. apply agree_bind with (K := fun x => SOK (fst x)); [apply keep; intros x; apply k_inf; auto|].
  intros x Hx. apply agree_bind with (K := fun x => SOK (fst x)); [apply keep; intros y; apply k_hard; auto|].
  intros y Hy. apply agree_bind with (K := OW); [eapply applyHGD_agree; eauto|].
  intros n Hn'. apply agree_ok. apply J_mk; auto. apply sok_reset, sok_reset. auto.
Qed.
Lemma generativeHardGD_agree data : agree OW (generativeHardGD ordP rnd fuelT fuel r P data net) (generativeHardGD ordP' rnd fuelT fuel r P data net).
Proof.
  unfold generativeHardGD. apply agree_bind with (K := J).
  - apply epochs_agree; [|apply J_start]. intros s Hs. apply agree_foldr; auto. intros I s' _ Hs'. apply hgd_agree; auto.
  - intros s Hs. apply agree_ok. apply Hs.
Qed.

Lemma batch_agree b (one one' : tstate A -> varset -> res (tstate A)) fl fl' data s :
  (forall s I, J s -> agree J (one s I) (one' s I)) -> (forall s, J s -> agree J (fl s) (fl' s)) -> J s ->
  agree J (batchEpoch b one fl data s) (batchEpoch b one' fl' data s).
Proof.
  intros H1 H2 Hs. unfold batchEpoch. apply agree_bind with (K := J).
  - unfold foldi. apply agree_foldi; auto. intros i I s' _ Hs'. apply agree_bind with (K := J); [apply H1; auto|].
    intros s1 H. apply agree_bind with (K := fun _ => True); [apply keep; auto|]. intros m _. destruct (m =? 0)%Z; [apply H2; auto|apply agree_ok; auto].
  - intros s1 H. apply agree_bind with (K := fun _ => True); [apply keep; auto|]. intros m _. destruct (m =? 0)%Z; [apply agree_ok; auto|apply H2; auto].
Qed.
Lemma flush_agree ap ap' tk s : (forall occ st n, OW n -> SOK st -> agree OW (ap occ st n) (ap' occ st n)) -> J s ->
  agree J (flushWith ap tk s) (flushWith ap' tk s).
Proof.
  intros H (Hn & Hs). unfold flushWith. apply agree_bind with (K := OW); [apply H; auto|].
  intros n Hn'. apply agree_ok. apply J_mk; auto. apply sok_reset. auto.
Qed.

Lemma bgd_agree d s I : J s -> agree J (bgdInstance fuelT fuel r d s I) (bgdInstance fuelT fuel r d s I).
Proof.
  intros (Hn & Hs). unfold bgdInstance. apply agree_bind with (K := fun x => SOK (fst x)); [apply keep; intros x; apply k_inf; auto|].
  intros x Hx. apply agree_bind with (K := fun x => SOK (fst x)); [apply keep; intros y; apply k_spn; auto|].
  intros y Hy. apply agree_bind with (K := fun x => SOK (fst x)); [apply keep; intros z; apply k_wb; auto|].
  intros z Hz. apply agree_ok. apply J_mk; auto. apply sok_reset, sok_reset. auto.
Qed.
Lemma generativeBGD_agree d data : agree OW (generativeBGD ordN ordP fuelT fuel r d P data net) (generativeBGD ordN' ordP' fuelT fuel r d P data net).
Proof.
  unfold generativeBGD. apply agree_bind with (K := J).
  - apply epochs_agree; [|apply J_start]. intros s Hs. apply batch_agree; auto; [intros; apply bgd_agree; auto|].
    intros s' Hs'. apply flush_agree; auto. intros occ st n Hn Hst. eapply applyRange_agree; eauto.
  - intros s Hs. apply agree_ok. apply Hs.
Qed.

Lemma hbgd_agree s I : J s -> agree J (hbgdInstance rnd fuelT fuel r s I) (hbgdInstance rnd fuelT fuel r s I).
Proof.
  intros (Hn & Hs). unfold hbgdInstance. apply agree_bind with (K := fun x => SOK (fst x)); [apply keep; intros x; apply k_inf; auto|].
  intros x Hx. apply agree_bind with (K := fun x => SOK (fst x)); [apply keep; intros y; apply k_hard; auto|].
  intros y Hy. apply agree_ok. apply J_mk; auto. apply sok_reset. auto.
Qed.
Lemma generativeHardBGD_agree data : agree OW (generativeHardBGD ordN ordP rnd fuelT fuel r P data net) (generativeHardBGD ordN' ordP' rnd fuelT fuel r P data net).
Proof.
  unfold generativeHardBGD. apply agree_bind with (K := J).
  - apply epochs_agree; [|apply J_start]. intros s Hs. apply batch_agree; auto; [intros; apply hbgd_agree; auto|].
    intros s' Hs'. apply flush_agree; auto. intros occ st n Hn Hst. eapply applyRange_agree; eauto.
  - intros s Hs. apply agree_ok. apply Hs.
Qed.

Lemma generative_agree data : agree OW (generative ordN ordP rnd fuelT fuel r P data net) (generative ordN' ordP' rnd fuelT fuel r P data net).
Proof.
  unfold generative. destruct (isHard _), (1 <? _)%Z; auto using generativeHardBGD_agree, generativeHardGD_agree, generativeBGD_agree, generativeGD_agree.
Qed.

(** ** Discriminative *)
Variable Y : list Z.
Local Notation JD := (fun s : dstate A => J (ds s)).
Local Notation JF := (fun p : dstate A * varset => J (ds (fst p))).

Lemma overData_agree (one one' : dstate A -> varset -> res (dstate A * varset)) :
  (forall s I, JD s -> agree JF (one s I) (one' s I)) -> forall data s, JD s ->
  agree (fun p => J (ds (fst p))) (overData one data s) (overData one' data s).
Proof.
  intros H. induction data as [|I data IH]; intros s Hs; simpl; [apply agree_ok; auto|].
  apply agree_bind with (K := JF); [apply H; auto|]. intros x Hx. apply agree_bind with (K := fun p => J (ds (fst p))); [apply IH; auto|].
  intros q Hq. apply agree_ok. auto.
Qed.
Lemma dEpochs_agree one one' data s : (forall s I, JD s -> agree JF (one s I) (one' s I)) -> JD s ->
  agree (fun p => J (ds (fst p))) (dEpochs P one data s) (dEpochs P one' data s).
Proof.
  intros H Hs. unfold dEpochs. apply (epochs_agree (fun p => J (ds (fst p)))); auto. intros p Hp. apply overData_agree; auto.
Qed.

Lemma gradients_agree s I : JD s -> agree (fun g => SOK (fst (fst g))) (gradients fuelT fuel r Y s I) (gradients fuelT fuel r Y s I).
Proof.
  intros (Hn & Hs). unfold gradients. apply agree_bind with (K := fun x => SOK (fst x)); [apply keep; intros x; apply k_inf; auto|].
  intros x1 H1. apply agree_bind with (K := fun x => SOK (fst x)); [apply keep; intros x; apply k_spn; auto|].
  intros x2 H2. apply agree_bind with (K := fun x => SOK (fst x)); [apply keep; intros x; apply k_w; auto|].
  intros x3 H3. apply agree_bind with (K := fun _ => True); [apply keep; auto|].
  intros q _. apply agree_bind with (K := fun x => SOK (fst x)); [apply keep; intros x; apply k_inf; auto|].
  intros x4 H4. apply agree_bind with (K := fun x => SOK (fst x)); [apply keep; intros x; apply k_spn; auto|].
  intros x5 H5. apply agree_bind with (K := fun x => SOK (fst x)); [apply keep; intros x; apply k_w; auto|].
  intros x6 H6. apply agree_bind with (K := fun _ => True); [apply keep; auto|].
  intros I' _. apply agree_ok. auto.
Qed.
Lemma dgd_agree s I : JD s -> agree JF (dgdInstance fuelT fuel r P Y s I) (dgdInstance fuelT fuel r P Y s I).
Proof.
  intros (Hn & Hs). unfold dgdInstance. apply agree_bind with (K := fun g => SOK (fst (fst g))); [apply gradients_agree; split; auto|].
  intros [[st I'] y] Hg. cbn [fst] in Hg. apply agree_bind with (K := OW).
  - apply keep. intros n E. apply ow_trans with (b := tnet (ds s)); auto. eapply applyDGD_ow; eauto.
  - intros n Hn'. apply agree_ok. apply J_mk; auto. apply sok_resetTickets. auto.
Qed.
Lemma discriminativeGD_agree data : agree (fun p => OW (fst p)) (discriminativeGD fuelT fuel r P Y data net) (discriminativeGD fuelT fuel r P Y data net).
Proof.
  unfold discriminativeGD. apply agree_bind with (K := fun p => J (ds (fst p))).
  - apply dEpochs_agree; [|apply J_start]. intros s I Hs. apply dgd_agree; auto.
  - intros p Hp. apply agree_ok. apply Hp.
Qed.

Lemma hardCounts_agree s I : JD s -> agree (fun g => SOK (fst (fst g))) (hardCounts rnd fuelT fuel r Y s I) (hardCounts rnd fuelT fuel r Y s I).
Proof.
  intros (Hn & Hs). unfold hardCounts. apply agree_bind with (K := fun x => SOK (fst x)); [apply keep; intros x; apply k_hard; auto|].
  intros x1 H1. apply agree_bind with (K := fun _ => True); [apply keep; auto|].
  intros q _. apply agree_bind with (K := fun x => SOK (fst x)); [apply keep; intros x; apply k_hard; auto|].
  intros x2 H2. apply agree_bind with (K := fun _ => True); [apply keep; auto|].
  intros I' _. apply agree_ok. auto.
Qed.
Lemma dhgd_agree s I : JD s -> agree JF (dhgdInstance ordN ordP rnd fuelT fuel r P Y s I) (dhgdInstance ordN' ordP' rnd fuelT fuel r P Y s I).
Proof.
  intros (Hn & Hs). unfold dhgdInstance. apply agree_bind with (K := fun g => SOK (fst (fst g))); [apply hardCounts_agree; split; auto|].
  intros [[st I'] y] Hg. cbn [fst] in Hg. apply agree_bind with (K := OW); [eapply applyHDGD_agree; eauto|].
  intros n Hn'. apply agree_ok. apply J_mk; auto. apply sok_resetTickets. auto.
Qed.
Lemma discriminativeHardGD_agree data : agree (fun p => OW (fst p)) (discriminativeHardGD ordN ordP rnd fuelT fuel r P Y data net)
  (discriminativeHardGD ordN' ordP' rnd fuelT fuel r P Y data net).
Proof.
  unfold discriminativeHardGD. apply agree_bind with (K := fun p => J (ds (fst p))).
  - apply dEpochs_agree; [|apply J_start]. intros s I Hs. apply dhgd_agree; auto.
  - intros p Hp. apply agree_ok. apply Hp.
Qed.

Lemma flushD_agree ap ap' tks s : (forall occ st n, OW n -> SOK st -> agree OW (ap occ st n) (ap' occ st n)) -> JD s ->
  agree JD (flushD ap tks s) (flushD ap' tks s).
Proof.
  intros H (Hn & Hs). unfold flushD. apply agree_bind with (K := OW); [apply H; auto|].
  intros n Hn'. apply agree_ok. apply J_mk; auto. apply sok_resetTickets. auto.
Qed.
Lemma dBatches_agree one one' fl fl' data s : (forall s I, JD s -> agree JF (one s I) (one' s I)) -> (forall s, JD s -> agree JD (fl s) (fl' s)) -> JD s ->
  agree (fun p => OW (fst p)) (dBatches P one fl data s) (dBatches P one' fl' data s).
Proof.
  intros H1 H2 Hs. unfold dBatches. apply agree_bind with (K := fun p => J (ds (fst p))).
  - apply dEpochs_agree; auto. intros s' I Hs'. apply agree_bind with (K := JF); [apply H1; auto|]. intros x Hx. unfold afterOne.
    apply agree_bind with (K := fun _ => True); [apply keep; auto|]. intros m _. apply agree_bind with (K := JD).
    + destruct (m =? 0)%Z; [apply H2; auto|apply agree_ok; auto].
    + intros s1 Hs1. apply agree_ok. auto.
  - intros p Hp. apply agree_bind with (K := fun _ => True); [apply keep; auto|]. intros m _. apply agree_bind with (K := JD).
    + destruct (m =? 0)%Z; [apply agree_ok; auto|apply H2; auto].
    + intros s1 Hs1. apply agree_ok. apply Hs1.
Qed.
Lemma dbgd_agree s I : JD s -> agree JF (dbgdInstance fuelT fuel r Y s I) (dbgdInstance fuelT fuel r Y s I).
Proof.
  intros (Hn & Hs). unfold dbgdInstance. apply agree_bind with (K := fun g => SOK (fst (fst g))); [apply gradients_agree; split; auto|].
  intros [[st I'] y] Hg. cbn [fst] in Hg. apply agree_bind with (K := SOK); [apply keep; intros st'; apply k_dgd; auto|].
  intros st' Hst'. apply agree_ok. apply J_mk; auto. apply sok_resetTickets. auto.
Qed.
Lemma discriminativeBGD_agree data : agree (fun p => OW (fst p)) (discriminativeBGD ordN ordP fuelT fuel r P Y data net)
  (discriminativeBGD ordN' ordP' fuelT fuel r P Y data net).
Proof.
  unfold discriminativeBGD. apply dBatches_agree; [intros; apply dbgd_agree; auto| |apply J_start].
  intros s Hs. apply flushD_agree; auto. intros occ st n Hn Hst. eapply applyRange_agree; eauto.
Qed.
Lemma dhbgd_agree s I : JD s -> agree JF (dhbgdInstance rnd fuelT fuel r Y s I) (dhbgdInstance rnd fuelT fuel r Y s I).
Proof.
  intros (Hn & Hs). unfold dhbgdInstance. apply agree_bind with (K := fun x => SOK (fst x)); [apply keep; intros x; apply k_inf; auto|].
  intros x Hx. apply agree_bind with (K := fun g => SOK (fst (fst g))); [apply hardCounts_agree; split; auto; apply sok_reset; auto|].
  intros [[st I'] y] Hg. cbn [fst] in Hg. apply agree_ok. apply J_mk; auto.
Qed.
Lemma discriminativeHardBGD_agree data : agree (fun p => OW (fst p)) (discriminativeHardBGD ordN ordP rnd fuelT fuel r P Y data net)
  (discriminativeHardBGD ordN' ordP' rnd fuelT fuel r P Y data net).
Proof.
  unfold discriminativeHardBGD. apply dBatches_agree; [intros; apply dhbgd_agree; auto| |apply J_start].
  intros s Hs. apply flushD_agree; auto. intros occ st n Hn Hst. eapply applyHDGD_agree; eauto.
Qed.
Lemma discriminative_agree data : agree (fun p => OW (fst p)) (discriminative ordN ordP rnd fuelT fuel r P Y data net)
  (discriminative ordN' ordP' rnd fuelT fuel r P Y data net).
Proof.
  unfold discriminative. destruct (isHard _), (1 <? _)%Z;
    auto using discriminativeHardBGD_agree, discriminativeHardGD_agree, discriminativeBGD_agree, discriminativeGD_agree.
Qed.
End All.
