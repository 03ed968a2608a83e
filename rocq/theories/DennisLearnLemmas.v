(** Proofs about LearnGD of the Dennis-Ventura learner. *)
From Coq Require Import Reals Lra Lia.
From Verif Require Import Base Res Arith LogSpec GraphSpec GraphLemmas Spn Leaves GoMap Build Struct StructSpec StructLemmas DataSpec Dennis DennisSpec DennisTop DennisOrder
  ProbSpec ProbLemmas PoonSpec PoonLearnSpec DeriveSpec MapSpec GradLemmas MissingSpec MissingLemmas MissingDennis Train TrainSpec TrainShape TrainCases HardGainSpec HardKeepSpec HardKeepLemmas SoftDerive SoftKeepLemmas PoonMissing DennisLearn.
Local Open Scope R_scope.

Section D.
Variables (par : Z -> nat -> F XR * F XR) (logProb : F XR -> F XR -> F XR -> F XR) (trunc round : F XR -> Z).
Variables (net : network XR) (z : nat) (sc : gmap).
Hypothesis Hsc : forall x, in_scope net z x <-> member sc x.
Hypothesis HG : gaussian_leaves par logProb trunc round net.
Hypothesis HP : forall v i, member sc v -> exists mu s, par v i = (Fin mu, Fin s) /\ 0 < s.
Hypothesis HL : log_density logProb.

Lemma par_nonzero v i : member sc v -> snd (par v i) <> Fin 0.
Proof. intros Hv. destruct (HP v i Hv) as (mu & s & -> & Hs). cbn. intros E. injection E as E. lra. Qed.
Lemma par_fin : forall v i, member sc v -> exists mu s, par v i = (Fin mu, Fin s).
Proof. intros v i Hv. destruct (HP v i Hv) as (mu & s & E & _). eauto. Qed.

Lemma spread_leaf u l : reach (children net) z u -> nk (net u) = KLeaf l ->
  exists v mu s, 0 < s /\ l = gaussLeaf logProb trunc round v (Fin mu) (Fin s).
Proof.
  intros Hu K. destruct (gauss_leaf par logProb trunc round net z sc Hsc HG par_fin u l Hu K) as (v & i & mu & s & Hv & Ep & ->).
  exists v, mu, s. split; auto. destruct (HP v i Hv) as (mu' & s' & Ep' & Hs). congruence.
Qed.

Lemma spread_finite I u l : reach (children net) z u -> nk (net u) = KLeaf l -> exists y, lvalue l I = Some (Fin y).
Proof.
  intros Hu K. destruct (spread_leaf u l Hu K) as (v & mu & s & Hs & ->). rewrite gauss_at by auto.
  destruct (I v) as [y|]; [|eauto]. destruct HL as [L1 _]. destruct (L1 mu s (IZR y) Hs) as (q & Eq). exists q. f_equal. exact Eq.
Qed.

Lemma spread_max I : leaves_answer net I z.
Proof.
  intros u l Hu K. destruct (spread_leaf u l Hu K) as (v & mu & s & Hs & ->). destruct HL as [LP1 _].
  assert (Nz : @feq XR (Fin s) (fz 0) = false) by (change (xeq (Fin s) (Fin 0) = false); cbn [xeq]; destruct (Req_EM_T s 0); [lra|auto]).
  cbn [lmax largmax gaussLeaf]. unfold gaussMax, gaussArgMax. rewrite Nz.
  destruct (I v) as [y|].
  - destruct (LP1 mu s (IZR y) Hs) as (q & Eq). do 3 eexists. split; [reflexivity|]. split; [|reflexivity].
    change (@fz XR y) with (Fin (IZR y)). rewrite Eq. exact Logic.I.
  - destruct (LP1 mu s mu Hs) as (q & Eq). do 3 eexists. split; [reflexivity|]. split; [|reflexivity]. rewrite Eq. exact Logic.I.
Qed.

Lemma spread_answers I : answers net I z.
Proof. intros u l Hu K. destruct (spread_finite I u l Hu K) as (y & ->). eexists. split; [reflexivity|exact Logic.I]. Qed.
End D.

Section Top.
Variables (ord : nat -> gmap -> gmap) (ordC : nat -> columns -> columns) (km : nat -> list (list Z) -> list nat)
  (kmD : list gmap -> list (list gmap)) (db : list gmap -> list (list (list Z)))
  (par : Z -> nat -> F XR * F XR) (logProb : F XR -> F XR -> F XR -> F XR) (trunc round : F XR -> Z) (rnd : nat -> Z)
  (fuel : nat) (D : list gmap) (sc : gmap) (k : Z) (m g : nat) (t : F XR) (n : nat) (P : params XR) (eta lambda : R).
Hypothesis H1 : visits_all ord.
Hypothesis H2 : forall c C, Permutation (ordC c C) C.
Hypothesis H3 : two_clusters km.
Hypothesis H4 : good_views kmD db n D k.
Hypothesis H5 : forall i, (0 <= rnd i < 10)%Z.
Hypothesis H6 : (0 < m)%nat.
Hypothesis H7 : (0 < g)%nat.
Hypothesis H8 : NoDup (keys sc).
Hypothesis H9 : (2 <= length sc)%nat.
Hypothesis H10 : forall x, member sc x -> (0 <= x < Z.of_nat n)%Z.
Hypothesis H11 : (length sc < fuel)%nat.
Hypothesis HP : forall v i, member sc v -> exists mu s, par v i = (Fin mu, Fin s) /\ 0 < s.
Hypothesis HL : log_density logProb.
Hypothesis PE : peta P = Fin eta.
Hypothesis Eta : 0 <= eta.
Hypothesis PL : plambda P = Fin lambda.
Hypothesis PN : pnorm P = true.
Hypothesis PH : (Z.rem (ptype P) 2 = 0)%Z -> 2 * lambda < 1 + eta / IZR (Z.max 1 (pbatch P)).
Hypothesis PS : (Z.rem (ptype P) 2 <> 0)%Z -> (1 < pbatch P)%Z -> 2 * lambda < 1.

Lemma dennis_learned_l : exists net0 z N0, @Dennis.structure XR ord ordC km kmD db par logProb trunc round rnd fuel D sc k m g t = Ok (net0, z) /\
  forall N M ordN ordP rndT, (N0 <= N)%nat -> at_most M z net0 -> ranges_nodes N ordN -> ranges_entries M ordP ->
  (forall c i n, (0 < n)%nat -> (rndT c i n < n)%nat) ->
  exists net, @learnGD XR ord ordC km kmD db par logProb trunc round rnd fuel ordN ordP rndT (2 * N + 1) (S N) D sc k m g t P = Ok (net, z) /\
  (forall x, in_scope net z x <-> member sc x) /\ complete net z /\ decomposable net z /\ weights_live1 net z /\
  (forall I, exists y, value net N I z = Ok (Fin y)) /\
  (forall I, (forall x, member sc x -> I x = None) -> value net N I z = Ok (Fin 0)) /\
  (forall J x lo hi vs, member sc x ->
    (forall i, lo <= Rsum (map (fun v => lin (logProb (fst (par x i)) (snd (par x i)) (Fin (IZR v)))) vs) <= hi) ->
    exists p q, value net N (observe J x None) z = Ok (xln p) /\ 0 <= p /\
      (forall v, In v vs -> value net N (observe J x (Some v)) z = Ok (xln (q v)) /\ 0 <= q v) /\
      lo * p <= Rsum (map q vs) <= hi * p).
Proof.
  destruct (structureRaw_l XR ord ordC km kmD db par logProb trunc round rnd fuel D sc k m g t n H1 H2 H3 H4 H5 H6 H7 H8 H9 H10 H11)
    as (H & z & E & B & Lz & S1 & S2 & S3 & S4 & S5 & S6).
  destruct (structureRaw_order XR ord ordC km kmD db par logProb trunc round rnd fuel D sc k m g t n H z H1 H2 H3 H4 H5 H6 H7 H8 H9 H10 H11 E) as (Sib & Rt).
  destruct (normalise_small (netOf H) (length H) z B Lz S5) as (n1 & En & Rw & Pw).
  destruct (reweighted_l (netOf H) n1 z Rw) as (T0 & T1 & T2 & T3 & T4).
  assert (Ech : children n1 = children (netOf H)) by (apply FunctionalExtensionality.functional_extensionality; auto).
  assert (Nc : forall u, nch (n1 u) = nch (netOf H u)) by (intros u; apply (T0 u)).
  assert (Es : @Dennis.structure XR ord ordC km kmD db par logProb trunc round rnd fuel D sc k m g t = Ok (n1, z)).
  { unfold Dennis.structure. rewrite E. cbn [bind fst snd]. rewrite En. reflexivity. }
  exists n1, z, (length H). split; auto. intros N M ordN ordP rndT LN HM HN HPn HR.
  assert (G1 : gaussian_leaves par logProb trunc round n1).
  { intros u l K. destruct (Rw u) as [Eu|(w & w' & _ & Eu)]; rewrite Eu in *; [|discriminate]. apply S6; auto. }
  assert (Sc1 : forall x, in_scope n1 z x <-> member sc x) by (intros x; rewrite T1; auto).
  assert (Hl : hard_learnable_below n1 N M z).
  { unfold hard_learnable_below. rewrite !Ech. split; [intros u c Hc; specialize (B u c Hc); lia|]. split; [lia|]. split; [auto|]. split; [|split; [|split; [|split; [|split]]]].
    - intros p l1 a l2 v l3 _ Ep Nv Rv. apply Nv. assert (v = a); [|subst v; apply in_app_iff; right; left; auto].
      apply (Sib p v a); auto; rewrite Ep; apply in_app_iff; right; [right; apply in_app_iff; right; left; auto|left; auto].
    - intros u l K. apply (G1 u l K).
    - intros u ws Hu K. destruct (Pw u ws Hu K) as [Ne _]. exact Ne.
    - rewrite Nc. exact Rt.
    - exact HM.
    - intros u ws Hu K. destruct (Pw u ws Hu K) as (_ & rs & -> & L & Pos & Sum1). eauto. }
  destruct (hard_keeps_l n1 N M z eta lambda P (map get D) ordN ordP rndT) as [HK1 HK2]; auto.
  { intros I _. split; [eapply spread_max; eauto|]. intros u l Hu K. exact (spread_answers par logProb trunc round n1 z sc Sc1 G1 HP HL I u l Hu K). }
  assert (EX : exists net, @generative XR ordN ordP rndT (2 * N + 1) (S N) z P (map get D) n1 = Ok net /\ only_weights z n1 net /\ hard_learnable_below net N M z).
  { destruct (soft_keeps_l n1 N M z Search.UseQueue eta lambda P (map get D) ordN ordP) as [HK3 HK4]; auto.
    { intros I _ u l Hu K. exact (spread_answers par logProb trunc round n1 z sc Sc1 G1 HP HL I u l Hu K). }
    unfold generative, isHard. destruct (Z.eqb_spec (Z.rem (ptype P) 2) 0) as [Hh|Hh].
    - pose proof (PH Hh) as PB. destruct (1 <? pbatch P)%Z eqn:Eb.
      + apply Z.ltb_lt in Eb. rewrite Z.max_r in PB by lia. apply HK2; auto. lia.
      + apply Z.ltb_ge in Eb. rewrite Z.max_l in PB by lia. apply HK1. lra.
    - destruct (1 <? pbatch P)%Z eqn:Eb; auto. apply Z.ltb_lt in Eb. apply HK4; auto. lia. }
  destruct EX as (net & Eg & Ow & (Bn & Ln & An & _ & _ & Sn & _ & _ & Wn)). clear HK1 HK2.
  exists net. split.
  { unfold learnGD. match goal with |- context [bind ?e _] => replace e with (Ok (n1, z)) by (symmetry; exact Es) end. cbn [bind fst snd].
    match goal with |- context [bind ?e _] => replace e with (Ok net) by (symmetry; exact Eg) end. reflexivity. }
  destruct (live1_nonneg net z Wn Sn) as [W1 W2]. pose proof (ow_children z n1 net Ow) as Ecn.
  assert (Gn : gaussian_leaves par logProb trunc round net).
  { intros u l K. rewrite (proj1 Ow). apply (G1 u l). destruct (proj2 Ow u) as [Q|(_ & a & b & _ & Q & _)]; congruence. }
  assert (Kd : forall u, nk (net u) = nk (n1 u) \/ exists w w', nk (n1 u) = KSum w /\ nk (net u) = KSum w').
  { intros u. destruct (proj2 Ow u) as [Q|(_ & a & b & Q1 & Q2 & _)]; eauto. }
  assert (Scn : forall u x, in_scope net u x <-> in_scope n1 u x).
  { intros u x. unfold in_scope. rewrite Ecn. split; intros (v & l & R & K & Hx); exists v, l; (split; [auto|split; [|auto]]).
    - destruct (Kd v) as [Q|(a & b & _ & Q)]; congruence.
    - destruct (Kd v) as [Q|(a & b & Q & _)]; congruence. }
  assert (Sc2 : forall x, in_scope net z x <-> member sc x) by (intros x; rewrite Scn; auto).
  assert (C2 : complete net z).
  { intros u w c c' x R K Hc Hc' Hx. rewrite (proj1 Ow) in Hc, Hc'. rewrite Ecn in R. apply Scn. apply Scn in Hx.
    destruct (Kd u) as [Q|(a & b & Q & _)]; [rewrite Q in K; exact (T2 S2 u w c c' x R K Hc Hc' Hx)|exact (T2 S2 u a c c' x R Q Hc Hc' Hx)]. }
  assert (D2 : decomposable net z).
  { intros u i j c c' x R K ij Ei Ej Hx Hx'. rewrite (proj1 Ow) in Ei, Ej. rewrite Ecn in R. apply Scn in Hx. apply Scn in Hx'.
    eapply (T3 S3 u); eauto. destruct (Kd u) as [Q|(a & b & _ & Q)]; congruence. }
  pose proof (par_nonzero par sc HP) as Nz. pose proof (par_fin par sc HP) as Fn.
  split; auto. split; auto. split; auto. split; auto. split; [|split].
  - intros I. apply positive_l; auto. intros u l Hu K. exact (spread_finite par logProb trunc round net z sc Sc2 Gn HP HL I u l Hu K).
  - intros I HI. apply nothing_l; auto. eapply gauss_normal; eauto.
  - intros J x lo hi vs Hx HB. apply missing_sum_l; auto.
    + eapply gauss_own; eauto.
    + intros o _. eapply spread_answers; eauto.
    + apply Sc2; auto.
    + intros u l Hu K Hxl. eapply gauss_sum; eauto.
Qed.
End Top.
