(** The networks of the Dennis-Ventura learner and missing variables. *)
From Coq Require Import Reals Lra Lia.
From Verif Require Import Base Res Arith LogSpec LogLemmas GraphSpec GraphLemmas Spn Leaves GoMap DataSpec Dennis DennisSpec DennisTop ProbSpec ProbLemmas PoonSpec GradLemmas MissingSpec MissingLemmas.
Local Open Scope R_scope.

Section D.
Variables (par : Z -> nat -> F XR * F XR) (logProb : F XR -> F XR -> F XR -> F XR) (trunc round : F XR -> Z).
Variables (net : network XR) (z : nat) (sc : gmap).
Hypothesis Hsc : forall x, in_scope net z x <-> member sc x.
Hypothesis HG : gaussian_leaves par logProb trunc round net.
Hypothesis HP : forall v i, member sc v -> exists mu s, par v i = (Fin mu, Fin s).
Hypothesis HL : forall mu sigma x, logval (logProb mu sigma x).

Lemma proper_nonneg r : proper_weights net r -> weights_nonneg net r /\ weights_normalised net r.
Proof.
  intros W. split; intros u w Hu K.
  - destruct (W u w Hu K) as (Ne & ws & -> & L & Pos & _). split; auto. exists ws. split; auto. split; auto. intros x Hx. left. auto.
  - destruct (W u _ Hu K) as (_ & ws & E & _ & _ & S). apply map_inj_Fin in E. subst; auto.
Qed.

Lemma gauss_own : own_scope net z.
Proof.
  intros u l Hu K. destruct (HG u l K) as (E & v & i & ->). split; auto. intros I J H. cbn. unfold gaussValue.
  rewrite (H v) by (left; reflexivity). reflexivity.
Qed.

Lemma gauss_leaf u l : reach (children net) z u -> nk (net u) = KLeaf l ->
  exists v i mu s, member sc v /\ par v i = (Fin mu, Fin s) /\ l = gaussLeaf logProb trunc round v (Fin mu) (Fin s).
Proof.
  intros Hu K. destruct (HG u l K) as (E & v & i & ->).
  assert (Hv : member sc v) by (apply Hsc; exists u; eexists; split; [exact Hu|]; split; [exact K|left; reflexivity]).
  destruct (HP v i Hv) as (mu & s & Ep). exists v, i, mu, s. rewrite Ep. auto.
Qed.

Lemma gauss_answers I : answers net I z.
Proof.
  intros u l Hu K. destruct (gauss_leaf u l Hu K) as (v & i & mu & s & _ & _ & ->). eexists. split; [reflexivity|].
  unfold gaussValue, zeroSigma. destruct (feq (a:=XR) (Fin s) (fz 0)), (I v) as [y|]; try exact Logic.I; [|apply HL].
  destruct (y =? trunc (Fin mu))%Z; exact Logic.I.
Qed.
(** With the bounds on the sums of densities. *)
Lemma gauss_sum J x lo hi vs u l : (forall v i, member sc v -> snd (par v i) <> Fin 0) ->
  (forall i, lo <= Rsum (map (fun v => lin (logProb (fst (par x i)) (snd (par x i)) (Fin (IZR v)))) vs) <= hi) ->
  reach (children net) z u -> nk (net u) = KLeaf l -> In x (lsc l) ->
  lo * density l (observe J x None) <= Rsum (map (fun v => density l (observe J x (Some v))) vs) <= hi * density l (observe J x None).
Proof.
  intros Nz HB Hu K Hx. destruct (gauss_leaf u l Hu K) as (v & i & mu & s & Hv & Ep & ->). destruct Hx as [->|[]].
  assert (Z0 : feq (a:=XR) (Fin s) (fz 0) = false).
  { specialize (Nz x i Hv). rewrite Ep in Nz. cbn in *. destruct (Req_EM_T s 0) as [->|]; [congruence|reflexivity]. }
  assert (D0 : density (gaussLeaf logProb trunc round x (Fin mu) (Fin s)) (observe J x None) = 1).
  { unfold density. cbn [lvalue gaussLeaf]. unfold gaussValue, observe. rewrite Z0, Z.eqb_refl. apply exp_0. }
  rewrite D0, !Rmult_1_r. specialize (HB i). rewrite Ep in HB.
  rewrite (Rsum_ext _ (fun v => lin (logProb (Fin mu) (Fin s) (Fin (IZR v))))); auto.
  intros v _. unfold density. cbn [lvalue gaussLeaf]. unfold gaussValue, observe. rewrite Z0, Z.eqb_refl. reflexivity.
Qed.

Lemma gauss_normal I : (forall v i, member sc v -> snd (par v i) <> Fin 0) -> (forall x, member sc x -> I x = None) -> leaves_normal net I z.
Proof.
  intros Nz HI u l Hu K. destruct (gauss_leaf u l Hu K) as (v & i & mu & s & Hv & Ep & ->).
  cbn [lvalue gaussLeaf]. unfold gaussValue. rewrite (HI v Hv). specialize (Nz v i Hv). rewrite Ep in Nz. cbn in *.
  destruct (Req_EM_T s 0) as [->|]; [congruence|reflexivity].
Qed.

Lemma gauss_zero J x ts : (forall i, snd (par x i) = Fin 0) -> leaves_over net x z ts -> mixture ts (observe J x None) = 0.
Proof.
  intros Z0 H. unfold mixture. rewrite (Rsum_ext _ (fun _ => 0 * 0)).
  - rewrite Rsum_scal_l. lra.
  - intros (a & l) Hin. destruct (H a l Hin) as (_ & Hx & u & Hu & K).
    destruct (gauss_leaf u l Hu K) as (v & i & mu & s & Hv & Ep & ->). destruct Hx as [->|[]].
    specialize (Z0 i). rewrite Ep in Z0. injection Z0 as ->. cbn [fst snd]. unfold density. cbn [lvalue gaussLeaf].
    unfold gaussValue, zeroSigma, observe. rewrite Z.eqb_refl. cbn. destruct (Req_EM_T 0 0); [simpl; lra|congruence].
Qed.
End D.

Section Top.
Variables (ord : nat -> gmap -> gmap) (ordC : nat -> columns -> columns) (km : nat -> list (list Z) -> list nat)
  (kmD : list gmap -> list (list gmap)) (db : list gmap -> list (list (list Z)))
  (par : Z -> nat -> F XR * F XR) (logProb : F XR -> F XR -> F XR -> F XR) (trunc round : F XR -> Z) (rnd : nat -> Z)
  (fuel : nat) (D : list gmap) (sc : gmap) (k : Z) (m g : nat) (t : F XR) (n : nat).
Hypothesis H1 : visits_all ord.
Hypothesis H2 : forall c C, Permutation (ordC c C) C.
Hypothesis H3 : two_clusters km.
Hypothesis H4 : good_views kmD db n D k.
Hypothesis H5 : forall i, (0 <= rnd i < 10)%Z.
Hypothesis H6 : (0 < m)%nat.
Hypothesis H7 : (0 < g)%nat.
Hypothesis H8 : NoDup (keys sc).
Hypothesis H9 : (2 <= length sc)%nat.
Hypothesis H10 : forall x, member sc x -> (0 <= x < Z.of_nat n)%Z.
Hypothesis H11 : (length sc < fuel)%nat.
Hypothesis HP : forall v i, member sc v -> exists mu s, par v i = (Fin mu, Fin s).
Hypothesis HL : forall mu sigma x, logval (logProb mu sigma x).

Lemma dennis_missing_l : (forall v i, member sc v -> snd (par v i) <> Fin 0) ->
  exists net z N, @structure XR ord ordC km kmD db par logProb trunc round rnd fuel D sc k m g t = Ok (net, z) /\
  (forall I, (forall x, member sc x -> I x = None) -> value net N I z = Ok (Fin 0)) /\
  forall J x lo hi vs, member sc x ->
    (forall i, lo <= Rsum (map (fun v => lin (logProb (fst (par x i)) (snd (par x i)) (Fin (IZR v)))) vs) <= hi) ->
    exists p q, value net N (observe J x None) z = Ok (xln p) /\ 0 <= p /\
      (forall v, In v vs -> value net N (observe J x (Some v)) z = Ok (xln (q v)) /\ 0 <= q v) /\
      lo * p <= Rsum (map q vs) <= hi * p.
Proof.
  intros Nz. destruct (structure_l ord ordC km kmD db par logProb trunc round rnd fuel D sc k m g t n H1 H2 H3 H4 H5 H6 H7 H8 H9 H10 H11)
    as (net & z & E & S1 & S2 & S3 & S4 & S5 & S6 & N & Lz & Bd).
  destruct (proper_nonneg net z S5) as [W1 W2]. exists net, z, N. split; auto. split.
  - intros I HI. apply nothing_l; auto. eapply gauss_normal; eauto.
  - intros J x lo hi vs Hx HB. apply missing_sum_l; auto.
    + eapply gauss_own; eauto.
    + intros o _. eapply gauss_answers; eauto.
    + apply S1; auto.
    + intros u l Hu K Hxl. eapply gauss_sum; eauto.
Qed.

Lemma dennis_constant_l x : member sc x -> (forall i, snd (par x i) = Fin 0) ->
  exists net z N, @structure XR ord ordC km kmD db par logProb trunc round rnd fuel D sc k m g t = Ok (net, z) /\
  forall J, value net N (observe J x None) z = Ok NInf.
Proof.
  intros Hx Z0. destruct (structure_l ord ordC km kmD db par logProb trunc round rnd fuel D sc k m g t n H1 H2 H3 H4 H5 H6 H7 H8 H9 H10 H11)
    as (net & z & E & S1 & S2 & S3 & S4 & S5 & S6 & N & Lz & Bd).
  destruct (proper_nonneg net z S5) as [W1 W2]. exists net, z, N. split; auto. intros J.
  assert (Own : own_scope net z) by (eapply gauss_own; eauto).
  destruct (missing_l net N z J x [] Bd Lz S4 W1 Own S2 S3) as (ts & T1 & T2); [intros o _; eapply gauss_answers; eauto|apply S1; auto|].
  rewrite (T2 None Logic.I), (gauss_zero par logProb trunc round net z sc S1 S6 HP J x ts Z0 T1). unfold xln. destruct (Rlt_dec 0 0); [lra|reflexivity].
Qed.
End Top.
