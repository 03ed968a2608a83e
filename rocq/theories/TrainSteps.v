(** GenerativeGD over the reals. *)
From Coq Require Import Reals Lra Classical_Prop FunctionalExtensionality.
From Verif Require Import Base Res Arith LogMath LogSpec LogLemmas GraphSpec GraphLemmas Topo TopoLemmas Search SearchLemmas
  Storer StorerSpec StorerLemmas Spn DP SpnSpec SpnLemmas Leaves ProbSpec ProbLemmas ProbCases Walk WalkLemmas
  Struct StructSpec StructLemmas Derive DeriveSpec DiffLemmas DeriveLemmas GradLemmas StepLemmas DeriveCases Hard PipeLemmas
  GensLemmas Train TrainSpec TrainRange TrainKeep TrainShape TrainAll TrainKept TrainGrad.

(** ** Chains *)
Lemma chain_app {X S} (step : X -> S -> S -> Prop) l1 l2 a b c : chain step l1 a b -> chain step l2 b c -> chain step (l1 ++ l2) a c.
Proof. induction 1; intros H2; simpl; auto. econstructor; eauto. Qed.
Lemma chain_fold {X S N} (f : S -> X -> res S) (out : S -> N) (step : X -> N -> N -> Prop) (K : S -> Prop) l :
  (forall x s, In x l -> K s -> exists s', f s x = Ok s' /\ step x (out s) (out s') /\ K s') ->
  forall s, K s -> exists s', foldr_ f l s = Ok s' /\ chain step l (out s) (out s') /\ K s'.
Proof.
  induction l as [|x l IH]; intros H s Hs; simpl.
  - exists s. split; auto. split; auto. constructor.
  - destruct (H x s (or_introl eq_refl) Hs) as (s1 & E & H1 & H2). rewrite E. cbn [bind].
    destruct (IH (fun y s Hy => H y s (or_intror Hy)) s1 H2) as (s' & E' & H3 & H4). exists s'. split; auto. split; auto. econstructor; eauto.
Qed.
Lemma chain_epochs {A} {X S N} (P : params A) (f : S -> res S) (out : S -> N) (step : X -> N -> N -> Prop) (K : S -> Prop) (L : list X) :
  (forall s, K s -> exists s', f s = Ok s' /\ chain step L (out s) (out s') /\ K s') ->
  forall s, K s -> exists s', epochs P f s = Ok s' /\ chain step (concat (repeat L (Z.to_nat (piter P)))) (out s) (out s') /\ K s'.
Proof.
  intros H. unfold epochs. induction (Z.to_nat (piter P)) as [|n IH]; intros s Hs; simpl.
  - exists s. split; auto. split; auto. constructor.
  - destruct (H s Hs) as (s1 & -> & H1 & H2). cbn [bind]. destruct (IH s1 H2) as (s' & E & H3 & H4). exists s'. split; auto. split; auto. eapply chain_app; eauto.
Qed.

(** ** Values and derivatives of one instance *)
Section Front.
Variables (N r : nat) (d : discipline).
Local Notation entry := (sEntry xreal (Fin 0)).
Local Notation single := (sSingle xreal (Fin 0)).

Definition has_values (net : network XR) (I : varset) (st : storer xreal) (k : Z) : Prop :=
  forall u, reach (children net) r u -> exists v, value net N I u = Ok v /\ single st k u = (v, true).
Definition has_derivatives (net : network XR) (I : varset) (st : storer xreal) (k : Z) : Prop :=
  forall u, reach (children net) r u -> exists D, (0 <= D)%R /\ single st k u = (xln D, true) /\ node_derivative net I N r u D.
Definition blank (st : storer xreal) (k : Z) : Prop := forall u l, entry st k u l = (Fin 0, false).

Lemma front net I ks (st : storer xreal) itk dtk : learnable net N r d -> leaf_values net I r -> @good XR ks st ->
  In itk ks -> In dtk ks -> (0 <= itk)%Z -> (0 <= dtk)%Z -> itk <> dtk -> blank st dtk ->
  exists st1 st2, storeInference net (2 * N + 1) r I itk st = Ok (st1, (Some r, itk)) /\
    @deriveSPN XR net d (S N) r st1 dtk itk = Ok (st2, (r, dtk)) /\ @good XR ks st2 /\
    has_values net I st2 itk /\ has_derivatives net I st2 dtk /\
    (forall k u l, k <> itk -> k <> dtk -> entry st2 k u l = entry st k u l) /\
    (forall u l, l <> 0%Z -> entry st2 itk u l = entry st itk u l).
Proof.
  intros (Hb & Hr & Ha & Hs & Hd & HL & HS & Hne & HW) HV HG Hi1 Hi2 H1 H2 Hneq Hblank.
  pose proof HG as ((ops & Hst) & HT).
  destruct (@storeInference_l XR net N r I itk st ops Hst Hb Hr Ha Hs HL HS Hne (fun _ => HT _ Hi1)) as [[HP _]|(st1 & tk1 & E1 & Ei & Hv & Ho1 & Ho1')].
  { destruct (P_gen net N r Hb Hr Ha HW I HV r (reach_refl _ _)) as (Ev & _). rewrite Ev in HP. discriminate. }
  destruct (Z.ltb_spec itk 0) as [|_]; [lia|]. subst tk1.
  change (F XR) with xreal in *. change (@fz XR 0) with (Fin 0) in *.
  assert (HG1 : @good XR ks st1).
  { refine (@good_call XR ks st itk st1 HG _). intros K1 K2. exact (kept_storeInference net r _ _ I itk st st1 _ H1 K1 K2 E1). }
  pose proof HG1 as ((ops1 & Hst1) & HT1). 
  destruct (deriveSPN_l net N r I d dtk itk st1 ops1 Hst1 Hb Hr Ha Hd HL HW HV) as (st2 & tk2 & E2 & Ed & Hder & Ho2).
  { intros _. split; [apply HT1; auto|]. intros u Hu. unfold sSingle. rewrite Ho1 by auto. rewrite Hblank. auto. }
  { exact Hv. }
  { destruct (Z.ltb_spec dtk 0); lia. }
  destruct (Z.ltb_spec dtk 0) as [|_]; [lia|]. subst tk2.
  exists st1, st2. split; auto. split; auto. split; [|split; [|split; [|split]]].
  - refine (@good_call XR ks st1 dtk st2 HG1 _). intros K1 K2. exact (kept_deriveSPN net r _ d _ st1 dtk itk st2 _ H2 K1 K2 E2).
  - intros u Hu. destruct (Hv u Hu) as (v & K1 & K2). exists v. split; auto. unfold sSingle in *. rewrite Ho2; auto.
  - exact Hder.
  - intros k u l K1 K2. rewrite Ho2, Ho1; auto.
  - intros u l Hl. rewrite Ho2, Ho1'; auto.
Qed.

Lemma leaf_values_ow net net' I : only_weights r net net' -> leaf_values net I r -> leaf_values net' I r.
Proof.
  intros Ho HV u l. rewrite (ow_children r net net' Ho). intros Hu EK. apply (HV u l Hu).
  destruct (proj2 Ho u) as [E|(_ & w & w' & E1 & E2 & _)]; congruence.
Qed.

(** ** GenerativeGD *)
Section GD.
Variable P : params XR.
Variable eta : R.
Hypothesis HE : peta P = Fin eta.
Hypothesis Heta : (0 <= eta)%R.
Variable net0 : network XR.

Definition KG (ks : list Z) (s : tstate XR) : Prop :=
  only_weights r net0 (tnet s) /\ state_ok N r d (pnorm P) (tnet s) /\ @good XR ks (tst s) /\ blank (tst s) 0.

Lemma gd_real s I : KG [0; 1]%Z s -> leaf_values net0 I r ->
  exists s', @gdInstance XR (2 * N + 1) (S N) r d P s I = Ok s' /\
    gradient_step N r (pnorm P) eta 0 1 [I] (tnet s) (tnet s') /\ KG [0; 1]%Z s'.
Proof.
  intros (Ho & (Hl & Hlive) & HG & Hbl) HV0. assert (HV : leaf_values (tnet s) I r) by (eapply leaf_values_ow; eauto).
  destruct (front (tnet s) I [0; 1]%Z (tst s) 1 0 Hl HV HG) as (st1 & st2 & E1 & E2 & HG2 & Hv & Hder & _); auto; try lia; try (simpl; auto; fail).
  unfold gdInstance. rewrite E1. cbn [bind fst]. rewrite E2. cbn [bind fst]. rewrite HE.
  pose proof Hl as (Hb & Hr & Ha & Hs & Hd & HL & HS & Hne & HW).
  destruct (applyWeights_exact (tnet s) N r I d st2 0 1 eta (pnorm P) Hb Hr Ha HL HW HV Hv Hder) as (net' & E & H1 & H2).
  rewrite E. cbn [bind]. eexists. split; [reflexivity|]. cbn [tnet tst].
  destruct (moved N r d (pnorm P) eta 0 1 [I] (tnet s) net') as (M1 & M2 & M3); auto; try lra; [split; auto| |].
  { intros u ws Hu EK. destruct (H1 u ws Hu EK) as (ws' & K1 & K2 & K3). exists ws'. split; auto. split; auto.
    intros i w Hw. destruct (K3 i w Hw) as (D & HD & HD' & E3). exists [D]. split; [constructor; auto|]. split; [intros x [<-|[]]; auto|].
    rewrite E3. f_equal. simpl. field. }
  split; auto. split; [eapply ow_trans; eauto|]. split; auto. split; [apply good_reset, good_reset; auto|].
  intros u l. apply (@reset_this XR).
Qed.

Lemma generativeGD_real data : (forall I, In I data -> leaf_values net0 I r) -> state_ok N r d (pnorm P) net0 ->
  exists net', @generativeGD XR (2 * N + 1) (S N) r d P data net0 = Ok net' /\
    chain (fun I => gradient_step N r (pnorm P) eta 0 1 [I]) (concat (repeat data (Z.to_nat (piter P)))) net0 net' /\ state_ok N r d (pnorm P) net'.
Proof.
  intros HV Hok. unfold generativeGD.
  destruct (chain_epochs P (foldr_ (@gdInstance XR (2 * N + 1) (S N) r d P) data) (@tnet XR)
    (fun I => gradient_step N r (pnorm P) eta 0 1 [I]) (KG [0; 1]%Z) data) with (s := @start XR 2 net0) as (s' & E & H1 & H2).
  - intros s Hs. apply chain_fold; auto. intros I s1 HI Hs1. apply gd_real; auto.
  - destruct (@tickets_good XR 2) as (HG & _ & Hbl). split; [apply ow_refl|]. split; auto. split; auto. intros u l. apply Hbl.
  - rewrite E. cbn [bind]. exists (tnet s'). split; auto. split; auto. apply H2.
Qed.
End GD.
End Front.
