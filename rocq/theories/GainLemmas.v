From Coq Require Import Reals Lra Lia Classical_Prop FunctionalExtensionality.
From Verif Require Import Base Res Arith LogMath LogSpec LogLemmas GraphSpec GraphLemmas Topo TopoLemmas Search SearchLemmas
  Storer StorerSpec StorerLemmas Spn DP SpnSpec SpnLemmas Leaves ProbSpec ProbLemmas ProbCases Walk WalkLemmas
  Struct StructSpec StructLemmas Derive DeriveSpec DiffLemmas DeriveLemmas GradLemmas StepLemmas DeriveCases Hard PipeLemmas
  GensLemmas Train TrainSpec TrainRange TrainKeep TrainShape TrainAll TrainKept TrainGrad TrainSteps GainSpec.
Local Open Scope R_scope.

Section Chain.
Variables (N r : nat) (d : discipline) (P : params XR) (eta : R).
Hypothesis HE : peta P = Fin eta.
Hypothesis Heta : 0 <= eta.
Variable net0 : network XR.
Local Notation nrm := (pnorm P).

Definition gstep (I : varset) (n n' : network XR) : Prop :=
  gradient_step N r nrm eta 0 1 [I] n n' /\ (learnable n N r d /\ leaf_values n I r) /\ only_weights r net0 n /\ only_weights r net0 n' /\ learnable n' N r d.

Lemma gd_chain data : (forall I, In I data -> leaf_values net0 I r) -> state_ok N r d nrm net0 ->
  exists net', @generativeGD XR (2 * N + 1) (S N) r d P data net0 = Ok net' /\
    chain gstep (concat (repeat data (Z.to_nat (piter P)))) net0 net' /\ learnable net' N r d /\ only_weights r net0 net'.
Proof.
  intros HV Hok. unfold generativeGD.
  destruct (chain_epochs P (foldr_ (@gdInstance XR (2 * N + 1) (S N) r d P) data) (@tnet XR) gstep (KG N r d P net0 [0; 1]%Z) data) with (s := @start XR 2 net0) as (s' & E & H1 & H2).
  - intros s Hs. apply chain_fold; auto. intros I s1 HI Hs1. destruct (gd_real N r d P eta HE Heta net0 s1 I Hs1 (HV I HI)) as (s2 & E & G & K). exists s2. split; auto. split; auto.
    destruct Hs1 as (Ho & (Hl & _) & _). destruct K as (Ho2 & (Hl2 & _) & _). split; [exact G|]. split; [split; [exact Hl|eapply leaf_values_ow; eauto]|]. split; [exact Ho|]. split; [exact Ho2|exact Hl2].
  - destruct (@tickets_good XR 2) as (HG & _ & Hbl). split; [apply ow_refl|]. split; auto. split; auto. intros u l. apply Hbl.
  - rewrite E. cbn [bind]. exists (tnet s'). split; auto. split; auto. destruct H2 as (Ho & (Hl & _) & _). auto.
Qed.

Lemma derivative_nonneg n I u i w ws D : learnable n N r d -> leaf_values n I r -> reach (children n) r u -> nk (n u) = @KSum XR (map Fin ws) -> nth_error ws i = Some w ->
  weight_derivative n I N r u i w D -> 0 <= D.
Proof.
  intros Hl HV Hu EK Hw HD. destruct (@tickets_good XR 2) as (HG & _ & Hbl).
  destruct (front N r d n I [0; 1]%Z _ 1 0 Hl HV HG) as (st1 & st2 & _ & _ & _ & _ & Hder & _); try (simpl; auto; fail); try lia. { intros x l. apply Hbl. }
  destruct (Hder u Hu) as (D' & HD' & _ & Hn). destruct Hl as (Hb & Hr & Ha & _ & _ & _ & _ & _ & HW).
  destruct (HW u _ Hu EK) as (_ & ws0 & E0 & Hwl & _). apply map_inj_Fin in E0. subst ws0.
  assert (Hc : exists c, nth_error (nch (n u)) i = Some c).
  { destruct (nth_error (nch (n u)) i) eqn:En; eauto. apply nth_error_None in En. assert (i < length ws)%nat by (apply nth_error_Some; congruence). lia. }
  destruct Hc as (c & Hc). assert (Hcr : reach (children n) r c) by (eapply reach_snoc; [exact Hu|eapply nth_error_In; eauto]).
  pose proof (weight_derivative_l n N r I Hb Hr Ha HW HV u ws i c w D' Hu EK Hc Hw Hn) as Hx. pose proof (uniqueness_limite _ _ _ _ HD Hx) as ->.
  apply Rmult_le_pos; auto. apply (P_gen n N r Hb Hr Ha HW I HV c Hcr).
Qed.
Lemma root_derivative n I i w ws c D : learnable n N r d -> leaf_values n I r -> nk (n r) = @KSum XR (map Fin ws) -> nth_error ws i = Some w -> nth_error (nch (n r)) i = Some c ->
  weight_derivative n I N r r i w D -> D = ProbLemmas.P n N I c.
Proof.
  intros (Hb & Hr & Ha & _ & _ & _ & _ & _ & HW) HV EK Hw Hc HD.
  assert (Hn : node_derivative n I N r r 1).
  { unfold node_derivative. eapply derivable_ext; [|apply derivable_pt_lim_id]. intros t. destruct N; [lia|]. cbn [lval]. unfold set_one. rewrite Nat.eqb_refl. reflexivity. }
  pose proof (weight_derivative_l n N r I Hb Hr Ha HW HV r ws i c w 1 (reach_refl _ _) EK Hc Hw Hn) as Hx. rewrite (uniqueness_limite _ _ _ _ HD Hx). lra.
Qed.
End Chain.

Section Moves.
Variables (N r : nat) (d : discipline) (P : params XR) (eta : R).
Hypothesis HE : peta P = Fin eta.
Hypothesis Heta : 0 <= eta.
Variable net0 : network XR.
Local Notation step := (gstep N r d P eta net0).
Local Notation Pv := ProbLemmas.P.

Lemma step_children I n n' : step I n n' -> children n = children net0 /\ children n' = children net0.
Proof. intros (_ & _ & H1 & H2 & _). split; apply (ow_children r); auto. Qed.

Lemma rsum_le l : forall l', Forall2 Rle l l' -> Rsum l <= Rsum l'.
Proof. induction l as [|x l IH]; intros l' H; inversion H; subst; cbn [Rsum]; [lra|]. specialize (IH _ H4). lra. Qed.
Lemma rprod_le l : forall l', Forall2 (fun x y => 0 <= x <= y) l l' -> 0 <= Rprod l <= Rprod l'.
Proof.
  induction l as [|x l IH]; intros l' H; inversion H; subst; cbn [Rprod]; [lra|]. destruct (IH _ H4). split; [apply Rmult_le_pos; lra|]. apply Rmult_le_compat; lra.
Qed.
Lemma forall2_same {U V W} (R : V -> W -> Prop) (f : U -> V) (g : U -> W) l : (forall x, In x l -> R (f x) (g x)) -> Forall2 R (map f l) (map g l).
Proof. induction l; intros H; cbn [map]; constructor; [apply H; left; auto|apply IHl; intros; apply H; right; auto]. Qed.
Lemma psum_le (p p' : nat -> R) cs : forall ws ws', Forall2 Rle ws ws' -> (forall x, In x ws -> 0 <= x) -> (forall c, In c cs -> 0 <= p c <= p' c) -> psum p cs ws <= psum p' cs ws'.
Proof.
  unfold psum. induction cs as [|c cs IH]; intros ws ws' H Hw Hp; [cbn; lra|]. destruct H as [|w w' ws ws' Hww H]; [cbn; lra|]. cbn [combine map Rsum fst snd].
  apply Rplus_le_compat; [|apply IH; auto; intros; [apply Hw|apply Hp]; right; auto]. destruct (Hp c (or_introl eq_refl)). apply Rmult_le_compat; auto. apply Hw. left; auto.
Qed.

Lemma step_grows I n n' : pnorm P = false -> step I n n' -> forall J, leaf_values net0 J r -> forall u, reach (children net0) r u -> 0 <= Pv n N J u <= Pv n' N J u.
Proof.
  intros Hnm St J HJ. pose proof (step_children I n n' St) as (C1 & C2). destruct St as ((G1 & G2) & (Hl & HV) & O1 & O2 & Hl').
  pose proof (leaf_values_ow r _ _ J O1 HJ) as J1. pose proof (leaf_values_ow r _ _ J O2 HJ) as J2.
  pose proof Hl as (Hb & Hr & Ha & _ & _ & _ & _ & _ & HW). pose proof Hl' as (Hb' & _ & Ha' & _ & _ & _ & _ & _ & HW').
  pose proof (P_gen n N r Hb Hr Ha HW J J1) as PG1. pose proof (P_gen n' N r Hb' Hr Ha' HW' J J2) as PG2. unfold weights_nonneg in HW. rewrite C1 in Hb, Ha, PG1, G1, G2, HW. rewrite C2 in PG2.
  apply (node_ind (children net0) N r); auto. intros u Hu IH. destruct (PG1 u Hu) as (_ & P1 & E1). destruct (PG2 u Hu) as (_ & _ & E2).
  split; auto. assert (Ech : nch (n u) = children net0 u) by (rewrite <- C1; reflexivity). assert (Ech' : nch (n' u) = children net0 u) by (rewrite <- C2; reflexivity).
  destruct (nk (n u)) as [w| |l] eqn:EK.
  - destruct (HW u w Hu EK) as (_ & ws & -> & Lw & Hw). destruct (G2 u ws Hu EK) as (ws' & Lw' & Hi & En). rewrite Hnm in En. rewrite En in E2. cbn [nk nch] in E2. rewrite (E1 ws eq_refl), (E2 ws' eq_refl), Ech.
    apply psum_le; auto. clear E1 E2 En.
    assert (X : forall i w, nth_error ws i = Some w -> exists w', nth_error ws' i = Some w' /\ w <= w').
    { intros i w Hw'. destruct (Hi i w Hw') as (Ds & F & ->). eexists. split; [reflexivity|]. inversion F; subst. inversion H3; subst. cbn [Rsum].
      assert (0 <= y) by (eapply (derivative_nonneg N r d n I u i w ws); eauto; rewrite C1; auto). assert (0 <= eta * y) by (apply Rmult_le_pos; auto). lra. }
    clear -X Lw'. revert ws' X Lw'. induction ws as [|a ws IHw]; intros [|b ws'] X L; try discriminate; constructor.
    + destruct (X 0%nat a eq_refl) as (w' & E & H). cbn in E. congruence.
    + apply IHw; [|cbn in L; lia]. intros i w Hw. apply (X (S i)). auto.
  - rewrite G1 in E2 by (right; congruence). rewrite EK in E2. rewrite E1, E2, Ech. apply rprod_le. apply forall2_same. auto.
  - rewrite G1 in E2 by (right; congruence). rewrite EK in E2. rewrite E1, E2. lra.
Qed.

Lemma chain_grows l n n' : pnorm P = false -> chain step l n n' -> learnable n N r d -> only_weights r net0 n -> forall J, leaf_values net0 J r -> 0 <= Pv n N J r <= Pv n' N J r.
Proof.
  intros Hnm C. induction C as [n|x l n n1 n2 St C IH]; intros Hl Ho J HJ.
  - pose proof Hl as (Hb & Hr & Ha & _ & _ & _ & _ & _ & HW). split; [|lra]. apply (P_gen n N r); auto; [apply (leaf_values_ow r net0 n J Ho HJ)|apply reach_refl].
  - pose proof (step_grows x n n1 Hnm St J HJ r (reach_refl _ _)). pose proof St as (_ & _ & _ & O2 & Hl2). specialize (IH Hl2 O2 J HJ). lra.
Qed.
End Moves.

Lemma training_grows_l (net : network XR) (N r : nat) d (P : params XR) (eta : R) data :
  peta P = Fin eta -> 0 <= eta -> learnable net N r d -> pnorm P = false -> (forall I, In I data -> leaf_values net I r) ->
  exists net', @generativeGD XR (2 * N + 1) (S N) r d P data net = Ok net' /\
    forall J, leaf_values net J r -> exists p p', value net N J r = Ok (xln p) /\ value net' N J r = Ok (xln p') /\ 0 <= p <= p'.
Proof.
  intros HE He Hl Hnm HV. destruct (gd_chain N r d P eta HE He net data HV) as (net' & E & C & Hl' & Ho); [split; auto; congruence|].
  exists net'. split; auto. intros J HJ. exists (ProbLemmas.P net N J r), (ProbLemmas.P net' N J r).
  pose proof Hl as (Hb & Hr & Ha & _ & _ & _ & _ & _ & HW). pose proof Hl' as (Hb' & _ & Ha' & _ & _ & _ & _ & _ & HW').
  split; [apply (P_gen net N r); auto; apply reach_refl|]. split; [apply (P_gen net' N r); auto; [apply (leaf_values_ow r net net' J Ho HJ)|apply reach_refl]|].
  eapply chain_grows; eauto. apply ow_refl.
Qed.

(** ** Mixtures *)
Lemma mapi_from_same {U V} (f g : nat -> U -> res V) l : forall i, (forall j x, In x l -> f j x = g j x) -> mapi_from i f l = mapi_from i g l.
Proof.
  induction l as [|x l IH]; intros i H; cbn [mapi_from]; auto. rewrite H by (left; auto). rewrite (IH (S i)) by (intros; apply H; right; auto). reflexivity.
Qed.
Lemma value_same (n n0 : network XR) (r : nat) I : (forall u, u <> r -> n u = n0 u) -> forall f u, ~ reach (children n0) u r -> value n f I u = value n0 f I u.
Proof.
  intros Hs. induction f as [|f IH]; intros u Hu; [reflexivity|]. cbn [value]. assert (u <> r) by (intros ->; apply Hu, reach_refl). rewrite (Hs u) by auto.
  assert (K : forall c, In c (nch (n0 u)) -> value n f I c = value n0 f I c) by (intros c Hc; apply IH; intros Hx; apply Hu; eapply reach_step; eauto).
  destruct (nk (n0 u)); auto.
  - unfold sumVals, mapi. rewrite (mapi_from_same _ (fun i c => v <- value n0 f I c; wi <- idx w i; Ok (fadd v (flog wi)))); auto. intros j x Hx. rewrite K; auto.
  - unfold mapi. rewrite (mapi_from_same _ (fun _ c => value n0 f I c)); auto.
Qed.

Section Mixture.
Variables (N r : nat) (d : discipline) (P : params XR) (eta : R).
Hypothesis HE : peta P = Fin eta.
Hypothesis Heta : 0 <= eta.
Variable net0 : network XR.
Variable I : varset.
Variables ws0 g : list R.
Hypothesis HM : mixture_of net0 N r I ws0 g.
Hypothesis Hl0 : learnable net0 N r d.
Hypothesis HV0 : leaf_values net0 I r.
Local Notation step := (gstep N r d P eta net0).
Local Notation Pv := ProbLemmas.P.
Local Notation cs := (nch (net0 r)).
Local Notation G := (Rsum g).

(** The state of training: only the weights of the root have changed. *)
Definition mixed (n : network XR) (ws : list R) : Prop :=
  n r = mkNode (@KSum XR (map Fin ws)) cs /\ (forall u, u <> r -> n u = net0 u) /\ length ws = length cs.
Local Notation like := (dot g).

Lemma g_length : length g = length cs.
Proof. destruct HM as (_ & _ & F & _). revert F. generalize cs, g. induction l; intros l' F; inversion F; subst; cbn; auto. Qed.
Lemma mixed_children n ws : mixed n ws -> children n = children net0.
Proof. intros (H1 & H2 & _). extensionality u. unfold children. destruct (Nat.eq_dec u r) as [->|H]; [rewrite H1; auto|rewrite H2; auto]. Qed.
Lemma mixed_P n ws : mixed n ws -> map (Pv n N I) cs = g.
Proof.
  intros Hm. pose proof Hl0 as (_ & _ & Ha & _). destruct HM as (_ & _ & F & _). destruct Hm as (_ & H2 & _).
  assert (K : forall c, In c cs -> ~ reach (children net0) c r) by (intros c Hc; apply Ha; exact Hc). revert K F. generalize cs, g. clear - H2.
  induction l as [|c l IH]; intros gs K F; inversion F; subst; auto. cbn [map]. f_equal; [|apply IH; auto; intros; apply K; right; auto]. destruct H1 as (H1 & Ev). unfold Pv.
  rewrite (value_same n net0 r I H2) by (apply K; left; auto). rewrite Ev. apply lin_xln. auto.
Qed.
Lemma psum_map (p : nat -> R) l : forall ws, psum p l ws = Rsum (map (fun gw => fst gw * snd gw) (combine (map p l) ws)).
Proof. unfold psum. induction l as [|c l IH]; intros [|w ws]; auto. cbn [combine map Rsum fst snd]. rewrite IH. auto. Qed.
Lemma mixed_value n ws : mixed n ws -> learnable n N r d -> leaf_values n I r -> value n N I r = Ok (xln (like ws)) /\ 0 <= like ws.
Proof.
  intros Hm (Hb & Hr & Ha & _ & _ & _ & _ & _ & HW) HV. destruct (P_gen n N r Hb Hr Ha HW I HV r (reach_refl _ _)) as (Ev & Hp & E). pose proof Hm as (E1 & _). rewrite E1 in E. cbn [nk nch] in E.
  specialize (E ws eq_refl). rewrite psum_map, (mixed_P n ws Hm) in E. fold (dot g ws) in E. rewrite <- E. auto.
Qed.

Lemma like_add ws : forall gs, length ws = length gs -> Rsum (map (fun gw => fst gw * snd gw) (combine gs (map (fun wg => fst wg + eta * snd wg) (combine ws gs)))) = Rsum (map (fun gw => fst gw * snd gw) (combine gs ws)) + eta * Rsum (map (fun x => x * x) gs).
Proof. induction ws as [|w ws IH]; intros [|x gs] L; try discriminate; cbn; [lra|]. rewrite IH by (cbn in L; lia). ring. Qed.
Lemma sum_add ws : forall gs, length ws = length gs -> Rsum (map (fun wg => fst wg + eta * snd wg) (combine ws gs)) = Rsum ws + eta * Rsum gs.
Proof. induction ws as [|w ws IH]; intros [|x gs] L; try discriminate; cbn; [lra|]. rewrite IH by (cbn in L; lia). ring. Qed.
Lemma like_div k ws : like (map (fun x => x / k) ws) = like ws / k.
Proof. unfold dot. generalize g. clear. induction ws as [|w ws IH]; intros [|x gs]; cbn; try (unfold Rdiv; ring). rewrite IH. unfold Rdiv. ring. Qed.
Lemma sum_div k ws : Rsum (map (fun x => x / k) ws) = Rsum ws / k.
Proof. induction ws as [|w ws IH]; cbn; [unfold Rdiv; ring|]. rewrite IH. unfold Rdiv. ring. Qed.

Lemma mixed_step n n' ws : step I n n' -> mixed n ws -> exists ws', mixed n' ws' /\
  if pnorm P then like ws' = (like ws + eta * Rsum (map (fun x => x * x) g)) / (Rsum ws + eta * G) /\ Rsum ws' = (Rsum ws + eta * G) / (Rsum ws + eta * G)
  else like ws' = like ws + eta * Rsum (map (fun x => x * x) g) /\ Rsum ws' = Rsum ws + eta * G.
Proof.
  intros ((G1 & G2) & (Hl & HV) & O1 & O2 & Hl') Hm. pose proof Hm as (M1 & M2 & M3).
  destruct (G2 r ws (reach_refl _ _)) as (ws' & L & Hi & En); [rewrite M1; auto|].
  assert (E' : ws' = map (fun wg => fst wg + eta * snd wg) (combine ws g)).
  { apply nth_error_ext. intros i. rewrite nth_error_map. destruct (nth_error ws i) as [w|] eqn:Ew.
    - destruct (Hi i w Ew) as (Ds & F & ->). inversion F; subst. inversion H3; subst. clear F H3. assert (Hc : exists c, nth_error cs i = Some c).
      { destruct (nth_error cs i) eqn:En'; eauto. apply nth_error_None in En'. assert (i < length ws)%nat by (apply nth_error_Some; congruence). lia. }
      destruct Hc as (c & Hc). assert (Eg : nth_error g i = Some (Pv n N I c)) by (rewrite <- (mixed_P n ws Hm), nth_error_map, Hc; auto).
      rewrite (root_derivative N r d n I i w ws c y Hl HV); auto; [|rewrite M1; auto|rewrite M1; auto].
      assert (En' : nth_error (combine ws g) i = Some (w, Pv n N I c)).
      { clear - Ew Eg. revert i Ew Eg. generalize g. induction ws as [|a l IH]; intros [|b gs] [|i] H1 H2; try discriminate; cbn in *; [congruence|auto]. }
      rewrite En'. cbn [option_map fst snd Rsum]. f_equal. field.
    - assert (X1 : nth_error ws' i = None) by (apply nth_error_None; apply nth_error_None in Ew; lia).
      assert (X2 : nth_error (combine ws g) i = None) by (apply nth_error_None; apply nth_error_None in Ew; rewrite combine_length; lia). rewrite X1, X2. auto. }
  assert (Lg : length ws = length g) by (rewrite M3, g_length; auto).
  assert (H2 : forall u, u <> r -> n' u = net0 u).
  { intros u Hu. rewrite G1; auto. destruct (classic (reach (children n) r u)) as [H|H]; [right|left; auto]. intros w EK. apply Hu. destruct HM as (_ & Ho & _). apply (Ho u w); [rewrite <- (mixed_children n ws Hm); auto|]. rewrite <- M2; auto. }
  rewrite M1 in En. cbn [nch] in En. destruct (pnorm P).
  - exists (map (fun x => x / Rsum ws') ws'). split; [split; [auto|split; [auto|rewrite map_length, L; auto]]|]. rewrite like_div, sum_div. rewrite E', (sum_add ws g Lg). unfold dot at 1. rewrite like_add by auto. auto.
  - exists ws'. split; [split; [auto|split; [auto|rewrite L; auto]]|]. rewrite E', (sum_add ws g Lg). unfold dot at 1. rewrite like_add by auto. auto.
Qed.

Definition rate (k : nat) : R := if pnorm P then (1 + eta * G) ^ k else 1 + INR k * (eta * G).

Lemma mixed_chain k : forall n n' ws, chain step (repeat I k) n n' -> mixed n ws -> (if pnorm P then Rsum ws = 1 else 0 < Rsum ws) ->
  exists ws', mixed n' ws' /\ 0 < Rsum ws' /\
  if pnorm P then Rsum ws' = 1 /\ (like ws' - self_mean g) * (1 + eta * G) ^ k = like ws - self_mean g
  else Rsum ws' = Rsum ws + INR k * (eta * G) /\ like ws' - self_mean g * Rsum ws' = like ws - self_mean g * Rsum ws.
Proof.
  assert (HG : 0 < G) by apply HM. assert (Eq : Rsum (map (fun x => x * x) g) = self_mean g * G) by (unfold self_mean; field; lra). assert (H0 : 0 <= eta * G) by (apply Rmult_le_pos; lra).
  induction k as [|k IH]; intros n n' ws C Hm Hs; inversion C as [s EQ1 EQ2|x l s s1 s2 Hst Hch EQ1 EQ2]; subst.
  - exists ws. split; auto. destruct (pnorm P); [split; [lra|split; [auto|cbn; lra]]|split; [auto|split; [simpl INR; lra|lra]]].
  - destruct (mixed_step n s1 ws Hst Hm) as (ws1 & Hm1 & E). destruct (IH s1 n' ws1 Hch Hm1) as (ws' & Hm' & Hp & E').
    { destruct (pnorm P); destruct E as (_ & ->); [rewrite Hs; field; lra|lra]. }
    exists ws'. split; auto. split; auto. destruct (pnorm P).
    + destruct E' as (E1 & E2), E as (E3 & E4). split; auto. cbn [pow]. rewrite Rmult_comm, Rmult_assoc, (Rmult_comm _ (like ws' - _)), E2, E3, Hs, Eq. field. lra.
    + destruct E' as (E1 & E2), E as (E3 & E4). split; [rewrite E1, E4, S_INR; ring|]. rewrite E2, E3, E4, Eq. ring.
Qed.
End Mixture.

Lemma mixture_training_l (net : network XR) (N r : nat) d (P : params XR) (eta : R) I ws g :
  peta P = Fin eta -> 0 <= eta -> learnable net N r d -> leaf_values net I r -> mixture_of net N r I ws g -> Rsum ws = 1 ->
  exists net' ws', @generativeGD XR (2 * N + 1) (S N) r d P [I] net = Ok net' /\ nk (net' r) = @KSum XR (map Fin ws') /\ length ws' = length ws /\ 0 < Rsum ws' /\
    (pnorm P = true -> Rsum ws' = 1) /\
    (forall J gJ, leaf_values net J r -> mixture_of net N r J ws gJ -> value net N J r = Ok (xln (dot gJ ws)) /\ value net' N J r = Ok (xln (dot gJ ws'))) /\
    dot g ws' / Rsum ws' - self_mean g = (dot g ws - self_mean g) / (if pnorm P then (1 + eta * Rsum g) ^ Z.to_nat (piter P) else 1 + INR (Z.to_nat (piter P)) * (eta * Rsum g)).
Proof.
  intros HE He Hl HV HM Hs. pose proof Hl as (_ & _ & _ & _ & _ & _ & _ & _ & HW). destruct (HW r _ (reach_refl _ _) (proj1 HM)) as (_ & ws0 & E0 & Lw & _). apply map_inj_Fin in E0. subst ws0.
  destruct (gd_chain N r d P eta HE He net [I]) as (net' & E & C & Hl' & Ho); [intros J [<-|[]]; auto| |].
  { split; auto. intros _ u w Hu EK. pose proof (proj1 (proj2 HM) u w Hu EK) as ->. rewrite (proj1 HM) in EK. injection EK as <-. exists ws. destruct (HW r _ (reach_refl _ _) (proj1 HM)) as (_ & ws1 & E1 & L1 & W1). apply map_inj_Fin in E1. subst ws1. repeat split; auto. lra. }
  assert (EC : concat (repeat [I] (Z.to_nat (piter P))) = repeat I (Z.to_nat (piter P))) by (generalize (Z.to_nat (piter P)); clear; intros k; induction k as [|k IH]; cbn [repeat concat app]; [auto|rewrite IH; auto]). rewrite EC in C.
  assert (Hm : mixed r net net ws). { split; [|split; [auto|exact Lw]]. rewrite <- (proj1 HM). destruct (net r); auto. }
  destruct (mixed_chain N r d P eta He net I ws g HM Hl (Z.to_nat (piter P)) net net' ws C Hm) as (ws' & Hm' & Hp & X); [rewrite Hs; destruct (pnorm P); lra|].
  exists net', ws'. split; [auto|]. split; [rewrite (proj1 Hm'); auto|]. split; [destruct Hm' as (_ & _ & ->); auto|]. split; [auto|]. split; [intros Hn; rewrite Hn in X; apply X|].
  split; [intros J gJ HJ HMJ; split; [apply (mixed_value N r d net J ws gJ HMJ Hl net ws Hm Hl HJ)|apply (mixed_value N r d net J ws gJ HMJ Hl net' ws' Hm' Hl' (leaf_values_ow r _ _ J Ho HJ))]|].
  assert (HG : 0 < Rsum g) by apply HM. assert (H0 : 0 <= eta * Rsum g) by (apply Rmult_le_pos; lra). destruct (pnorm P).
  - destruct X as (-> & X). rewrite <- X. field. apply pow_nonzero. lra.
  - destruct X as (X1 & X2). rewrite Hs in X1, X2. pose proof (pos_INR (Z.to_nat (piter P))). assert (0 <= INR (Z.to_nat (piter P)) * (eta * Rsum g)) by (apply Rmult_le_pos; lra). replace (dot g ws' / Rsum ws' - self_mean g) with ((dot g ws' - self_mean g * Rsum ws') / Rsum ws') by (field; lra). rewrite X2, X1, Rmult_1_r. reflexivity.
Qed.
