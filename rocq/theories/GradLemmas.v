From Coq Require Import Reals Lra FunctionalExtensionality.
From Verif Require Import Base Res Arith LogMath LogSpec LogLemmas GraphSpec GraphLemmas Topo TopoLemmas Search SearchLemmas
  Storer StorerSpec StorerLemmas Spn DP SpnSpec SpnLemmas ProbSpec ProbLemmas Walk WalkLemmas Struct StructSpec StructLemmas
  Derive DeriveSpec DiffLemmas DeriveLemmas.

(** Tickets and handles. *)
Section Tick.
Context {A : arith}.
Local Notation F := (F A).

Lemma ticketFor_ok (st : storer F) tk : wf F st -> ((0 <= tk)%Z -> snd (table F st tk) = true) ->
  let (st1, tk1) := ticketFor st tk in
  wf F st1 /\ tk1 = (if (tk <? 0)%Z then tickets F st else tk) /\ (exists t, tables F st1 tk1 = Some t) /\
  (forall k x l, k <> tk1 \/ (0 <= tk)%Z -> cval F st1 k x l = cval F st k x l) /\
  (forall x l, (tk < 0)%Z -> cval F st1 tk1 x l = None).
Proof.
  intros W Htk. unfold ticketFor. destruct (Z.ltb_spec tk 0).
  - pose proof (newTicket_ok F st W) as H1. destruct (newTicket F st) as [s1 k1].
    destruct H1 as (H1 & H2 & H3 & H5 & H4). split; auto. split; auto. split; auto. split; auto.
    intros k x l' [Hk|Hk]; [auto|lia].
  - split; auto. split; auto. split; auto. 2:{ split; auto. intros; lia. }
    specialize (Htk H). unfold table in Htk. simpl in Htk. destruct (tables F st tk) as [t|]; eauto. discriminate.
Qed.

Lemma tEntry_handle (s : storer F) k N l : tEntry F (fz 0) s (tables F s k) N l = sEntry F (fz 0) s k N l.
Proof. unfold sEntry. destruct (tables F s k); reflexivity. Qed.

Lemma entry_of_cval (s s' : storer F) k N l : cval F s k N l = cval F s' k N l -> sEntry F (fz 0) s k N l = sEntry F (fz 0) s' k N l.
Proof. intros H. rewrite !sEntry_cval, H. auto. Qed.
End Tick.

(** C27 *)
Lemma deriveSPN_l (net : network XR) N r I d tk itk (st : storer xreal) ops :
  run_state (ustep xreal (Fin 0)) (newStorer xreal) ops = Some st ->
  bounded (children net) N -> r < N -> acyclic (children net) ->
  (d = UseQueue /\ uniform_depth (children net) r \/ tree (children net) r) ->
  leaves_childless net -> weights_nonneg net r -> leaf_values net I r ->
  ((0 <= tk)%Z -> snd (table xreal st tk) = true /\
     forall u, reach (children net) r u -> snd (sSingle xreal (Fin 0) st tk u) = false) ->
  (forall u, reach (children net) r u -> exists v, value net N I u = Ok v /\ sSingle xreal (Fin 0) st itk u = (v, true)) ->
  itk <> (if (tk <? 0)%Z then tickets xreal st else tk) ->
  exists st' tk', @deriveSPN XR net d (S N) r st tk itk = Ok (st', (r, tk')) /\
    tk' = (if (tk <? 0)%Z then tickets xreal st else tk) /\
    (forall u, reach (children net) r u -> exists D, (0 <= D)%R /\
       sSingle xreal (Fin 0) st' tk' u = (xln D, true) /\ node_derivative net I N r u D) /\
    (forall k x l, k <> tk' -> sEntry xreal (Fin 0) st' k x l = sEntry xreal (Fin 0) st k x l).
Proof.
  intros Hst Hb Hr Ha Hshape HL HW HV Htk Hinf Hne.
  pose proof (wf_run xreal (Fin 0) ops _ _ (wf_new xreal) Hst) as W.
  pose proof (@ticketFor_ok XR st tk W (fun H => proj1 (Htk H))) as HT. unfold deriveSPN.
  destruct (@ticketFor XR st tk) as [st1 tk1]. destruct HT as (W1 & E1 & (t & Et) & Ho & Hnew).
  change (F XR) with xreal in *. rewrite <- E1 in Hne.
  assert (Hinf1 : forall u, reach (children net) r u -> cval xreal st1 itk u 0 = Some (xln (P net N I u))).
  { intros u Hu. rewrite (Ho itk u 0%Z) by auto. destruct (Hinf u Hu) as (v & Ev & Es). unfold sSingle in Es.
    rewrite sEntry_cval in Es. destruct (P_gen net N r Hb Hr Ha HW I HV u Hu) as (Ev' & _).
    rewrite Ev' in Ev. injection Ev as <-. destruct (cval xreal st itk u 0); [|discriminate]. injection Es as ->. auto. }
  assert (Hti : exists ti, tables xreal st1 itk = Some ti).
  { specialize (Hinf1 r (reach_refl _ _)). unfold cval, cnode in Hinf1. destruct (tables xreal st1 itk); eauto. discriminate. }
  destruct Hti as (ti & Hti). unfold table. rewrite Et, Hti. cbn [fst].
  assert (HI1 : @tinv XR tk1 st1 st1) by (split; auto).
  change (@fz XR 0) with (Fin 0).
  destruct (@storeVia_ok XR tk1 t st1 Et st1 r (Fin 0) HI1) as (st2 & E2 & HI2 & Hs2 & Ho2). change (F XR) with xreal in *.
  rewrite E2. cbn [bind].
  destruct (walk_fold (inner net) d N r (inner_bounded net N Hb) Hr) as (calls & Es & He & Hfold).
  rewrite Hfold.
  assert (Htop : topdown net r calls).
  { destruct Hshape as [[-> Hu]|Htr]; [eapply topdown_queue; eauto|eapply topdown_tree; eauto]. }
  assert (Hempty : forall c, reach (children net) r c -> @tget XR tk1 st1 c = None).
  { intros c Hc. unfold tget. change (F XR) with xreal. destruct (Z.lt_ge_cases tk 0); [apply Hnew; auto|].
    rewrite Ho by auto. assert (Ek : tk1 = tk) by (rewrite E1; destruct (Z.ltb_spec tk 0); lia). rewrite Ek.
    destruct (Htk H) as (_ & Hz). specialize (Hz c Hc). unfold sSingle in Hz. rewrite sEntry_cval in Hz.
    destruct (cval xreal st tk c 0); auto. discriminate. }
  assert (HJ : J net N r I tk1 st1 [] st2).
  { split; auto. exists (fun _ => 0%R). cbv zeta. simpl flat_map. split; [|split].
    - intros c Hc. unfold has, acc. cbn [existsb fst snd map Rsum]. destruct (Nat.eqb_spec r c) as [->|Hn].
      + change (F XR) with xreal in *. rewrite Hs2. simpl. unfold ind. rewrite Nat.eqb_refl.
        replace (1 * 1 + 0)%R with 1%R by lra. rewrite xln_one. auto.
      + change (F XR) with xreal in *. rewrite Ho2 by auto. apply Hempty; auto.
    - intros p [<-|[]]. simpl. lra.
    - intros p []. }
  destruct (deriveLoop_ok net N r I Hb Hr Ha HW HV HL tk1 itk t ti st1 Et Hti Hne Hinf1 calls st2 He Htop HJ) as (st3 & E3 & HJ3).
  change (F XR) with xreal in *. rewrite E3. cbn [bind].
  destruct (deriveLoop_final net N r I Hb Hr Ha HW HV HL tk1 st1 calls st3 He Htop HJ3) as ((_ & _ & _ & Ho3) & HD).
  exists st3, tk1. split; auto. split; auto. split.
  - intros u Hu. destruct (HD u Hu) as (D & H0 & H1 & H2). exists D. split; auto. split; auto.
    unfold sSingle. rewrite sEntry_cval. unfold tget in H1. change (F XR) with xreal in H1. rewrite H1. auto.
  - intros k x l Hk. rewrite !sEntry_cval. change (F XR) with xreal in *. rewrite Ho3 by auto. rewrite Ho by auto. auto.
Qed.

Lemma map_inj_Fin : forall l l', map Fin l = map Fin l' -> l = l'.
Proof.
  induction l as [|a l IH]; intros [|b l'] H; try discriminate; auto. simpl in H. injection H as -> H. f_equal. auto.
Qed.

(** C28: the derivative with respect to a weight. *)
Section Weight.
Variable net : network XR.
Variables N r : nat.
Variable I : varset.
Local Notation ch := (children net).
Hypothesis Hb : bounded ch N.
Hypothesis Hr : r < N.
Hypothesis Ha : acyclic ch.
Hypothesis HW : weights_nonneg net r.
Hypothesis HV : leaf_values net I r.
Hypothesis HL : leaves_childless net.
Local Notation P := (P net N I).
Local Open Scope R_scope.

Definition wsum (cs : list nat) (w : list R) : R := Rsum (map (fun cw => P (fst cw) * snd cw) (combine cs w)).

Lemma wsum_affine : forall cs w i c, nth_error cs i = Some c -> length w = length cs ->
  exists a, forall t, wsum cs (firstn i w ++ t :: skipn (S i) w) = a + P c * t.
Proof.
  induction cs as [|d cs IH]; intros w i c Hc Hl; [destruct i; discriminate|].
  destruct w as [|x w]; [discriminate|]. destruct i as [|i].
  - injection Hc as ->. exists (wsum cs w). intros t. unfold wsum. simpl. lra.
  - simpl in Hl. destruct (IH w i c Hc ltac:(lia)) as (a & Ea). exists (P d * x + a). intros t.
    specialize (Ea t). unfold wsum in *. cbn [firstn app combine map Rsum fst snd]. 
    change (skipn (S (S i)) (x :: w)) with (skipn (S i) w). rewrite Ea. lra.
Qed.

Lemma lval_weight u ws i c t : reach ch r u -> nk (net u) = @KSum XR (map Fin ws) -> nth_error (nch (net u)) i = Some c ->
  length ws = length (nch (net u)) ->
  let g := wsum (nch (net u)) (firstn i ws ++ t :: skipn (S i) ws) in
  forall f x, reach ch r x -> (N <= f)%nat ->
    lval (set_weight net u i t) I (fun _ => None) f x = lval net I (set_one u g) f x /\
    (~ reach ch x u -> lval (set_weight net u i t) I (fun _ => None) f x = P x).
Proof.
  intros Hu EK Hc Hl g.
  apply (fuel_ind ch N r (fun f x => lval (set_weight net u i t) I (fun _ => None) f x = lval net I (set_one u g) f x /\
    (~ reach ch x u -> lval (set_weight net u i t) I (fun _ => None) f x = P x))); auto.
  intros f x Hx IH. destruct (Nat.eq_dec x u) as [->|Hne].
  - split; [|intros H; exfalso; apply H; apply reach_refl]. cbn [lval].
    assert (Eu : set_weight net u i t u = mkNode (@KSum XR (firstn i (map Fin ws) ++ Fin t :: skipn (S i) (map Fin ws))) (nch (net u)))
      by (unfold set_weight; rewrite Nat.eqb_refl, EK; reflexivity).
    rewrite Eu. cbn [nk nch]. unfold set_one. rewrite Nat.eqb_refl. unfold g, wsum.
    rewrite firstn_map, skipn_map. change (@Fin t :: map Fin (skipn (S i) ws)) with (map Fin (t :: skipn (S i) ws)).
    rewrite <- map_app, combine_map_r, map_map. apply Rsum_ext. intros (d, a) Hin. cbn [fst snd unfin].
    apply in_combine_l in Hin. rewrite (proj2 (IH d Hin)); auto.
  - assert (Hnb : Nat.eqb x u = false) by (apply Nat.eqb_neq; auto).
    destruct (P_gen net N r Hb Hr Ha HW I HV x Hx) as (_ & _ & E).
    assert (Ex : set_weight net u i t x = net x) by (unfold set_weight; rewrite Hnb; reflexivity).
    cbn [lval]. rewrite Ex. unfold set_one at 1. rewrite Hnb.
    destruct (nk (net x)) as [w| |l] eqn:EKx.
    + split.
      * apply Rsum_ext. intros (d, a) Hin. apply in_combine_l in Hin. cbn [fst snd]. rewrite (proj1 (IH d Hin)); auto.
      * intros Hn. destruct (HW x w Hx EKx) as (_ & ws' & -> & _ & _). rewrite (E ws' eq_refl). unfold psum.
        rewrite combine_map_r, map_map. apply Rsum_ext. intros (d, a) Hin. cbn [fst snd unfin].
        apply in_combine_l in Hin. rewrite (proj2 (IH d Hin)); auto. intros Hd. apply Hn. eapply reach_step; eauto.
    + split.
      * apply Rprod_ext. intros d Hin. apply IH; auto.
      * intros Hn. rewrite E. apply Rprod_ext. intros d Hin. apply IH; auto. intros Hd. apply Hn. eapply reach_step; eauto.
    + split; auto.
Qed.

Lemma weight_derivative_l u ws i c w D : reach ch r u -> nk (net u) = @KSum XR (map Fin ws) ->
  nth_error (nch (net u)) i = Some c -> nth_error ws i = Some w -> node_derivative net I N r u D ->
  weight_derivative net I N r u i w (P c * D).
Proof.
  intros Hu EK Hc Hw HD.
  destruct (HW u _ Hu EK) as (_ & ws' & Ews & HLen & _).
  assert (ws' = ws) by (apply (map_inj_Fin); auto). subst ws'.
  destruct (wsum_affine (nch (net u)) ws i c Hc ltac:(auto)) as (a & Ea).
  unfold weight_derivative.
  eapply (derivable_ext (comp (fun t => lval net I (set_one u t) N r) (fun t => a + P c * t))).
  { intros t. unfold comp. rewrite <- Ea. symmetry. apply (lval_weight u ws i c t Hu EK Hc); auto. apply reach_refl. }
  rewrite (Rmult_comm (P c) D). apply derivable_pt_lim_comp.
  - pose proof (derivable_pt_lim_mult (fun _ => P c) id w 0 1 (derivable_pt_lim_const (P c) w) (derivable_pt_lim_id w)) as H1.
    pose proof (derivable_pt_lim_plus (fun _ => a) _ w 0 _ (derivable_pt_lim_const a w) H1) as H2. unfold id in H2.
    replace (0 + (0 * w + P c * 1)) with (P c) in H2 by lra. exact H2.
  - unfold node_derivative in HD. rewrite (lval_none net N r I) in HD by auto.
    replace (a + P c * w) with (P u); auto. rewrite <- Ea.
    assert (Ew : firstn i ws ++ w :: skipn (S i) ws = ws).
    { clear - Hw. revert i Hw. induction ws as [|x ws IH]; intros [|i] Hw; try discriminate.
      - injection Hw as ->. reflexivity.
      - simpl. f_equal. apply (IH i). auto. }
    rewrite Ew. destruct (P_gen net N r Hb Hr Ha HW I HV u Hu) as (_ & _ & E). rewrite EK in E. rewrite (E ws eq_refl). reflexivity.
Qed.
End Weight.
