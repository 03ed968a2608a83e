From Coq Require Import Reals Lra Lia FunctionalExtensionality.
From Verif Require Import Base Res Arith LogMath LogSpec LogLemmas GraphSpec GraphLemmas Spn SpnLemmas ProbSpec ProbLemmas FloatSpec FloatLemmas.
Local Open Scope R_scope.

Section Net.
Context {A : arith}.
Variable real : F A -> xreal.
Variables eps M B X : R.
Variables (net : network A) (net' : network XR) (N r : nat) (I : varset) (E : nat -> R).
Local Notation ch := (children net).
Hypothesis RA : rounding A real eps M.
Hypothesis Heps : 0 <= eps.
Hypothesis HB : bounded ch N.
Hypothesis Hr : (r < N)%nat.
Hypothesis HA : acyclic ch.
Hypothesis HX : exact_counterpart real net net' r I E.
Hypothesis HE : error_bound net r eps E.
Hypothesis HR : in_range net net' N r I eps M B X E.

Lemma same_ch : children net' = ch.
Proof. apply functional_extensionality. intros u. apply HX. Qed.
Lemma exact_nonneg : weights_nonneg net' r.
Proof.
  intros u w Hu Ek. rewrite same_ch in Hu. destruct HX as (Hc & Hn). specialize (Hn u Hu). rewrite Ek in Hn. rewrite (Hc u). destruct (nk (net u)) as [w0| |l]; try (destruct Hn; fail).
  destruct Hn as (Hne & L & Ew & ws & Es & Hw). split; auto. exists ws. split; auto. split; [|intros x Hx; apply Hw; auto].
  rewrite <- L. apply (f_equal (@length _)) in Ew. rewrite Es, !map_length in Ew. auto.
Qed.
Local Notation Pr := (P net' N I).
Lemma exact_values u : reach ch r u -> value net' N I u = Ok (xln (Pr u)) /\ 0 <= Pr u /\
  match nk (net' u) with KSum w => forall ws, w = map Fin ws -> Pr u = psum Pr (nch (net' u)) ws | KProd => Pr u = Rprod (map Pr (nch (net' u))) | KLeaf l => Pr u = pleaf l I end.
Proof.
  intros Hu. apply (P_gen net' N r); try rewrite same_ch; auto using exact_nonneg. intros v l Hv Ek. try rewrite same_ch in Hv. destruct HX as (_ & Hn). specialize (Hn v Hv). rewrite Ek in Hn.
  destruct (nk (net v)); try (destruct Hn; fail). destruct Hn as (x & y & _ & Hy & Hl & _). eauto.
Qed.
Lemma exact_small u : reach ch r u -> small B (xln (Pr u)).
Proof.
  intros Hu. destruct (exact_values u Hu) as (Ev & Hp & _). destruct HR as (_ & H1 & _). unfold xln in *. destruct (Rlt_dec 0 (Pr u)); [|exact Logic.I]. cbn. apply (H1 u); auto.
Qed.
Definition fval (u : nat) : F A := match value net N I u with Ok x => x | _ => fz 0 end.

Lemma forall2_weights {U V} (Rel : U -> V -> Prop) (f : nat * F A -> U) (g : nat * R -> V) cs : forall w ws, map real w = map Fin ws ->
  (forall c wi om, In c cs -> In om ws -> real wi = Fin om -> Rel (f (c, wi)) (g (c, om))) -> Forall2 Rel (map f (combine cs w)) (map g (combine cs ws)).
Proof.
  induction cs as [|c cs IH]; intros [|w0 w] [|q ws] Em H; try discriminate; try (constructor; fail). injection Em as E1 E2. cbn [combine map]. constructor.
  - apply H; auto; left; auto.
  - apply IH; auto. intros d wi om Hd Ho. apply H; right; auto.
Qed.
Lemma weighted_within c w omega : reach ch r c -> real w = Fin omega -> 0 <= omega <= 1 -> (0 < omega -> Rabs (ln omega) <= B) -> within (E c) (real (fval c)) (xln (Pr c)) ->
  1 <= M -> B + X + 1 <= M -> eps <= 1 / 8 -> 0 <= B ->
  within (E c + 2 * eps) (real (fadd (fval c) (flog w))) (xln (Pr c * omega)) /\ small (2 * B + X + 1) (real (fadd (fval c) (flog w))).
Proof.
  intros Hc Ew Ho Hl Wc M1 M2 He B0. destruct HR as (_ & _ & _ & R3 & _). pose proof (R3 c Hc) as EX. pose proof (exact_small c Hc) as Sc. destruct (HE c Hc) as (Ec0 & _). destruct (exact_values c Hc) as (_ & Pc & _).
  pose proof (log_within real eps M RA w omega Ew ltac:(lra)) as Wl.
  assert (Sl : small B (xln omega)) by (unfold xln; destruct (Rlt_dec 0 omega); [cbn; auto|exact Logic.I]).
  assert (S1 : small (B + E c) (real (fval c))) by exact (small_within _ _ _ _ Sc Wc). assert (S2 : small (B + eps) (real (flog w))) by exact (small_within _ _ _ _ Sl Wl).
  pose proof (add_within real eps M RA (E c) eps (fval c) (flog w) _ _ (small_le (B + E c) M _ ltac:(lra) S1) (small_le (B + eps) M _ ltac:(lra) S2) Wc Wl) as W.
  rewrite xadd_xln in W by lra. split; [eapply within_more; [|exact W]; lra|].
  assert (Sx : small (2 * B) (xln (Pr c * omega))).
  { rewrite <- xadd_xln by lra. destruct (xln (Pr c)) as [p| | |]; cbn in Sc |- *; try tauto; destruct (xln omega) as [q| | |]; cbn in Sl |- *; try tauto. apply abs_le_inv in Sc, Sl. apply Rabs_le. lra. }
  eapply small_le; [|eapply small_within; [exact Sx|exact W]]. lra.
Qed.

Lemma rounded_value : forall u, reach ch r u -> value net N I u = Ok (fval u) /\ within (E u) (real (fval u)) (xln (Pr u)).
Proof.
  apply (node_ind ch N r); auto. intros u Hu IH.
  destruct (value_stable net N r I HB Hr HA u N Hu (le_n N)) as (_ & _ & Ev). destruct (exact_values u Hu) as (_ & Hp & Eq).
  destruct HX as (Hc & Hn). specialize (Hn u Hu). destruct (HE u Hu) as (E0 & He). destruct HR as (B0 & R1 & R2 & R3 & R4). destruct (R4 u Hu) as (R5 & R6). pose proof (R3 u Hu) as EX.
  assert (G : exists x, evV net I (value net N I) u = Ok x /\ within (E u) (real x) (xln (Pr u))); [|destruct G as (x & Ex & Wx); unfold fval; rewrite Ev, Ex; auto].
  assert (Reach : forall c, In c (nch (net u)) -> reach ch r c) by (intros c Hc'; eapply reach_snoc; eauto). unfold children in IH.
  unfold evV. rewrite (Hc u) in Eq. destruct (nk (net u)) as [w| |l]; destruct (nk (net' u)) as [w'| |l'] eqn:Ek'; try (destruct Hn; fail).
  - destruct Hn as (Hne & L & Ew & ws & Es & Hw). rewrite (Eq ws Es). set (cs := nch (net u)) in *. assert (Lw : length ws = length cs) by (rewrite <- L; apply (f_equal (@length _)) in Ew; rewrite Es, !map_length in Ew; auto).
    assert (n1 : 1 <= INR (length cs)) by (destruct cs as [|c0 cs0]; [congruence|]; cbn [length]; rewrite S_INR; pose proof (pos_INR (length cs0)); lra).
    assert (e8 : eps <= 1 / 8) by nra. assert (X0 : 0 <= X) by lra.
    assert (M1 : 1 <= M) by nra. assert (M2 : 2 * B + X + 1 <= M) by nra. assert (M3 : INR (length cs) + 2 <= M) by nra.
    assert (Em : map real w = map Fin ws) by congruence.
    assert (Wt : forall c wi om, In c cs -> In om ws -> real wi = Fin om -> within (E c + 2 * eps) (real (fadd (fval c) (flog wi))) (xln (Pr c * om)) /\ small M (real (fadd (fval c) (flog wi)))).
    { intros c wi om Hc' Ho Er. destruct (weighted_within c wi om) as (W1 & W2); auto; [intros Hpos; eapply (R2 u ws); eauto; rewrite Ek', Es; reflexivity|apply (IH c Hc')|lra|]. split; auto. eapply small_le; [exact M2|auto]. }
    unfold sumVals, mapi. rewrite (mapi_zip _ (fun c wi => fadd (fval c) (flog wi)) w _ w []); [|reflexivity|auto|intros i c wi Hc' Hwi; rewrite (proj1 (IH c Hc')); cbn [bind]; unfold idx; rewrite Hwi; reflexivity].
    cbn [bind]. unfold sumCompute. set (xs := map (fun cw => fadd (fval (fst cw)) (flog (snd cw))) (combine cs w)).
    assert (Lx : length xs = length cs) by (unfold xs; rewrite map_length, combine_length; lia).
    assert (Sm : forall x, In x xs -> small M (real x)).
    { intros x Hx. pose proof (forall2_weights (fun x (_ : unit) => small M (real x)) (fun cw => fadd (fval (fst cw)) (flog (snd cw))) (fun _ => tt) cs w ws Em (fun c wi om H1 H2 H3 => proj2 (Wt c wi om H1 H2 H3))) as F.
      fold xs in F. revert Hx. clear -F. revert F. generalize (map (fun _ : nat * R => tt) (combine cs ws)). induction xs as [|y ys IHy]; intros us F; [intros []|]. inversion F; subst. intros [<-|Hx]; eauto. }
    destruct (lse_within real eps M RA Heps xs) as (x & Ex & Wx); [destruct xs; [cbn in Lx; rewrite <- Lx in n1; cbn in n1; lra|discriminate]|auto|auto|rewrite Lx; auto|rewrite Lx; auto|]. exists x. split; auto.
    assert (Hc0 : exists c0, In c0 cs) by (destruct cs as [|c0 cs0]; [congruence|]; exists c0; left; auto). destruct Hc0 as (c0 & Hc0).
    set (k := E u - (8 * INR (length cs) + 2) * eps). assert (K : forall c, In c cs -> E c + 2 * eps <= k) by (intros c Hc'; specialize (He c Hc'); unfold k; lra).
    assert (k0 : 0 <= k). { pose proof (K c0 Hc0). destruct (HE c0 (Reach c0 Hc0)) as (E00 & _). lra. }
    assert (Wl : within k (xln (Rsum (map lin (map real xs)))) (xln (Rsum (map lin (map (fun cw => xln (Pr (fst cw) * snd cw)) (combine cs ws)))))).
    { apply lse_close; auto. unfold xs. rewrite map_map. apply forall2_weights; auto. intros c wi om H1 H2 H3. cbn [fst snd]. eapply within_more; [apply (K c H1)|]. apply (Wt c wi om); auto. }
    assert (Ep : Rsum (map lin (map (fun cw => xln (Pr (fst cw) * snd cw)) (combine cs ws))) = psum Pr cs ws).
    { unfold psum. rewrite map_map. f_equal. apply map_ext_in. intros (c & om) Hin. cbn [fst snd]. apply in_combine_wt in Hin as (H1 & H2). apply lin_xln. apply Rmult_le_pos; [apply (exact_values c (Reach c H1))|apply Hw; auto]. }
    rewrite Ep in Wl. rewrite Lx in Wx.
    destruct (real x) as [v| | |], (xln (Rsum (map lin (map real xs)))) as [v1| | |]; cbn in Wx; try tauto; destruct (xln (psum Pr cs ws)) as [v2| | |]; cbn in Wl |- *; try tauto.
    apply abs_le_inv in Wx, Wl. apply Rabs_le. unfold k in *. lra.
  - rewrite Eq. set (cs := nch (net u)) in *. unfold mapi. rewrite (mapi_map _ fval) by (intros i c Hc'; apply (IH c Hc')). cbn [bind]. eexists. split; [reflexivity|]. unfold prodCompute.
    rewrite <- (Rmult_1_l (Rprod _)), <- fold_xadd_xln; [|lra|intros x Hx; apply in_map_iff in Hx as (c & <- & H1); apply (exact_values c (Reach c H1))]. rewrite map_map.
    eapply within_more; [exact He|]. rewrite <- (Rplus_0_l (Rsum (map E cs))). pose proof (pos_INR (length cs)) as Pn. assert (X0 : 0 <= X) by lra.
    eapply (prod_within real eps M RA Heps (B + X) E fval (fun c => xln (Pr c)) cs ltac:(lra)) with (k := 0%nat).
    + intros c H1. split; [apply (IH c H1)|]. eapply small_le; [|apply (small_within _ _ _ _ (exact_small c (Reach c H1)) (proj2 (IH c H1)))]. pose proof (R3 c (Reach c H1)). lra.
    + rewrite (ra_zero _ _ _ _ RA), xln_one. cbn. rewrite Rminus_diag_eq, Rabs_R0 by auto. lra.
    + rewrite (ra_zero _ _ _ _ RA). cbn. rewrite Rabs_R0. lra.
    + cbn [plus]. destruct cs as [|c0 cs0] eqn:Ecs; [simpl INR; nra|]. rewrite <- Ecs in *. assert (1 <= INR (length cs)) by (rewrite Ecs; cbn [length]; rewrite S_INR; pose proof (pos_INR (length cs0)); lra). assert (eps <= 1) by nra. nra.
    + nra.
  - destruct Hn as (x & y & Ex & Ey & Hl & W). rewrite Ex. cbn [orPanic]. exists x. split; auto. rewrite Eq. unfold pleaf. rewrite Ey. rewrite xln_lin by auto. auto.
Qed.
End Net.
