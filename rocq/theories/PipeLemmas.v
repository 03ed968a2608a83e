(** StoreInference, DeriveSPN and DeriveWeights one after the other. *)
From Coq Require Import Reals Lra.
From Verif Require Import Base Res Arith LogMath LogSpec LogLemmas GraphSpec GraphLemmas Topo TopoLemmas Search SearchLemmas
  Storer StorerSpec StorerLemmas Spn DP SpnSpec SpnLemmas Leaves ProbSpec ProbLemmas ProbCases Walk WalkLemmas
  Struct StructSpec StructLemmas Derive DeriveSpec DiffLemmas DeriveLemmas GradLemmas StepLemmas DeriveCases.

Section Runs.
Context {A : arith}.
Local Notation F := (F A).
Definition runs (s s' : storer F) : Prop := exists ops, run_state (ustep F (fz 0)) s ops = Some s'.

Lemma runs_refl s : runs s s.
Proof. exists []. reflexivity. Qed.
Lemma runs_trans a b c : runs a b -> runs b c -> runs a c.
Proof.
  intros (o1 & H1) (o2 & H2). exists (o1 ++ o2). revert a H1. induction o1 as [|o o1 IH]; intros a H1; simpl in *.
  - injection H1 as ->. auto.
  - destruct (ustep F (fz 0) a o) as [[s1 x]|]; [|discriminate]. auto.
Qed.

Variable t : option nat.
(** From [s] to [s'], the handle staying allocated. *)
Definition keeps (s s' : storer F) : Prop := runs s s' /\ allocated F s' t = true /\ tickets F s' = tickets F s.

Lemma storeAt_keeps s u i v s' : allocated F s t = true -> storeAt s t u i v = Ok s' -> keeps s s'.
Proof.
  unfold storeAt. intros Ha E. destruct (tStore F s t u i v) as [[s1 b]|] eqn:Es; [|discriminate]. injection E as <-. split; [|split].
  - exists [UTStore F t u i v]. simpl. rewrite Ha, Es. reflexivity.
  - unfold allocated in *. destruct t as [r|]; auto. rewrite (tStore_tnext F _ _ _ _ _ _ _ Es). auto.
  - apply (tStore_tables F _ _ _ _ _ _ _ Es).
Qed.
Lemma storeVia_keeps s u v s' : allocated F s t = true -> storeVia s t u v = Ok s' -> keeps s s'.
Proof. intros Ha E. apply (storeAt_keeps s u 0%Z v s' Ha). exact E. Qed.

Lemma foldi_keeps {X} (f : nat -> storer F -> X -> res (storer F)) : 
  (forall i s c s', allocated F s t = true -> f i s c = Ok s' -> keeps s s') ->
  forall l i s s', allocated F s t = true -> foldi_from i f l s = Ok s' -> keeps s s'.
Proof.
  intros Hf. induction l as [|c l IH]; intros i s s' Ha E; simpl in E.
  - injection E as <-. split; [apply runs_refl|auto].
  - destruct (f i s c) as [s1| |] eqn:E1; try discriminate. destruct (Hf i s c s1 Ha E1) as (H1 & H2 & H5).
    destruct (IH _ _ _ H2 E) as (H3 & H4 & H6). split; [eapply runs_trans; eauto|]. split; auto. congruence.
Qed.
Lemma foldr_keeps {X} (f : storer F -> X -> res (storer F)) : 
  (forall s c s', allocated F s t = true -> f s c = Ok s' -> keeps s s') ->
  forall l s s', allocated F s t = true -> foldr_ f l s = Ok s' -> keeps s s'.
Proof.
  intros Hf. induction l as [|c l IH]; intros s s' Ha E; simpl in E.
  - injection E as <-. split; [apply runs_refl|auto].
  - destruct (f s c) as [s1| |] eqn:E1; try discriminate. destruct (Hf s c s1 Ha E1) as (H1 & H2 & H5).
    destruct (IH _ _ H2 E) as (H3 & H4 & H6). split; [eapply runs_trans; eauto|]. split; auto. congruence.
Qed.
End Runs.

Section Pipe.
Context {A : arith}.
Local Notation F := (F A).
Variable net : network A.

Lemma ticketFor_runs (st : storer F) tk : runs st (fst (ticketFor st tk)).
Proof.
  unfold ticketFor. destruct (tk <? 0)%Z; [|apply runs_refl]. exists [US F (ONew F)]. reflexivity.
Qed.

Lemma handle_allocated (st : storer F) k : wf F st -> allocated F st (fst (table F st k)) = true.
Proof.
  intros W. unfold table. cbn [fst]. destruct (tables F st k) as [t|] eqn:E; [|reflexivity]. eapply allocated_table; eauto.
Qed.

Lemma storeInference_runs fuel r I tk (st st' : storer F) res : wf F st -> nch (net r) <> [] ->
  storeInference net fuel r I tk st = Ok (st', res) -> runs st st' /\ tickets F st' = tickets F (fst (ticketFor st tk)).
Proof.
  intros W Hne. unfold storeInference. destruct (Nat.eqb_spec (length (nch (net r))) 0) as [H0|_].
  { apply length_zero_iff_nil in H0. contradiction. }
  pose proof (ticketFor_runs st tk) as H0. unfold ticketFor in *.
  assert (W1 : wf F (fst (if (tk <? 0)%Z then newTicket F st else (st, tk)))).
  { destruct H0 as (ops & H0). eapply wf_run; eauto. }
  destruct (if (tk <? 0)%Z then newTicket F st else (st, tk)) as [st1 tk1]. cbn [fst] in *.
  destruct (topSortTarjan (children net) fuel r) as [ord|]; [|discriminate].
  pose proof (handle_allocated st1 tk1 W1) as Ha. set (t := fst (table F st1 tk1)) in *. clearbody t.
  assert (X : forall ord s p, allocated F s t = true -> storeLoop net I t ord s = Ok p -> runs s (fst p) /\ tickets F (fst p) = tickets F s).
  { induction ord0 as [|u ord0 IH]; intros s p Hs E; simpl in E; [injection E as <-; split; [apply runs_refl|auto]|].
    destruct (storeNode net I t s u) as [[s1 go]| |] eqn:E1; try discriminate. cbn [bind] in E.
    assert (K : keeps t s s1).
    { unfold storeNode in E1. destruct (nk (net u)) as [w| |l].
      - destruct (storeSumVals s t 0 w (nch (net u))) as [[vs|]| |]; try discriminate; cbn [bind] in E1.
        + destruct (if Nat.eqb _ 0 then _ else _) as [v| |]; try discriminate. cbn [bind] in E1.
          destruct (storeVia s t u v) as [s2| |] eqn:E2; try discriminate. injection E1 as <- _. eapply storeVia_keeps; eauto.
        + injection E1 as <- _. split; [apply runs_refl|auto].
      - destruct (storeVia s t u _) as [s2| |] eqn:E2; try discriminate. injection E1 as <- _. eapply storeVia_keeps; eauto.
      - destruct (orPanic (lvalue l I)) as [v| |]; try discriminate. cbn [bind] in E1.
        destruct (storeVia s t u v) as [s2| |] eqn:E2; try discriminate. injection E1 as <- _. eapply storeVia_keeps; eauto. }
    destruct K as (K1 & K2 & K3). destruct go; [|injection E as <-; auto]. destruct (IH _ _ K2 E) as [H1 H2].
    split; [eapply runs_trans; eauto|congruence]. }
  destruct (storeLoop net I t ord st1) as [[st2 go]| |] eqn:E; try discriminate. cbn [bind]. intros E2.
  destruct (X _ _ _ Ha E) as [HX HX2]. cbn [fst] in HX, HX2.
  assert (st2 = st') by (destruct go; injection E2 as <- _; auto). subst. split; auto. eapply runs_trans; eauto.
Qed.

Lemma walk_keeps N d r t (proc : storer F -> nat -> res (storer F)) s s' : bounded (children net) N -> r < N ->
  (forall s c s', allocated F s t = true -> proc s c = Ok s' -> keeps t s s') ->
  allocated F s t = true -> walkFrom (inner net) d proc (S N) r s = Ok s' -> keeps t s s'.
Proof.
  intros Hb Hr Hp Ha E. destruct (walk_fold (inner net) d N r (inner_bounded net N Hb) Hr) as (calls & _ & _ & HW).
  rewrite HW in E. eapply foldr_keeps; eauto.
Qed.

Lemma deriveSPN_runs N d r tk itk (st st' : storer F) res : bounded (children net) N -> r < N -> wf F st ->
  deriveSPN net d (S N) r st tk itk = Ok (st', res) -> runs st st' /\ tickets F st' = tickets F (fst (ticketFor st tk)).
Proof.
  intros Hb Hr W. unfold deriveSPN. pose proof (ticketFor_runs st tk) as H0.
  assert (W1 : wf F (fst (ticketFor st tk))) by (destruct H0 as (ops & H0); eapply wf_run; eauto).
  destruct (ticketFor st tk) as [st1 tk1]. cbn [fst] in *.
  pose proof (handle_allocated st1 tk1 W1) as Ha. set (t := fst (table F st1 tk1)) in *. clearbody t.
  destruct (storeVia st1 t r (fz 0)) as [st2| |] eqn:E1; try discriminate. cbn [bind].
  destruct (storeVia_keeps t st1 r (fz 0) st2 Ha E1) as (K1 & K2 & K3).
  destruct (walkFrom _ _ _ _ _ _) as [st3| |] eqn:E2; try discriminate. cbn [bind]. intros E. injection E as <- _.
  assert (K : keeps t st2 st3).
  2:{ destruct K as (K4 & _ & K5). split; [|congruence]. eapply runs_trans; [eauto|]. eapply runs_trans; eauto. }
  eapply walk_keeps in E2; eauto. intros s c s' Hs. unfold deriveNode, foldi.
  destruct (nk (net c)) as [w| |l]; apply foldi_keeps; auto; intros i s0 x s1 Hs0 E3; cbv beta in E3;
    destruct (tSingle F (fz 0) s0 t x) as [v e].
  - destruct (idx w i) as [wi| |]; try discriminate. eapply storeVia_keeps; eauto.
  - eapply storeVia_keeps; eauto.
  - eapply storeVia_keeps; eauto.
Qed.
End Pipe.

(** The three calls on one storage object. *)
Lemma pipeline_l (net : network XR) N r I d (st0 : storer xreal) ops :
  run_state (ustep xreal (Fin 0)) (newStorer xreal) ops = Some st0 ->
  bounded (children net) N -> r < N -> acyclic (children net) -> siblings_ok (children net) ->
  (d = UseQueue /\ uniform_depth (children net) r \/ tree (children net) r) ->
  leaves_childless net -> sums_nonempty net -> nch (net r) <> [] -> weights_nonneg net r -> leaf_values net I r ->
  forall d2, exists st1 itk st2 dtk st3 wtk,
    storeInference net (2 * N + 1) r I (-1) st0 = Ok (st1, (Some r, itk)) /\
    @deriveSPN XR net d (S N) r st1 (-1) itk = Ok (st2, (r, dtk)) /\
    @deriveWeights XR net d2 (S N) r st2 (-1) dtk itk = Ok (st3, (r, wtk)) /\
    (forall u ws i w, reach (children net) r u -> nk (net u) = @KSum XR (map Fin ws) -> nth_error ws i = Some w ->
       exists D, (0 <= D)%R /\ sEntry xreal (Fin 0) st3 wtk u (Z.of_nat i) = (xln D, true) /\ weight_derivative net I N r u i w D).
Proof.
  intros Hst Hb Hr Ha Hs Hd HL HS Hne HW HV d2.
  pose proof (wf_run xreal (Fin 0) _ _ _ (wf_new xreal) Hst) as W0.
  destruct (@storeInference_l XR net N r I (-1) st0 ops Hst Hb Hr Ha Hs HL HS Hne ltac:(lia)) as [[HP _]|(st1 & itk & E1 & Ei & Hv & Ho1 & _)].
  { destruct (P_gen net N r Hb Hr Ha HW I HV r (reach_refl _ _)) as (Ev & _). rewrite Ev in HP. discriminate. }
  simpl in Ei. change (F XR) with xreal in *. change (@fz XR 0) with (Fin 0) in *.
  destruct (@storeInference_runs XR net _ _ _ _ _ _ _ W0 Hne E1) as ((o1 & Hr1) & T1). simpl in T1.
  assert (Hst1 : run_state (ustep xreal (Fin 0)) (newStorer xreal) (ops ++ o1) = Some st1).
  { clear - Hst Hr1. revert Hst. generalize (newStorer xreal). induction ops as [|o ops IH]; intros s H; simpl in *; [injection H as ->; exact Hr1|].
    destruct (ustep xreal (Fin 0) s o) as [[s1 x]|]; [|discriminate]. auto. }
  destruct (deriveSPN_l net N r I d (-1) itk st1 _ Hst1 Hb Hr Ha Hd HL HW HV ltac:(intros; exfalso; lia) Hv) as (st2 & dtk & E2 & Ed & Hder & Ho2).
  { simpl. lia. }
  simpl in Ed.
  pose proof (wf_run xreal (Fin 0) _ _ _ (wf_new xreal) Hst1) as W1.
  destruct (@deriveSPN_runs XR net N d r (-1) itk st1 st2 (r, dtk) Hb Hr W1 E2) as ((o2 & Hr2) & T2). simpl in T2.
  assert (Hst2 : run_state (ustep xreal (Fin 0)) (newStorer xreal) ((ops ++ o1) ++ o2) = Some st2).
  { clear - Hst1 Hr2. revert Hst1. generalize (newStorer xreal). induction (ops ++ o1) as [|o l IH]; intros s H; simpl in *; [injection H as ->; exact Hr2|].
    destruct (ustep xreal (Fin 0) s o) as [[s1 x]|]; [|discriminate]. auto. }
  assert (Hv2 : forall u, reach (children net) r u -> exists v, value net N I u = Ok v /\ sSingle xreal (Fin 0) st2 itk u = (v, true)).
  { intros u Hu. destruct (Hv u Hu) as (v & H1 & H2). exists v. split; auto. unfold sSingle in *. rewrite Ho2; auto. lia. }
  destruct (deriveWeights_real net N r I d2 st2 _ (-1) dtk itk Hst2 Hb Hr Ha HL HW HV ltac:(intros; exfalso; lia)
    ltac:(simpl; lia) ltac:(simpl; lia) Hv2 Hder) as (st3 & E3 & Hfin).
  exists st1, itk, st2, dtk, st3, (tickets xreal st2). split; auto.
Qed.

Lemma wnet_pipe_case :
  bounded (children (wnet wl5)) 6 /\ acyclic (children (wnet wl5)) /\ siblings_ok (children (wnet wl5)) /\
  uniform_depth (children (wnet wl5)) 0 /\ leaves_childless (wnet wl5) /\ sums_nonempty (wnet wl5) /\ nch (wnet wl5 0) <> [] /\
  weights_nonneg (wnet wl5) 0 /\ leaf_values (wnet wl5) (fun _ => None) 0.
Proof.
  destruct wnet_case2 as (Hb & Ha & HW & _). split; auto. split; auto. split.
  { apply (graded_siblings_ok _ (fun u => match u with 0 => 0 | 1 | 2 => 1 | _ => 2 end)).
    intros u c. unfold children. destruct u as [|[|[|[|[|u]]]]]; simpl; intros H; intuition (subst; simpl; lia). }
  split; [apply wnet_uniform|]. split; [apply wnet_leaves_childless|]. split.
  { intros u w. destruct u as [|[|[|[|[|u]]]]]; simpl; discriminate. }
  split; [discriminate|]. split; auto. apply wnet_leaf_values.
Qed.

Lemma wnet_tables : exists ops (st : storer xreal), run_state (ustep xreal (Fin 0)) (newStorer xreal) ops = Some st /\
  (forall u, reach (children (wnet wl5)) 0 u -> exists v, value (wnet wl5) 6 (fun _ => None) u = Ok v /\ sSingle xreal (Fin 0) st 0 u = (v, true)) /\
  (forall u, reach (children (wnet wl5)) 0 u -> exists D, (0 <= D)%R /\ sSingle xreal (Fin 0) st 1 u = (xln D, true) /\
      node_derivative (wnet wl5) (fun _ => None) 6 0 u D).
Proof.
  destruct wnet_pipe_case as (Hb & Ha & _ & Hu & HL & _ & _ & HW & HV).
  destruct (value_table (wnet wl5) 6 0 (fun _ => None) Hb ltac:(lia) Ha HW HV) as (ops & st & E & Et & Hv).
  destruct (deriveSPN_l (wnet wl5) 6 0 (fun _ => None) UseQueue (-1) 0 st ops E Hb ltac:(lia) Ha (or_introl (conj eq_refl Hu))
    HL HW HV ltac:(intros H; exfalso; lia) Hv) as (st' & tk' & E1 & E2 & H1 & H2).
  { simpl. rewrite Et. lia. }
  simpl in E2. rewrite Et in E2. subst tk'.
  pose proof (wf_run xreal (Fin 0) _ _ _ (wf_new xreal) E) as W.
  destruct (@deriveSPN_runs XR (wnet wl5) 6 UseQueue 0 (-1) 0 st st' _ Hb ltac:(lia) W E1) as ((o2 & Hr2) & _).
  exists (ops ++ o2), st'. split; [|split; auto].
  - clear - E Hr2. revert E. generalize (newStorer xreal). induction ops as [|o l IH]; intros s H; simpl in *; [injection H as ->; exact Hr2|].
    destruct (ustep xreal (Fin 0) s o) as [[s1 x]|]; [|discriminate]. auto.
  - intros u Hu'. destruct (Hv u Hu') as (v & A1 & A2). exists v. split; auto. unfold sSingle in *. rewrite H2; auto. lia.
Qed.
