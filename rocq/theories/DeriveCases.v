(** Corollaries and witnesses for C27-C31. *)
From Coq Require Import Reals Lra Classical_Prop.
From Verif Require Import Base Res Arith LogMath LogSpec LogLemmas GraphSpec GraphLemmas Topo TopoLemmas Search SearchLemmas
  Storer StorerSpec StorerLemmas Spn DP SpnSpec SpnLemmas Leaves ProbSpec ProbLemmas ArgLemmas ProbCases Walk WalkLemmas
  Struct StructSpec StructLemmas Derive DeriveSpec DiffLemmas DeriveLemmas GradLemmas StepLemmas.
Local Open Scope R_scope.

Lemma xexp_xln a : 0 <= a -> xexp (xln a) = Fin a.
Proof.
  intros H. unfold xln. destruct (Rlt_dec 0 a) as [Hp|Hn].
  - simpl. rewrite exp_ln; auto.
  - simpl. f_equal. lra.
Qed.

(** C29 over the reals. *)
Lemma applyWeights_exact (net : network XR) N r I d (st : storer xreal) dtk itk eta nrm :
  bounded (children net) N -> (r < N)%nat -> acyclic (children net) -> leaves_childless net ->
  weights_nonneg net r -> leaf_values net I r ->
  (forall u, reach (children net) r u -> exists v, value net N I u = Ok v /\ sSingle xreal (Fin 0) st itk u = (v, true)) ->
  (forall u, reach (children net) r u -> exists D, 0 <= D /\ sSingle xreal (Fin 0) st dtk u = (xln D, true) /\ node_derivative net I N r u D) ->
  exists net', @deriveApplyWeights XR d (S N) r (Fin eta) st dtk itk nrm net = Ok net' /\
    (forall u ws, reach (children net) r u -> nk (net u) = @KSum XR (map Fin ws) ->
      exists ws', length ws' = length ws /\ net' u = mkNode (@KSum XR (@maybeNorm XR nrm (map Fin ws'))) (nch (net u)) /\
        forall i w, nth_error ws i = Some w -> exists D, 0 <= D /\ weight_derivative net I N r u i w D /\ nth_error ws' i = Some (w + eta * D)) /\
    (forall u, (~ reach (children net) r u \/ forall w, nk (net u) <> KSum w) -> net' u = net u).
Proof.
  intros Hb Hr Ha HL HW HV Hinf Hder.
  assert (Hlen : forall u w, reach (children net) r u -> nk (net u) = KSum w -> length w = length (nch (net u))).
  { intros u w Hu EK. destruct (HW u w Hu EK) as (_ & ws & -> & Hl & _). rewrite map_length. auto. }
  destruct (@applyWeights_l XR net N r d (Fin eta) st dtk itk nrm Hb Hr HL Hlen) as (net' & E & H1 & H2).
  exists net'. split; auto.
  split; [|auto].
  intros u ws Hu EK. destruct (H1 u _ Hu EK) as (W & EW & HWl & HWi).
    destruct (HW u _ Hu EK) as (_ & ws0 & E0 & Hwl & _). apply map_inj_Fin in E0. subst ws0.
    assert (HX : forall i w, nth_error ws i = Some w -> exists D, 0 <= D /\ weight_derivative net I N r u i w D /\ nth_error W i = Some (Fin (w + eta * D))).
    { intros i w Hw. assert (Hc : exists c, nth_error (nch (net u)) i = Some c).
      { destruct (nth_error (nch (net u)) i) eqn:En; eauto. apply nth_error_None in En.
        assert (i < length ws)%nat by (apply nth_error_Some; congruence). lia. }
      destruct Hc as (c & Hc). assert (Hcr : reach (children net) r c) by (eapply reach_snoc; [exact Hu|eapply nth_error_In; eauto]).
      destruct (Hder u Hu) as (D & HD0 & HD1 & HD2). destruct (Hinf c Hcr) as (v & Ev & Es).
      destruct (P_gen net N r Hb Hr Ha HW I HV c Hcr) as (Ev' & HP & _). rewrite Ev' in Ev. injection Ev as <-.
      exists (P net N I c * D). split; [apply Rmult_le_pos; auto|]. split; [eapply weight_derivative_l; eauto|].
      specialize (HWi i c (Fin w) Hc). rewrite nth_error_map, Hw in HWi. specialize (HWi eq_refl).
      change (F XR) with xreal in *. change (@fz XR 0) with (Fin 0) in HWi. rewrite Es, HD1 in HWi. cbn [fst] in HWi.
      change (@fadd XR) with xadd in HWi. change (@fexp XR) with xexp in HWi. rewrite xadd_xln, xexp_xln in HWi by (auto; apply Rmult_le_pos; auto).
      exact HWi. }
    rewrite map_length in HWl. change (F XR) with xreal in *. exists (map unfin W). rewrite map_length. split; [exact HWl|].
    assert (EF : W = map Fin (map unfin W)).
    { apply nth_error_ext. intros i. rewrite !nth_error_map. destruct (nth_error ws i) as [w|] eqn:Ew.
      - destruct (HX i w Ew) as (D & _ & _ & ->). reflexivity.
      - assert (nth_error W i = None) as ->; auto. apply nth_error_None. apply nth_error_None in Ew. lia. }
    split; [rewrite <- EF; auto|]. intros i w Hw. destruct (HX i w Hw) as (D & HD & HD' & HDW). exists D. split; auto. split; auto.
    rewrite nth_error_map, HDW. reflexivity.
Qed.
Lemma applyWeights_real (net : network XR) N r I d (st : storer xreal) dtk itk eta nrm :
  bounded (children net) N -> (r < N)%nat -> acyclic (children net) -> leaves_childless net ->
  weights_nonneg net r -> leaf_values net I r ->
  (forall u, reach (children net) r u -> exists v, value net N I u = Ok v /\ sSingle xreal (Fin 0) st itk u = (v, true)) ->
  (forall u, reach (children net) r u -> exists D, 0 <= D /\ sSingle xreal (Fin 0) st dtk u = (xln D, true) /\ node_derivative net I N r u D) ->
  exists net', @deriveApplyWeights XR d (S N) r (Fin eta) st dtk itk nrm net = Ok net' /\
    (forall u, children net' u = children net u) /\
    (forall u ws, reach (children net) r u -> nk (net u) = @KSum XR (map Fin ws) ->
       exists ws', length ws' = length ws /\
         (forall i w, nth_error ws i = Some w -> exists D, 0 <= D /\ weight_derivative net I N r u i w D /\ nth_error ws' i = Some (w + eta * D)) /\
         (nrm = false -> nk (net' u) = @KSum XR (map Fin ws')) /\
         (nrm = true -> (exists x, In x ws' /\ 0 < x) -> exists qs, nk (net' u) = @KSum XR (map Fin qs) /\ normalised_like ws' qs)) /\
    (forall u, (~ reach (children net) r u \/ forall w, nk (net u) <> KSum w) -> net' u = net u).
Proof.
  intros Hb Hr Ha HL HW HV Hinf Hder.
  destruct (applyWeights_exact net N r I d st dtk itk eta nrm Hb Hr Ha HL HW HV Hinf Hder) as (net' & E & HS & H2). exists net'. split; auto.
  split; [|split; auto].
  - intros u. unfold children. destruct (classic (reach (children net) r u)) as [Hu|Hn]; [|rewrite H2; auto].
    destruct (nk (net u)) as [w| |] eqn:EK; try (rewrite H2; auto; right; intros w; congruence).
    destruct (HW u w Hu EK) as (_ & ws & -> & _). destruct (HS u ws Hu EK) as (ws' & _ & -> & _). reflexivity.
  - intros u ws Hu EK. destruct (HS u ws Hu EK) as (ws' & Hl & Eu & Hi). exists ws'. split; auto. split; auto. rewrite Eu. cbn [nk]. split.
    + intros ->. reflexivity.
    + intros -> Hpos. cbn [maybeNorm]. destruct (normalize_l ws' (or_introl Hpos)) as (qs & Eq & Hq). exists qs. rewrite Eq. auto.
Qed.

(** A storage object holding given values at ticket 0. *)
Section Filled.
Context {A : arith}.
Variable v : nat -> F A.
Definition fill (n : nat) : list (uop (F A)) := US _ (ONew _) :: map (fun u => US _ (OStoreSingle _ 0 u (v u))) (seq 0 n).

Lemma filled n : exists st, run_state (ustep (F A) (fz 0)) (newStorer (F A)) (fill n) = Some st /\
  tickets (F A) st = 1%Z /\ forall u, (u < n)%nat -> sSingle (F A) (fz 0) st 0 u = (v u, true).
Proof.
  induction n as [|n IH].
  - eexists. split; [reflexivity|]. split; [reflexivity|]. intros u Hu; lia.
  - destruct IH as (st & E & Et & Hv). unfold fill. rewrite seq_S, map_app. simpl Nat.add. rewrite app_comm_cons.
    fold (fill n).
    assert (RA : forall ops s s' ops2, run_state (ustep (F A) (fz 0)) s ops = Some s' ->
      run_state (ustep (F A) (fz 0)) s (ops ++ ops2) = run_state (ustep (F A) (fz 0)) s' ops2).
    { clear. induction ops as [|o ops IH]; intros s s' ops2 H; simpl in *; [injection H as <-; auto|].
      destruct (ustep (F A) (fz 0) s o) as [[s1 b]|]; [|discriminate]. auto. }
    rewrite (RA _ _ _ _ E). cbn [map run_state ustep sstep].
    assert (Htab : exists t, tables (F A) st 0 = Some t).
    { assert (Hx : forall ops s s', run_state (ustep (F A) (fz 0)) s (map (fun u => US _ (OStoreSingle _ 0 u (v u))) ops) = Some s' ->
        (exists t, tables (F A) s 0 = Some t) -> exists t, tables (F A) s' 0 = Some t).
      { clear. induction ops as [|o ops IH]; intros s s' H Ht; cbn [map run_state] in H; [injection H as <-; auto|].
        cbn [ustep sstep] in H. unfold sStoreSingle in H. destruct (sStore (F A) s 0 o 0 (v o)) as [[s1 b]|] eqn:Es; [|discriminate].
        eapply IH; eauto. destruct Ht as (t & Ht). exists t. destruct (sStore_tables (F A) s 0 o 0 (v o) s1 b Es) as [-> _]. auto. }
      unfold fill in E. cbn [run_state ustep sstep] in E. eapply Hx; [exact E|]. eexists. simpl. reflexivity. }
    destruct Htab as (t & Ht).
    pose proof (wf_run (F A) (fz 0) _ _ _ (wf_new (F A)) E) as W.
    destruct (tstore_ok (F A) st 0 t n 0 (v n) W Ht) as (st' & Es & W' & E1 & E2 & H1 & H2).
    unfold sStoreSingle, sStore, table. rewrite Ht, Es. exists st'. split; auto. split; [congruence|].
    intros u Hu. unfold sSingle. rewrite sEntry_cval. destruct (Nat.eq_dec u n) as [->|Hn].
    + rewrite H1. reflexivity.
    + rewrite H2 by (intros (_ & -> & _); auto). specialize (Hv u ltac:(lia)). unfold sSingle in Hv. rewrite sEntry_cval in Hv. exact Hv.
Qed.
End Filled.

(** C27: a layered network with shared leaves. *)
Lemma wnet_leaf_values : leaf_values (wnet wl5) (fun _ => None) 0.
Proof.
  destruct wnet_case2 as (_ & _ & _ & HM & _). pose proof (multi_discrete _ _ _ HM) as HL.
  intros u l Hu EK. destruct (HL u l Hu EK) as (_ & x & HD).
  destruct (dleaf_value wcard l x _ HD (evidence_empty wcard)) as (E1 & _ & E2 & _). rewrite E1.
  eexists. split; [reflexivity|]. apply logval_xln.
Qed.

Lemma wnet_uniform : uniform_depth (children (wnet wl5)) 0.
Proof.
  apply graded_uniform with (lev := (fun u => match u with 0 => 0 | 1 | 2 => 1 | _ => 2 end)%nat).
  intros u c. unfold children. destruct u as [|[|[|[|[|u]]]]]; simpl; intros H; intuition (subst; simpl; lia).
Qed.

Lemma wnet_leaves_childless : leaves_childless (wnet wl5).
Proof. intros u l. destruct u as [|[|[|[|[|u]]]]]; simpl; try discriminate; auto. Qed.

Lemma value_table (net : network XR) N r I : bounded (children net) N -> (r < N)%nat -> acyclic (children net) ->
  weights_nonneg net r -> leaf_values net I r ->
  exists ops st, run_state (ustep xreal (Fin 0)) (newStorer xreal) ops = Some st /\ tickets xreal st = 1%Z /\
    forall u, reach (children net) r u -> exists v, value net N I u = Ok v /\ sSingle xreal (Fin 0) st 0 u = (v, true).
Proof.
  intros Hb Hr Ha HW HV. exists (@fill XR (fun u => xln (P net N I u)) N).
  destruct (@filled XR (fun u => xln (P net N I u)) N) as (st & E & Et & Hv). exists st. split; [exact E|]. split; [exact Et|].
  intros u Hu. exists (xln (P net N I u)). split; [apply (P_gen net N r Hb Hr Ha HW I HV u Hu)|]. apply Hv.
  eapply SpnLemmas.reach_bounded; eauto.
Qed.

Lemma derive_case_l : exists (ops : list (uop xreal)) (st : storer xreal),
  run_state (ustep xreal (Fin 0)) (newStorer xreal) ops = Some st /\
  (forall u, reach (children (wnet wl5)) 0 u ->
     exists v, value (wnet wl5) 6 (fun _ => None) u = Ok v /\ sSingle xreal (Fin 0) st 0 u = (v, true)) /\
  exists st', @deriveSPN XR (wnet wl5) UseQueue 7 0 st (-1) 0 = Ok (st', (0%nat, 1%Z)) /\
    forall u, reach (children (wnet wl5)) 0 u -> exists D, 0 <= D /\
       sSingle xreal (Fin 0) st' 1 u = (xln D, true) /\ node_derivative (wnet wl5) (fun _ => None) 6 0 u D.
Proof.
  destruct wnet_case2 as (Hb & Ha & HW & _).
  destruct (value_table (wnet wl5) 6 0 (fun _ => None) Hb ltac:(lia) Ha HW wnet_leaf_values) as (ops & st & E & Et & Hv).
  exists ops, st. split; auto. split; auto.
  destruct (deriveSPN_l (wnet wl5) 6 0 (fun _ => None) UseQueue (-1) 0 st ops E Hb ltac:(lia) Ha (or_introl (conj eq_refl wnet_uniform))
    wnet_leaves_childless HW wnet_leaf_values ltac:(intros H; exfalso; lia) Hv) as (st' & tk' & E1 & E2 & H1 & _).
  - simpl. rewrite Et. lia.
  - simpl in E2. rewrite Et in E2. subst tk'. exists st'. auto.
Qed.

(** C27 fails when parents are at different depths (Queue), or on a shared inner node (Stack). *)
Section Bad.
Context {A : arith}.
Variables (half one : F A).
Definition bleaf : @kind A := KLeaf (@mkLeaf A [] (fun _ => Some one) (fun _ => Some one) (fun _ => None)).
(** 0 -> 1, 2; 2 -> 1; 1 -> 3. *)
Definition bnet : network A := fun u =>
  match u with
  | 0 => mkNode (KSum [half; half]) [1; 2]%nat
  | 1 => mkNode KProd [3]%nat
  | 2 => mkNode KProd [1]%nat
  | _ => mkNode bleaf []
  end.
(** 0 -> 1, 2; 1 -> 3; 2 -> 3; 3 -> 4. *)
Definition dnet : network A := fun u =>
  match u with
  | 0 => mkNode (KSum [half; half]) [1; 2]%nat
  | 1 => mkNode KProd [3]%nat
  | 2 => mkNode KProd [3]%nat
  | 3 => mkNode KProd [4]%nat
  | _ => mkNode bleaf []
  end.
Variable v : nat -> F A.
Lemma bad_queue : 
  match run_state (ustep (F A) (fz 0)) (newStorer (F A)) (fill v 4) with
  | Some st => match deriveSPN bnet UseQueue 5 0 st (-1) 0 with
               | Ok (st', (r, tk)) => (r, tk, sSingle (F A) (fz 0) st' tk 3) = (0%nat, 1%Z, (fadd (flog half) (fz 0), true))
               | _ => False
               end
  | None => False
  end.
Proof. vm_compute. reflexivity. Qed.
Lemma bad_stack : 
  match run_state (ustep (F A) (fz 0)) (newStorer (F A)) (fill v 5) with
  | Some st => match deriveSPN dnet UseStack 6 0 st (-1) 0 with
               | Ok (st', (r, tk)) => (r, tk, sSingle (F A) (fz 0) st' tk 4) = (0%nat, 1%Z, (fadd (flog half) (fz 0), true))
               | _ => False
               end
  | None => False
  end.
Proof. vm_compute. reflexivity. Qed.
End Bad.

Lemma bnet_facts : let net := @bnet XR (Fin (/2)) (Fin 0) in
  bounded (children net) 4 /\ acyclic (children net) /\ leaves_childless net /\ weights_nonneg net 0 /\ leaf_values net (fun _ => None) 0 /\
  node_derivative net (fun _ => None) 4 0 3 1.
Proof.
  cbv zeta. split; [|split; [|split; [|split; [|split]]]].
  - intros u c. unfold children. destruct u as [|[|[|u]]]; simpl; intros H; intuition lia.
  - apply (ranked_acyclic _ (fun u => match u with 0 => 3 | 2 => 2 | 1 => 1 | _ => 0 end)%nat). intros u c. unfold children.
    destruct u as [|[|[|u]]]; simpl; intros H; intuition (subst; simpl; lia).
  - intros u l. destruct u as [|[|[|u]]]; simpl; try discriminate; auto.
  - intros u w _. destruct u as [|[|[|u]]]; simpl; try discriminate. intros E; injection E as <-.
    split; [discriminate|]. exists [/2; /2]. split; auto. split; auto. intros x [<-|[<-|[]]]; lra.
  - intros u l _. destruct u as [|[|[|u]]]; simpl; try discriminate. intros E; injection E as <-. simpl. eexists. split; [reflexivity|]. exact Logic.I.
  - unfold node_derivative. eapply derivable_ext; [|apply derivable_pt_lim_id]. intros t. simpl. unfold id. lra.
Qed.

Lemma dnet_facts : let net := @dnet XR (Fin (/2)) (Fin 0) in
  bounded (children net) 5 /\ acyclic (children net) /\ uniform_depth (children net) 0 /\ leaves_childless net /\ weights_nonneg net 0 /\ leaf_values net (fun _ => None) 0 /\
  node_derivative net (fun _ => None) 5 0 4 1.
Proof.
  cbv zeta. split; [|split; [|split; [|split; [|split; [|split]]]]].
  - intros u c. unfold children. destruct u as [|[|[|[|u]]]]; simpl; intros H; intuition lia.
  - apply (ranked_acyclic _ (fun u => match u with 0 => 3 | 1 | 2 => 2 | 3 => 1 | _ => 0 end)%nat). intros u c. unfold children.
    destruct u as [|[|[|[|u]]]]; simpl; intros H; intuition (subst; simpl; lia).
  - apply graded_uniform with (lev := (fun u => match u with 0 => 0 | 1 | 2 => 1 | 3 => 2 | _ => 3 end)%nat).
    intros u c. unfold children. destruct u as [|[|[|[|u]]]]; simpl; intros H; intuition (subst; simpl; lia).
  - intros u l. destruct u as [|[|[|[|u]]]]; simpl; try discriminate; auto.
  - intros u w _. destruct u as [|[|[|[|u]]]]; simpl; try discriminate. intros E; injection E as <-.
    split; [discriminate|]. exists [/2; /2]. split; auto. split; auto. intros x [<-|[<-|[]]]; lra.
  - intros u l _. destruct u as [|[|[|[|u]]]]; simpl; try discriminate. intros E; injection E as <-. simpl. eexists. split; [reflexivity|]. exact Logic.I.
  - unfold node_derivative. eapply derivable_ext; [|apply derivable_pt_lim_id]. intros t. simpl. unfold id. lra.
Qed.

Lemma half_log : xadd (xlog (Fin (/2))) (Fin 0) = xln (/2).
Proof. rewrite xlog_nonneg by lra. rewrite <- xln_one, xadd_xln by lra. f_equal. lra. Qed.

Definition derive_counterexample (net : network XR) (N : nat) (d : discipline) (u : nat) : Prop :=
  exists ops st st' tk',
    run_state (ustep xreal (Fin 0)) (newStorer xreal) ops = Some st /\
    (forall u, reach (children net) 0 u -> exists v, value net N (fun _ => None) u = Ok v /\ sSingle xreal (Fin 0) st 0 u = (v, true)) /\
    @deriveSPN XR net d (S N) 0 st (-1) 0 = Ok (st', (0%nat, tk')) /\
    sSingle xreal (Fin 0) st' tk' u = (xln (/2), true).

Lemma bad_queue_l : derive_counterexample (@bnet XR (Fin (/2)) (Fin 0)) 4 UseQueue 3.
Proof.
  destruct bnet_facts as (Hb & Ha & HL & HW & HV & _).
  set (net := @bnet XR (Fin (/2)) (Fin 0)) in *.
  pose proof (@bad_queue XR (Fin (/2)) (Fin 0) (fun u => xln (P net 4 (fun _ => None) u))) as HB.
  destruct (@filled XR (fun u => xln (P net 4 (fun _ => None) u)) 4) as (st & E0 & _ & Hv).
  rewrite E0 in HB. fold net in HB.
  destruct (deriveSPN net UseQueue 5 0 st (-1) 0) as [[st' [r tk]]| |] eqn:E2; [|destruct HB|destruct HB].
  injection HB as -> -> E3. 
  eexists. exists st, st', 1%Z. split; [exact E0|]. split; [|split; [exact E2|]].
  - intros u Hu. eexists. split; [apply (P_gen net 4 0 Hb ltac:(lia) Ha HW _ HV u Hu)|]. apply Hv.
    eapply SpnLemmas.reach_bounded; [exact Hb| |exact Hu]. lia.
  - change (F XR) with xreal in *. change (@fz XR 0) with (Fin 0) in *. etransitivity; [exact E3|]. f_equal. apply half_log.
Qed.

Lemma bad_stack_l : derive_counterexample (@dnet XR (Fin (/2)) (Fin 0)) 5 UseStack 4.
Proof.
  destruct dnet_facts as (Hb & Ha & _ & HL & HW & HV & _).
  set (net := @dnet XR (Fin (/2)) (Fin 0)) in *.
  pose proof (@bad_stack XR (Fin (/2)) (Fin 0) (fun u => xln (P net 5 (fun _ => None) u))) as HB.
  destruct (@filled XR (fun u => xln (P net 5 (fun _ => None) u)) 5) as (st & E0 & _ & Hv).
  rewrite E0 in HB. fold net in HB.
  destruct (deriveSPN net UseStack 6 0 st (-1) 0) as [[st' [r tk]]| |] eqn:E2; [|destruct HB|destruct HB].
  injection HB as -> -> E3. 
  eexists. exists st, st', 1%Z. split; [exact E0|]. split; [|split; [exact E2|]].
  - intros u Hu. eexists. split; [apply (P_gen net 5 0 Hb ltac:(lia) Ha HW _ HV u Hu)|]. apply Hv.
    eapply SpnLemmas.reach_bounded; [exact Hb| |exact Hu]. lia.
  - change (F XR) with xreal in *. change (@fz XR 0) with (Fin 0) in *. etransitivity; [exact E3|]. f_equal. apply half_log.
Qed.

(** C30: the sum below the root is left alone. *)
Definition gnet : network XR := fun u =>
  match u with
  | 0 => mkNode (@KSum XR [Fin (/2); Fin (/2)]) [1; 1]%nat
  | 1 => mkNode (@KSum XR [Fin (/4); Fin (3/4)]) [2; 2]%nat
  | _ => mkNode (@bleaf XR (Fin 0)) []
  end.
Lemma gnet_graph : acyclic (children gnet) /\ reach (children gnet) 0 1.
Proof.
  split.
  - apply (ranked_acyclic _ (fun u => match u with 0 => 2 | 1 => 1 | _ => 0 end)%nat). intros u c. unfold children.
    destruct u as [|[|u]]; simpl; intros H; intuition (subst; simpl; lia).
  - eapply reach_step; [|apply reach_refl]. simpl. auto.
Qed.
Lemma dgd_refuted_l : exists (net : network XR) r u W, acyclic (children net) /\ reach (children net) r u /\ nk (net u) = KSum W /\
  forall s w z u0 st eta lambda nrm b, exists net', applyDGD 2 r s w z u0 st eta lambda nrm b net = Ok net' /\ net' u = net u.
Proof.
  exists gnet, 0%nat, 1%nat. eexists. destruct gnet_graph as [Ha Hu]. split; auto. split; auto. split; [reflexivity|].
  intros s w z u0 st eta lambda nrm b. destruct (@applyDGD_l XR gnet 0 s w z u0 st eta lambda nrm b Ha) as (net' & E & _ & H).
  exists net'. split; auto.
Qed.

(** C31 *)
Lemma pull_push_refuted_l :
  (exists I Y y I1 y1 I2, NoDup Y /\ length y = length Y /\ pullValues I Y y = Ok (I1, y1) /\ pushValues I1 Y y1 = Ok I2 /\
     exists u, I u = None /\ I2 u = Some 0%Z) /\
  (exists I Y y I1 y1 I2, (forall u, In u Y -> I u <> None) /\ length y = length Y /\ pullValues I Y y = Ok (I1, y1) /\ pushValues I1 Y y1 = Ok I2 /\
     exists u, I u = Some 7%Z /\ I2 u = Some 0%Z).
Proof.
  split.
  - exists (fun _ => None), [3%Z], [5%Z]. do 3 eexists. split; [repeat constructor; simpl; tauto|]. split; [reflexivity|].
    split; [reflexivity|]. split; [reflexivity|]. exists 3%Z. split; reflexivity.
  - exists (vsingle 3 7), [3%Z; 3%Z], [5%Z; 5%Z]. do 3 eexists. split; [intros u [<-|[<-|[]]]; discriminate|]. split; [reflexivity|].
    split; [reflexivity|]. split; [reflexivity|]. exists 3%Z. split; reflexivity.
Qed.
Lemma pull_push_case_l : let I := updZ (updZ (fun _ => None) 3 (Some 1%Z)) 8 (Some 2%Z) in
  NoDup [8; 3]%Z /\ forall u, In u [8; 3]%Z -> I u <> None.
Proof.
  split; [repeat constructor; simpl; intuition lia|]. intros u [<-|[<-|[]]]; discriminate.
Qed.

Lemma queue_refuted_l :
  exists (net : network XR) (N u : nat),
    bounded (children net) N /\ acyclic (children net) /\ leaves_childless net /\
    weights_nonneg net 0 /\ leaf_values net (fun _ => None) 0 /\
    derive_counterexample net N UseQueue u /\ node_derivative net (fun _ => None) N 0 u 1.
Proof.
  exists (@bnet XR (Fin (/2)) (Fin 0)), 4%nat, 3%nat. destruct bnet_facts as (H1 & H2 & H3 & H4 & H5 & H6).
  repeat (split; [assumption|]). split; auto. apply bad_queue_l.
Qed.
Lemma stack_refuted_l :
  exists (net : network XR) (N u : nat),
    bounded (children net) N /\ acyclic (children net) /\ uniform_depth (children net) 0 /\ leaves_childless net /\
    weights_nonneg net 0 /\ leaf_values net (fun _ => None) 0 /\
    derive_counterexample net N UseStack u /\ node_derivative net (fun _ => None) N 0 u 1.
Proof.
  exists (@dnet XR (Fin (/2)) (Fin 0)), 5%nat, 4%nat. destruct dnet_facts as (H1 & H2 & H3 & H4 & H5 & H6 & H7).
  repeat (split; [assumption|]). split; auto. apply bad_stack_l.
Qed.

Lemma deriveWeights_entries_l (A : arith) (net : network A) (N r : nat) (d : discipline) (st : storer (F A)) ops tk dtk itk :
  let tk' := if (tk <? 0)%Z then tickets (F A) st else tk in
  run_state (ustep (F A) (fz 0)) (newStorer (F A)) ops = Some st ->
  bounded (children net) N -> (r < N)%nat -> leaves_childless net ->
  ((0 <= tk)%Z -> snd (table (F A) st tk) = true) -> dtk <> tk' -> itk <> tk' ->
  exists st', deriveWeights net d (S N) r st tk dtk itk = Ok (st', (r, tk')) /\
    (forall u w i c, reach (children net) r u -> nk (net u) = KSum w -> nth_error (nch (net u)) i = Some c ->
       sEntry (F A) (fz 0) st' tk' u (Z.of_nat i) =
         (fadd (fst (sSingle (F A) (fz 0) st itk c)) (fst (sSingle (F A) (fz 0) st dtk u)), true)) /\
    (forall k x l, k <> tk' -> sEntry (F A) (fz 0) st' k x l = sEntry (F A) (fz 0) st k x l) /\
    (forall x l, (0 <= tk)%Z -> (~ reach (children net) r x \/ ~ sumPos net x l) ->
       sEntry (F A) (fz 0) st' tk' x l = sEntry (F A) (fz 0) st tk' x l).
Proof.
  intros tk' Hst Hb Hr HL Htk Hd Hi.
  destruct (weights_gen net false N r d st ops tk dtk itk Hst Hb Hr HL Htk Hd Hi) as (st' & E & H1 & H2 & H3).
  exists st'. split; auto. split; auto. intros u w i c Hu Hk Hc. unfold tk'. rewrite (H1 u w i c Hu Hk Hc). f_equal.
  destruct (tk <? 0)%Z; auto. destruct (sEntry (F A) (fz 0) st tk u (Z.of_nat i)) as [o []]; auto.
Qed.

Lemma deriveWeightsBatch_entries_l (A : arith) (net : network A) (N r : nat) (d : discipline) (st : storer (F A)) ops tk dtk itk :
  run_state (ustep (F A) (fz 0)) (newStorer (F A)) ops = Some st ->
  bounded (children net) N -> (r < N)%nat -> leaves_childless net ->
  (0 <= tk)%Z -> snd (table (F A) st tk) = true -> dtk <> tk -> itk <> tk ->
  exists st', deriveWeightsBatch net d (S N) r st tk dtk itk = Ok (st', (r, tk)) /\
    (forall u w i c, reach (children net) r u -> nk (net u) = KSum w -> nth_error (nch (net u)) i = Some c ->
       let v := fadd (fst (sSingle (F A) (fz 0) st itk c)) (fst (sSingle (F A) (fz 0) st dtk u)) in
       let old := sEntry (F A) (fz 0) st tk u (Z.of_nat i) in
       sEntry (F A) (fz 0) st' tk u (Z.of_nat i) = (if snd old then logSumExpPair v (fst old) else v, true)) /\
    (forall k x l, k <> tk -> sEntry (F A) (fz 0) st' k x l = sEntry (F A) (fz 0) st k x l) /\
    (forall x l, (~ reach (children net) r x \/ ~ sumPos net x l) ->
       sEntry (F A) (fz 0) st' tk x l = sEntry (F A) (fz 0) st tk x l).
Proof.
  intros Hst Hb Hr HL H0 Htk Hd Hi.
  pose proof (weights_gen net true N r d st ops tk dtk itk Hst Hb Hr HL (fun _ => Htk)) as H. cbv zeta in H.
  assert (Eb : (tk <? 0)%Z = false) by (apply Z.ltb_ge; auto). rewrite Eb in H.
  destruct (H Hd Hi) as (st' & E & H1 & H2 & H3).
  exists st'. split; auto. split; auto. intros u w i c Hu Hk Hc. cbv zeta. rewrite (H1 u w i c Hu Hk Hc). f_equal.
  destruct (sEntry (F A) (fz 0) st tk u (Z.of_nat i)) as [o []]; auto.
Qed.
