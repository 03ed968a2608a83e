(** What DeriveSPN stores on any network without cycles: logarithms of numbers that are not negative. *)
From Coq Require Import Reals Lra Lia.
From Verif Require Import Base Res Arith LogMath LogSpec LogLemmas GraphSpec GraphLemmas Search SearchLemmas
  Storer StorerSpec StorerLemmas Spn DP SpnSpec SpnLemmas ProbSpec ProbLemmas Walk WalkLemmas
  Struct Derive DeriveSpec DiffLemmas DeriveLemmas GradLemmas StepLemmas.
Local Open Scope R_scope.

Lemma combine_has {X Y} (cs : list X) : forall (es : list Y) c, length es = length cs -> In c cs -> exists e, In (c, e) (combine cs es).
Proof.
  induction cs as [|d cs IH]; intros [|e es] c L H; try discriminate; [destruct H|]. destruct H as [<-|H]; [exists e; left; auto|].
  destruct (IH es c ltac:(simpl in L; lia) H) as (e' & He). exists e'. right. auto.
Qed.

Section Weak.
Variable net : network XR.
Variables N r : nat.
Local Notation ch := (children net).
Hypothesis Hb : bounded ch N.
Hypothesis Hr : (r < N)%nat.
Hypothesis HW : weights_nonneg net r.
Hypothesis HL : leaves_childless net.
Variable p : nat -> R.
Hypothesis Hp : forall u, reach ch r u -> 0 <= p u.

Section Loop.
Variables (k ik : Z) (t ti : nat) (base : storer xreal).
Hypothesis Ht : tables xreal base k = Some t.
Hypothesis Hti : tables xreal base ik = Some ti.
Hypothesis Hk : ik <> k.
Hypothesis Hinf : forall u, reach ch r u -> cval xreal base ik u 0 = Some (xln (p u)).
Local Notation tinv := (@tinv XR k base).
Local Notation tget := (@tget XR k).
Local Notation tab := (tab k (reach ch r)).

Lemma inf_read_weak st u : tinv st -> reach ch r u -> tSingle xreal (Fin 0) st (Some ti) u = (xln (p u), true).
Proof.
  intros (W & E & _ & Ho) Hu. change (F XR) with xreal in *. unfold tSingle. rewrite (tEntry_cval xreal (Fin 0) st ik ti u 0) by (rewrite E; auto).
  rewrite Ho by auto. rewrite Hinf; auto.
Qed.

Lemma deriveNode_weak q st L : reach ch r q -> tinv st -> tab L st -> pos L ->
  exists st' L', @deriveNode XR net (Some t) (Some ti) st q = Ok st' /\ tinv st' /\ tab (L ++ L') st' /\ pos L' /\
    forall c, In c (nch (net q)) -> has L' c = true.
Proof.
  intros Hq HI HT HP. set (D := if has L q then acc L q else 1).
  assert (HD : 0 <= D) by (unfold D; destruct (has L q); [apply acc_nonneg; auto|lra]).
  assert (Epv : fst (tSingle xreal (Fin 0) st (Some t) q) = xln D).
  { pose proof (@tSingle_get XR k t base Ht st q HI) as E. change (@fz XR 0) with (Fin 0) in E.
    change (F XR) with xreal in E. rewrite E, (HT q Hq). unfold D. destruct (has L q); [reflexivity|]. rewrite xln_one. reflexivity. }
  assert (Hch : forall c, In c (nch (net q)) -> reach ch r c) by (intros c Hc; eapply reach_snoc; [exact Hq|exact Hc]).
  assert (Fin_ : forall es f, length es = length (nch (net q)) -> (forall e, In e es -> 0 <= e) ->
    (exists st', f = Ok st' /\ tinv st' /\ tab (L ++ map (fun ce => (fst ce, D * snd ce)) (combine (nch (net q)) es)) st') ->
    exists st' L', f = Ok st' /\ tinv st' /\ tab (L ++ L') st' /\ pos L' /\ forall c, In c (nch (net q)) -> has L' c = true).
  { intros es f Le Pe (st' & E & K1 & K2). exists st'. eexists. split; [exact E|]. split; [exact K1|]. split; [exact K2|]. split.
    - intros x Hx. apply in_map_iff in Hx as ((c & e) & <- & Hin). apply Rmult_le_pos; auto. apply Pe. eapply in_combine_r; eauto.
    - intros c Hc. apply has_In. destruct (combine_has _ es c Le Hc) as (e & He). exists (D * e). apply in_map_iff. exists (c, e). auto. }
  unfold deriveNode. change (@fz XR 0) with (Fin 0). change (F XR) with xreal.
  rewrite Epv. destruct (nk (net q)) as [w| |l] eqn:EK.
  - destruct (HW q w Hq EK) as (Hne & ws & -> & HLen & Hnn). apply (Fin_ ws); auto.
    unfold foldi. apply (addMany k t base Ht (reach ch r)); auto.
    intros j c e Hc He st' HI'. simpl Nat.add. destruct (tSingle xreal (Fin 0) st' (Some t) c) as [v b].
    unfold idx. rewrite nth_error_map, He. cbn [option_map bind].
    assert (0 <= e) by (apply Hnn; eapply nth_error_In; eauto).
    change (@flog XR) with xlog. change (@fadd XR) with xadd. rewrite xlog_nonneg by auto.
    rewrite xadd_xln by auto. rewrite (Rmult_comm e). reflexivity.
  - assert (Po : forall e, In e (oth (map p (nch (net q)))) -> 0 <= e).
    { apply oth_nonneg. intros x Hx. apply in_map_iff in Hx as (c & <- & Hc). apply Hp; auto. }
    assert (Lo : length (oth (map p (nch (net q)))) = length (nch (net q))) by (rewrite oth_length, map_length; auto).
    apply (Fin_ (oth (map p (nch (net q))))); auto.
    unfold foldi. apply (addMany k t base Ht (reach ch r)); auto.
    intros j c e Hc He st' HI'. simpl Nat.add. destruct (tSingle xreal (Fin 0) st' (Some t) c) as [v b].
    assert (Eo : @others XR (fun c0 => fst (tSingle xreal (Fin 0) st' (Some ti) c0)) (nch (net q)) j (xln D) = xln (D * e)).
    { transitivity (@others XR (fun c0 => xln (p c0)) (nch (net q)) j (xln D)).
      - apply others_ext. intros d Hd. rewrite (inf_read_weak st' d HI' (Hch d Hd)). reflexivity.
      - rewrite others_xln; auto.
        + f_equal. f_equal. apply nth_error_nth. auto.
        + apply nth_error_Some. congruence. }
    rewrite Eo. reflexivity.
  - rewrite (HL q l EK). exists st, []. simpl. rewrite app_nil_r. split; auto. split; auto. split; auto. split; [intros x []|intros c []].
Qed.

Definition JW (a : list nat) (st : storer xreal) : Prop :=
  tinv st /\ exists L, tab L st /\ pos L /\ has L r = true /\ forall q c, In q a -> In c (nch (net q)) -> has L c = true.

Lemma deriveLoop_weak calls st0 : enumerates (inner net) r calls -> JW [] st0 ->
  exists st, foldr_ (@deriveNode XR net (Some t) (Some ti)) calls st0 = Ok st /\ tinv st /\
    forall u, reach ch r u -> exists D, 0 <= D /\ tget st u = Some (xln D).
Proof.
  intros [Hn He] H0. destruct (foldr_inv (@deriveNode XR net (Some t) (Some ti)) JW calls st0 H0) as (st & E & (HI & L & HT & HP & Hr1 & Hc)).
  - intros a q b s E (HI & L & HT & HP & Hr1 & Hc).
    assert (Hq : reach ch r q) by (apply inner_reach, He; rewrite E; apply in_or_app; right; left; auto).
    destruct (deriveNode_weak q s L Hq HI HT HP) as (s' & L' & Es & HI' & HT' & HP' & Hc'). exists s'. split; auto. split; auto.
    exists (L ++ L'). split; auto. split; [intros x Hx; apply in_app_or in Hx as [Hx|Hx]; auto|]. split; [rewrite has_app, Hr1; auto|].
    intros x c Hx Hin. rewrite has_app. apply in_app_or in Hx as [Hx|[<-|[]]]; [rewrite (Hc x c Hx Hin); auto|]. rewrite (Hc' c Hin). apply orb_true_r.
  - exists st. split; auto. split; auto. intros u Hu. exists (acc L u). split; [apply acc_nonneg; auto|]. rewrite (HT u Hu).
    assert (Hh : has L u = true).
    { destruct (reach_last ch r u Hu) as [->|(q & Hq & Hin)]; auto. apply (Hc q u); auto. eapply parent_called; eauto. split; auto. }
    rewrite Hh. reflexivity.
Qed.
End Loop.

Lemma deriveSPN_weak d tk itk (st : storer xreal) ops :
  run_state (ustep xreal (Fin 0)) (newStorer xreal) ops = Some st ->
  ((0 <= tk)%Z -> snd (table xreal st tk) = true /\
     forall u, reach (children net) r u -> snd (sSingle xreal (Fin 0) st tk u) = false) ->
  (forall u, reach (children net) r u -> sSingle xreal (Fin 0) st itk u = (xln (p u), true)) ->
  itk <> (if (tk <? 0)%Z then tickets xreal st else tk) ->
  exists st' tk', @deriveSPN XR net d (S N) r st tk itk = Ok (st', (r, tk')) /\
    tk' = (if (tk <? 0)%Z then tickets xreal st else tk) /\
    (forall u, reach (children net) r u -> exists D, (0 <= D)%R /\ sSingle xreal (Fin 0) st' tk' u = (xln D, true)) /\
    (forall k x l, k <> tk' -> sEntry xreal (Fin 0) st' k x l = sEntry xreal (Fin 0) st k x l).
Proof.
  intros Hst Htk Hinf Hne.
  pose proof (wf_run xreal (Fin 0) ops _ _ (wf_new xreal) Hst) as W.
  pose proof (@ticketFor_ok XR st tk W (fun H => proj1 (Htk H))) as HT. unfold deriveSPN.
  destruct (@ticketFor XR st tk) as [st1 tk1]. destruct HT as (W1 & E1 & (t & Et) & Ho & Hnew).
  change (F XR) with xreal in *. rewrite <- E1 in Hne.
  assert (Hinf1 : forall u, reach (children net) r u -> cval xreal st1 itk u 0 = Some (xln (p u))).
  { intros u Hu. rewrite (Ho itk u 0%Z) by auto. pose proof (Hinf u Hu) as Es. unfold sSingle in Es.
    rewrite sEntry_cval in Es. destruct (cval xreal st itk u 0); [|discriminate]. injection Es as ->. auto. }
  assert (Hti : exists ti, tables xreal st1 itk = Some ti).
  { specialize (Hinf1 r (reach_refl _ _)). unfold cval, cnode in Hinf1. destruct (tables xreal st1 itk); eauto. discriminate. }
  destruct Hti as (ti & Hti). unfold table. rewrite Et, Hti. cbn [fst].
  assert (HI1 : @tinv XR tk1 st1 st1) by (split; auto).
  change (@fz XR 0) with (Fin 0).
  destruct (@storeVia_ok XR tk1 t st1 Et st1 r (Fin 0) HI1) as (st2 & E2 & HI2 & Hs2 & Ho2). change (F XR) with xreal in *.
  rewrite E2. cbn [bind].
  destruct (walk_fold (inner net) d N r (inner_bounded net N Hb) Hr) as (calls & Es & He & Hfold).
  rewrite Hfold.
  assert (Hempty : forall c, reach (children net) r c -> @tget XR tk1 st1 c = None).
  { intros c Hc. unfold tget. change (F XR) with xreal. destruct (Z.lt_ge_cases tk 0); [apply Hnew; auto|].
    rewrite Ho by auto. assert (Ek : tk1 = tk) by (rewrite E1; destruct (Z.ltb_spec tk 0); lia). rewrite Ek.
    destruct (Htk H) as (_ & Hz). specialize (Hz c Hc). unfold sSingle in Hz. rewrite sEntry_cval in Hz.
    destruct (cval xreal st tk c 0); auto. discriminate. }
  assert (HJ : JW tk1 st1 [] st2).
  { split; auto. exists [(r, 1)]. split; [|split; [|split]].
    - intros c Hc. unfold has, acc. cbn [existsb fst snd map Rsum]. destruct (Nat.eqb_spec r c) as [->|Hn].
      + change (F XR) with xreal in *. rewrite Hs2. simpl. unfold ind. rewrite Nat.eqb_refl.
        replace (1 * 1 + 0)%R with 1%R by lra. rewrite xln_one. auto.
      + change (F XR) with xreal in *. rewrite Ho2 by auto. apply Hempty; auto.
    - intros x [<-|[]]. simpl. lra.
    - unfold has. simpl. rewrite Nat.eqb_refl. auto.
    - intros q c []. }
  destruct (deriveLoop_weak tk1 itk t ti st1 Et Hti Hne Hinf1 calls st2 He HJ) as (st3 & E3 & (_ & _ & _ & Ho3) & HD).
  change (F XR) with xreal in *. rewrite E3. cbn [bind].
  exists st3, tk1. split; auto. split; auto. split.
  - intros u Hu. destruct (HD u Hu) as (D & H0 & H1). exists D. split; auto.
    unfold sSingle. rewrite sEntry_cval. unfold tget in H1. change (F XR) with xreal in H1. rewrite H1. auto.
  - intros k x l Hk. rewrite !sEntry_cval. change (F XR) with xreal in *. rewrite Ho3 by auto. rewrite Ho by auto. auto.
Qed.
End Weak.
