(** The clusters the learner of Gens and Domingos works with. *)
From Verif Require Import Base Res Arith GraphSpec Spn Build GoMap Tables TablesSpec TablesLemmas DataSpec DataLemmas
  Indep IndepSpec IndGraphLemmas ClusterSpec Dbscan DbscanLemmas DbscanData EvalConc Gens GensSpec GensTree GensParts.

Section Clusters.
Context {A : arith}.
Variable toInt : F A -> Z.

Lemma instOf_nodup Sc (row : list (F A)) : NoDup (keys (instOf toInt Sc row)).
Proof.
  unfold instOf. assert (G : forall l a, NoDup (keys a) -> NoDup (keys (fold_left (fun m (je : nat * F A) => put m (get0 Sc (Z.of_nat (fst je))) (toInt (snd je))) l a))).
  { induction l as [|e l IH]; intros a Ha; cbn [fold_left]; auto. apply IH, NoDup_put; auto. }
  apply G. constructor.
Qed.

Lemma guess_nodup k G (M : list (list (F A))) Sc C : guessToData toInt k G M Sc = Ok C -> forall cl I, In cl C -> In I cl -> NoDup (keys I).
Proof.
  unfold guessToData, foldi. set (f := fun i C g => _).
  assert (H : forall G n C0 C, (forall cl I, In cl C0 -> In I cl -> NoDup (keys I)) -> foldi_from n f G C0 = Ok C -> forall cl I, In cl C -> In I cl -> NoDup (keys I)).
  { induction G0 as [|g G0 IH]; intros n C0 C1 H0 E; cbn [foldi_from] in E; [injection E as <-; auto|].
    apply bind_ok in E as (C2 & E2 & E). eapply IH; [|exact E]. unfold f in E2. apply bind_ok in E2 as (row & _ & E2). cbv zeta in E2. apply bind_ok in E2 as (cl0 & Ec & E2). injection E2 as <-.
    intros cl I Hcl HI. apply In_nth_error in Hcl as (j & Hj). unfold idxZ in Ec. destruct (Z.ltb_spec g 0); [discriminate|]. unfold idx in Ec.
    destruct (nth_error C0 (Z.to_nat g)) as [c|] eqn:Eg; [|discriminate]. injection Ec as ->.
    destruct (Nat.eq_dec j (Z.to_nat g)) as [->|Nj].
    - rewrite nth_error_set_nth_same in Hj by (apply nth_error_Some; congruence). injection Hj as <-. apply in_app_iff in HI as [HI|[<-|[]]]; [eapply H0; eauto; eapply nth_error_In; eauto|].
      apply (instOf_nodup Sc row).
    - rewrite nth_error_set_nth_diff in Hj by auto. eapply H0; eauto. eapply nth_error_In; eauto. }
  intros E. eapply H; [|exact E]. intros cl I Hcl HI. apply repeat_spec in Hcl. subst. destruct HI.
Qed.

(** Clusters cover the data. *)
Definition covers (D : list gmap) (C : list (list gmap)) : Prop :=
  length (concat C) = length D /\ (forall cl, In cl C -> cl <> []) /\
  forall cl I, In cl C -> In I cl -> NoDup (keys I) /\ exists J, In J D /\ forall v, get I v = get J v.

Lemma labels_cover G k : (forall g, In g G -> (0 <= g < Z.of_nat k)%Z) ->
  Permutation (concat (map (fun c => at_label G c (length G)) (seq 0 k))) (seq 0 (length G)).
Proof.
  intros HG. apply NoDup_Permutation; [|apply seq_NoDup|].
  - apply NoDup_concat_map; [apply seq_NoDup|intros; apply NoDup_filter, seq_NoDup|].
    intros x y b _ _ Hx Hy. apply filter_In in Hx as (_ & Hx), Hy as (_ & Hy). destruct (nth_error G b); [|discriminate]. apply Z.eqb_eq in Hx, Hy. lia.
  - intros i. rewrite <- flat_map_concat_map, in_flat_map. split.
    + intros (c & _ & Hi). apply filter_In in Hi. tauto.
    + intros Hi. pose proof Hi as Hi'. apply in_seq in Hi'. destruct (nth_error G i) as [g|] eqn:E; [|apply nth_error_None in E; lia].
      pose proof (HG g (nth_error_In _ _ E)). exists (Z.to_nat g). split; [apply in_seq; lia|]. apply filter_In. split; auto. rewrite E. apply Z.eqb_eq. lia.
Qed.

Variable km : list nat -> list (list (F A)) -> res (list Z).
Variable ordD : list nat -> nat -> gmap -> gmap.
Variable ufuel : nat.
Variables (k mp : Z) (eps : F A).

Hypothesis Hord : forall p, visits_all (ordD p).
Hypothesis Hint : forall x, toInt (fz x) = x.
Hypothesis Hkm : (0 < k)%Z -> uses_all_labels k km.

Lemma clustersOf_l p Sc D : learnable Sc D -> (0 < k -> k <= Z.of_nat (length D))%Z -> length D * length D + 2 * length D + 2 <= ufuel ->
  (exists C, clustersOf ordD km toInt ufuel k mp eps p D = Ok C /\ covers D C) \/ ((k <= 0)%Z /\ clustersOf ordD km toInt ufuel k mp eps p D = Panic).
Proof.
  intros L Hk Hf. destruct (ln_vars _ _ L) as (vars & V1 & V2 & V3). pose proof (ln_data _ _ L) as Dne.
  destruct (dataToMatrix_l (ordD p) vars D (Hord p) V1 V2 Dne) as (M & MS & vs & EM & P & LS & T).
  assert (LM : length M = length D) by (symmetry; eapply DataByLabel.Forall2_len; eauto).
  unfold clustersOf. destruct (Z.ltb_spec 0 k) as [K0|K0].
  - left. unfold kMeansDataI. rewrite EM. cbn [bind fst snd].
    destruct (Hkm K0 p (copyMatrixF M)) as (G & EG & LG & HG & HA). { unfold copyMatrixF. rewrite map_length. lia. }
    rewrite EG. cbn [bind]. assert (HG' : forall g, In g G -> (0 <= g < Z.of_nat (Z.to_nat k))%Z) by (intros g Hg; specialize (HG g Hg); lia).
    pose proof (guess_ok toInt (Z.to_nat k) G (copyMatrixF M) MS LG HG') as EQ. rewrite EQ. eexists. split; [reflexivity|].
    assert (LGD : length G = length D) by (rewrite LG; unfold copyMatrixF; rewrite map_length; auto). split; [|split].
    + pose proof (Permutation_length (labels_cover G (Z.to_nat k) HG')) as E. rewrite seq_length in E. rewrite <- LGD. etransitivity; [|exact E].
      clear. generalize (seq 0 (Z.to_nat k)). induction l as [|c l IH]; auto. cbn [map concat]. rewrite !app_length, map_length. f_equal. apply IH.
    + intros cl Hcl. apply in_map_iff in Hcl as (c & <- & Hc). apply in_seq in Hc. intros E. apply map_eq_nil in E.
      pose proof (HA (Z.of_nat c) ltac:(lia)) as Hin. apply In_nth_error in Hin as (i & Hi).
      assert (Hx : In i (at_label G c (length G))).
      { apply filter_In. split; [apply in_seq; assert (i < length G) by (apply nth_error_Some; congruence); lia|]. rewrite Hi. apply Z.eqb_refl. }
      rewrite E in Hx. destruct Hx.
    + intros cl I Hcl HI. split; [eapply guess_nodup; eauto|]. apply in_map_iff in Hcl as (c & <- & Hc). apply in_map_iff in HI as (i & <- & Hi).
      apply filter_In in Hi as (Hi & _). apply in_seq in Hi. destruct (nth_error D i) as [J|] eqn:EJ; [|apply nth_error_None in EJ; lia].
      exists J. split; [eapply nth_error_In; eauto|]. intros v.
      assert (HR : exists row, nth_error M i = Some row /\ length row = length vs /\ forall j x, nth_error vs j = Some x -> nth_error row j = get J x).
      { clear -T EJ. revert i EJ. unfold tabulates in T. induction T as [|I r D M (H1 & H2) T IH]; intros [|i] EJ; try discriminate; cbn [nth_error] in *; [injection EJ as ->; exists r; auto|auto]. }
      destruct HR as (row & ER & LR & HR). assert (En : nth i (@copyMatrixF A M) [] = map fz row) by (apply nth_error_nth; exact (map_nth_error (map fz) i M ER)).
      rewrite En. assert (Nvs : NoDup vs) by (eapply Permutation_NoDup; [symmetry|]; eauto). rewrite (instOf_l toInt vs MS row v Nvs LS LR Hint).
      apply (find_combine vs row J v Nvs LR HR). intros x Hx. apply (Permutation_in _ (Permutation_sym P)). apply (V2 J (nth_error_In _ _ EJ)), keys_get. auto.
  - destruct (dbscanData_l toInt (ordD p) vars D eps mp ufuel (Hord p) V1 V2 Dne Hf Hint) as (M' & S' & Cm & EM' & _ & EC & [E|(C & E & F2)]); [right; auto|].
    left. exists C. split; auto. rewrite EM in EM'. injection EM' as <- <-.
    assert (Hw : forall row, In row M -> length row = length vs).
    { intros row Hr. clear -T Hr. unfold tabulates in T. induction T as [|I r D M (H & _) _ IH]; [destruct Hr|]. destruct Hr as [<-|Hr]; auto. }
    destruct (dbscan_partition_l (length vs) M eps mp ufuel Hw) as (C' & EC' & PC & NC & _). { intros ->. destruct D; [congruence|discriminate]. } { rewrite LM. auto. }
    rewrite EC in EC'. injection EC' as <-. apply Permutation_length in PC. unfold instances in PC. rewrite combine_length, seq_length, Nat.min_id, LM in PC.
    assert (Len : Forall2 (fun (cl : list gmap) clm => length cl = length clm) C Cm).
    { eapply Forall2_impl'; [|exact F2]. intros cl clm (js & Pj & Fj). apply DataByLabel.Forall2_len in Fj. apply Permutation_length in Pj. rewrite map_length in Pj. congruence. }
    split; [|split].
    + rewrite <- PC. clear -Len. induction Len as [|a b C Cm H _ IH]; auto. cbn [concat]. rewrite !app_length, IH, H. auto.
    + clear -Len NC. induction Len as [|a b C Cm H _ IH]; intros cl Hcl; [destruct Hcl|]. destruct Hcl as [<-|Hcl].
      * intros ->. apply (NC b (or_introl eq_refl)). destruct b; [auto|discriminate].
      * apply IH; auto. intros; apply NC; right; auto.
    + intros cl I Hcl HI. split.
      * unfold dbscanData in E. rewrite EM in E. cbn [bind] in E. cbv zeta in E. apply bind_ok in E as (s & _ & E). apply bind_ok in E as (Gk & _ & E). eapply guess_nodup; eauto.
      * clear -F2 Hcl HI. induction F2 as [|a b C Cm (js & _ & Fj) _ IH]; [destruct Hcl|]. destruct Hcl as [<-|Hcl]; [|auto].
        clear IH. induction Fj as [|I' j a js (J & HJ & Eq) _ IH]; [destruct HI|]. destruct HI as [<-|HI]; [|auto]. exists J. split; auto. eapply nth_error_In; eauto.
Qed.
End Clusters.
