(** GenerativeGD and GenerativeBGD over the reals: what one instance and one batch do. *)
From Coq Require Import Reals Lra Classical_Prop FunctionalExtensionality.
From Verif Require Import Base Res Arith LogMath LogSpec LogLemmas GraphSpec GraphLemmas Topo TopoLemmas Search SearchLemmas
  Storer StorerSpec StorerLemmas Spn DP SpnSpec SpnLemmas Leaves ProbSpec ProbLemmas ProbCases Walk WalkLemmas
  Struct StructSpec StructLemmas Derive DeriveSpec DiffLemmas DeriveLemmas GradLemmas StepLemmas DeriveCases Hard PipeLemmas
  GensLemmas Train TrainSpec TrainRange TrainKeep TrainShape TrainAll TrainKept.
Local Open Scope R_scope.

Lemma normalize_exact ws : (forall w, In w ws -> 0 <= w) -> 0 < Rsum ws ->
  @normalize XR (map Fin ws) = map Fin (map (fun x => x / Rsum ws) ws).
Proof.
  intros Hn Hs. unfold normalize. rewrite minBelow0_l, Rmin0_zero by auto. cbn [fgt fz XR xgt].
  destruct (Rlt_dec 0 0); [lra|]. apply divBySum_l. lra.
Qed.
Lemma Rsum_lower l l' c : length l' = length l -> (forall i a, nth_error l i = Some a -> exists b, nth_error l' i = Some b /\ c * a <= b) ->
  c * Rsum l <= Rsum l'.
Proof.
  revert l'. induction l as [|a l IH]; intros [|b l'] HL H; try discriminate; simpl; [lra|].
  destruct (H 0%nat a eq_refl) as (b' & E & Hb). injection E as <-. assert (c * Rsum l <= Rsum l'); [|simpl in *; lra].
  apply IH; [simpl in HL; lia|]. intros i x Hi. destruct (H (S i) x Hi) as (b' & E & Hx). simpl in E. eauto.
Qed.
Lemma Rsum_nonneg l : (forall x, In x l -> 0 <= x) -> 0 <= Rsum l.
Proof. induction l as [|a l IH]; intros H; simpl; [lra|]. pose proof (H a (or_introl eq_refl)). assert (0 <= Rsum l) by (apply IH; intros; apply H; right; auto). lra. Qed.

(** ** The networks met while learning. *)
Section Net.
Variables (N r : nat) (d : discipline) (nrm : bool).

Definition state_ok (net : network XR) : Prop := learnable net N r d /\ (nrm = true -> weights_live net r).

Lemma reach_same (net net' : network XR) : children net' = children net -> forall u, reach (children net') r u <-> reach (children net) r u.
Proof. intros E u. rewrite E. tauto. Qed.

Variables (eta lambda b : R) (batch : list varset) (net net' : network XR).
Hypothesis Heta : 0 <= eta.
Hypothesis Hlam : 0 <= lambda < 1/2.
Hypothesis Hb : 0 < b.
Hypothesis Hok : state_ok net.
Hypothesis HS : forall u ws, reach (children net) r u -> nk (net u) = @KSum XR (map Fin ws) ->
  exists ws', length ws' = length ws /\ net' u = mkNode (@KSum XR (@maybeNorm XR nrm (map Fin ws'))) (nch (net u)) /\
    forall i w, nth_error ws i = Some w -> exists Ds, Forall2 (fun I D => weight_derivative net I N r u i w D) batch Ds /\
      (forall D, In D Ds -> 0 <= D) /\ nth_error ws' i = Some (w + eta * Rsum Ds / b - 2 * lambda * w).
Hypothesis HO : forall u, (~ reach (children net) r u \/ forall w, nk (net u) <> KSum w) -> net' u = net u.

Let HW : weights_nonneg net r.
Proof. apply Hok. Qed.

Lemma moved : only_weights r net net' /\ gradient_step N r nrm eta lambda b batch net net' /\ state_ok net'.
Proof.
  assert (HX : forall u ws, reach (children net) r u -> nk (net u) = @KSum XR (map Fin ws) ->
    exists ws', length ws' = length ws /\ (forall x, In x ws' -> 0 <= x) /\ (nrm = true -> 0 < Rsum ws') /\
    (forall i w, nth_error ws i = Some w -> exists Ds, Forall2 (fun I D => weight_derivative net I N r u i w D) batch Ds /\
      nth_error ws' i = Some (w + eta * Rsum Ds / b - 2 * lambda * w)) /\
    net' u = mkNode (@KSum XR (map Fin (if nrm then map (fun x => x / Rsum ws') ws' else ws'))) (nch (net u))).
  { intros u ws Hu EK. destruct (HS u ws Hu EK) as (ws' & HL & E & Hi). exists ws'. split; auto.
    destruct (HW u _ Hu EK) as (_ & ws0 & E0 & Hwl & Hw0). apply map_inj_Fin in E0. subst ws0.
    assert (HB : forall i w, nth_error ws i = Some w -> exists x, nth_error ws' i = Some x /\ (1 - 2 * lambda) * w <= x).
    { intros i w Hw. destruct (Hi i w Hw) as (Ds & _ & HD & ->). eexists. split; [reflexivity|].
      assert (0 <= eta * Rsum Ds / b). { apply Rmult_le_pos; [apply Rmult_le_pos; auto; apply Rsum_nonneg; auto|]. left. apply Rinv_0_lt_compat. auto. }
      lra. }
    assert (Hp : forall x, In x ws' -> 0 <= x).
    { intros x Hx. apply In_nth_error in Hx as (i & Hx). destruct (nth_error ws i) as [w|] eqn:Ew.
      - destruct (HB i w Ew) as (x' & E' & Hx'). assert (0 <= w) by (apply Hw0; eapply nth_error_In; eauto). assert (x' = x) by congruence. subst x'.
        assert (0 <= (1 - 2 * lambda) * w) by (apply Rmult_le_pos; lra). lra.
      - apply nth_error_None in Ew. assert (i < length ws')%nat by (apply nth_error_Some; congruence). lia. }
    split; auto. assert (Hs : nrm = true -> 0 < Rsum ws').
    { intros Hn. destruct Hok as (_ & Hlive). destruct (Hlive Hn u _ Hu EK) as (ws0 & E0 & _ & _ & Hpos). apply map_inj_Fin in E0. subst ws0.
      pose proof (Rsum_lower ws ws' (1 - 2 * lambda) HL HB). assert (0 < (1 - 2 * lambda) * Rsum ws) by (apply Rmult_lt_0_compat; lra). lra. }
    split; auto. split.
    - intros i w Hw. destruct (Hi i w Hw) as (Ds & H1 & _ & H2). eauto.
    - rewrite E. f_equal. f_equal. destruct nrm; simpl; auto. apply normalize_exact; auto. }
  assert (Hsum : forall u w, nk (net u) = KSum w -> reach (children net) r u -> exists ws, w = map Fin ws).
  { intros u w EK Hu. destruct (HW u w Hu EK) as (_ & ws & -> & _). eauto. }
  assert (Hcase : forall u, net' u = net u \/ (reach (children net) r u /\ exists ws, nk (net u) = @KSum XR (map Fin ws))).
  { intros u. destruct (classic (reach (children net) r u)) as [Hu|Hu]; [|left; apply HO; auto].
    destruct (nk (net u)) as [w| |l] eqn:EK; try (left; apply HO; right; intros w'; congruence).
    right. split; auto. destruct (Hsum u w EK Hu) as (ws & ->). eauto. }
  assert (Hch : children net' = children net).
  { extensionality u. unfold children. destruct (Hcase u) as [->|(Hu & ws & EK)]; auto. destruct (HX u ws Hu EK) as (ws' & _ & _ & _ & _ & ->). auto. }
  assert (Hkind : forall u, match nk (net u) with KSum _ => exists w, nk (net' u) = KSum w | k => nk (net' u) = k end).
  { intros u. destruct (Hcase u) as [->|(Hu & ws & EK)]; [destruct (nk (net u)); eauto|]. destruct (HX u ws Hu EK) as (ws' & _ & _ & _ & _ & ->). rewrite EK. eexists. reflexivity. }
  split; [|split].
  - split; [intros u; exact (f_equal (fun g => g u) Hch)|]. intros u. destruct (Hcase u) as [->|(Hu & ws & EK)]; auto. right. split; auto.
    destruct (HX u ws Hu EK) as (ws' & HL & _ & _ & _ & ->). rewrite EK. simpl. do 2 eexists. split; [reflexivity|]. split; [reflexivity|].
    destruct nrm; rewrite !map_length; auto.
  - split; auto. intros u ws Hu EK. destruct (HX u ws Hu EK) as (ws' & HL & _ & _ & Hi & E). exists ws'. auto.
  - destruct Hok as ((H1 & H2 & H3 & H4 & H5 & H6 & H7 & H8 & _) & _).
    assert (HX' : forall u w, reach (children net) r u -> nk (net' u) = KSum w -> exists ws, w = map Fin ws /\ length ws = length (nch (net' u)) /\
       (forall x, In x ws -> 0 <= x) /\ (nrm = true -> 0 < Rsum ws) /\ nch (net' u) <> []).
    { intros u w Hu EK'. pose proof (Hkind u) as Hk. destruct (nk (net u)) as [w0| |l] eqn:EK; try congruence.
      destruct (Hsum u w0 EK Hu) as (ws & ->). destruct (HX u ws Hu EK) as (ws' & HL & Hp & Hs & _ & E).
      destruct (HW u _ Hu EK) as (Hne & ws0 & E0 & Hwl & _). apply map_inj_Fin in E0. subst ws0.
      rewrite E in EK'. simpl in EK'. injection EK' as <-. eexists. split; [reflexivity|]. rewrite E. cbn [nch]. split; [destruct nrm; rewrite ?map_length; congruence|]. split; [|split; auto].
      - destruct nrm; auto. apply div_normalised; auto.
      - intros Hn. pose proof (Hs Hn). rewrite Hn. destruct (div_normalised ws' Hp (Hs Hn)) as (_ & _ & -> & _). lra. }
    split; [|intros Hn u w; rewrite Hch; intros Hu EK; destruct (HX' u w Hu EK) as (ws & -> & K1 & K2 & K3 & _); exists ws; auto].
    unfold learnable. rewrite Hch. split; auto. split; auto. split; auto. split; auto. split; auto. split; [|split; [|split]].
    + intros u l EK. pose proof (Hkind u) as Hk. change (children net' u = []). rewrite Hch. destruct (nk (net u)) as [w0| |l'] eqn:EK'; try congruence.
      * destruct Hk as (w & Hk). congruence.
      * eapply H6; eauto.
    + intros u w EK. pose proof (Hkind u) as Hk. change (children net' u <> []). rewrite Hch. destruct (nk (net u)) as [w0| |l'] eqn:EK'; try congruence. eapply H7; eauto.
    + change (children net' r <> []). rewrite Hch. auto.
    + intros u w. rewrite Hch. intros Hu EK. destruct (HX' u w Hu EK) as (ws & -> & K1 & K2 & _ & K4). split; auto. exists ws. auto.
Qed.
End Net.
