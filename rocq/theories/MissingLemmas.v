From Coq Require Import Reals Lra Lia.
From Verif Require Import Base Res Arith LogSpec LogLemmas GraphSpec GraphLemmas Spn Search Walk WalkLemmas ProbSpec ProbLemmas PoonSpec SerialCases MissingSpec.
Local Open Scope R_scope.

(** What is not reachable does not matter. *)
Lemma prune (net : network XR) N z : bounded (children net) N -> (z < N)%nat -> acyclic_from (children net) z ->
  exists net', bounded (children net') N /\ acyclic (children net') /\
    (forall u, reach (children net) z u -> net' u = net u) /\
    (forall u, reach (children net') z u -> reach (children net) z u).
Proof.
  intros Hb Hz Ac. destruct (walk_fold (children net) UseQueue N z Hb Hz) as (calls & _ & (_ & He) & _).
  set (net' := fun u => if in_dec Nat.eq_dec u calls then net u else mkNode (@KProd XR) []).
  assert (In' : forall u, reach (children net) z u -> net' u = net u).
  { intros u Hu. unfold net'. destruct (in_dec Nat.eq_dec u calls) as [|n]; auto. exfalso. apply n, He, Hu. }
  assert (Ch : forall u c, In c (children net' u) -> In c (children net u) /\ reach (children net) z u).
  { intros u c. unfold children, net'. destruct (in_dec Nat.eq_dec u calls) as [i|]; [|intros []]. intros Hc. split; auto. apply He, i. }
  assert (Rc : forall u v, reach (children net') u v -> reach (children net) u v).
  { intros u v R. induction R; [constructor|]. destruct (Ch x c H). eapply reach_step; eauto. }
  exists net'. split; [|split; [|split; auto]].
  - intros u c Hc. apply (Hb u). apply Ch, Hc.
  - intros u c Hc R. destruct (Ch u c Hc) as [H1 H2]. exact (Ac u c H2 H1 (Rc _ _ R)).
Qed.

Section Same.
Variables (net net' : network XR) (z : nat).
Hypothesis same : forall u, reach (children net) z u -> net' u = net u.

Lemma same_there u v : reach (children net) z u -> reach (children net) u v -> reach (children net') u v.
Proof.
  intros Hu R. revert Hu. induction R; intros Hu; [constructor|].
  apply reach_step with c; [unfold children; rewrite same; auto|]. apply IHR. eapply reach_snoc; eauto.
Qed.
Lemma same_back u v : reach (children net) z u -> reach (children net') u v -> reach (children net) u v.
Proof.
  intros Hu R. revert Hu. induction R; intros Hu; [constructor|].
  assert (Hc : In c (children net x)) by (unfold children in *; rewrite same in H; auto).
  apply reach_step with c; auto. apply IHR. eapply reach_snoc; eauto.
Qed.
Lemma same_value f I : value net' f I z = value net f I z.
Proof.
  apply (value_rename net net' (fun u => u) z); [|constructor].
  intros u Hu. rewrite same, map_id by auto. destruct (net u); auto.
Qed.
Lemma same_scope u x : reach (children net) z u -> in_scope net' u x <-> in_scope net u x.
Proof.
  intros Hu. split; intros (v & l & R & K & Hx); exists v, l.
  - assert (R' := same_back u v Hu R). split; auto. rewrite same in K; auto. eapply reach_trans; eauto.
  - split; [apply same_there; auto|]. rewrite same; auto. eapply reach_trans; eauto.
Qed.
Lemma same_complete : complete net z -> complete net' z.
Proof.
  intros C u w c c' x R K Hc Hc' Hx. apply same_back in R; [|constructor]. rewrite same in K, Hc, Hc' by auto.
  apply same_scope; [eapply reach_snoc; eauto|]. apply (C u w c c' x); auto. apply same_scope; auto. eapply reach_snoc; eauto.
Qed.
Lemma same_decomposable : decomposable net z -> decomposable net' z.
Proof.
  intros D u i j c c' x R K ij Ei Ej Hx Hx'. apply same_back in R; [|constructor]. rewrite same in K, Ei, Ej by auto.
  apply (D u i j c c' x); auto; apply same_scope; auto; eapply reach_snoc; eauto; unfold children; eapply nth_error_In; eauto.
Qed.
Lemma same_weights : weights_nonneg net z -> weights_nonneg net' z.
Proof. intros W u w R K. apply same_back in R; [|constructor]. rewrite same in K |- * by auto. apply (W u w); auto. Qed.
Lemma same_normalised : weights_normalised net z -> weights_normalised net' z.
Proof. intros W u w R K. apply same_back in R; [|constructor]. rewrite same in K by auto. apply (W u w); auto. Qed.
Lemma same_own : own_scope net z -> own_scope net' z.
Proof. intros W u w R K. apply same_back in R; [|constructor]. rewrite same in K |- * by auto. apply (W u w); auto. Qed.
Lemma same_answers I : answers net I z -> answers net' I z.
Proof. intros W u w R K. apply same_back in R; [|constructor]. rewrite same in K by auto. apply (W u w); auto. Qed.
Lemma same_normal I : leaves_normal net I z -> leaves_normal net' I z.
Proof. intros W u w R K. apply same_back in R; [|constructor]. rewrite same in K by auto. apply (W u w); auto. Qed.
End Same.

Lemma mixture_app a b I : mixture (a ++ b) I = mixture a I + mixture b I.
Proof. unfold mixture. rewrite map_app. induction (map _ a) as [|y l IH]; simpl; [lra|]. rewrite IH. lra. Qed.
Lemma mixture_scale q ts I : mixture (map (fun t => (q * fst t, snd t)) ts) I = q * mixture ts I.
Proof.
  unfold mixture. rewrite map_map. rewrite <- Rsum_scal_l. apply Rsum_ext. intros (a, l) _. simpl. lra.
Qed.

Section Net.
Variable net : network XR.
Variables N r : nat.
Local Notation ch := (children net).
Hypothesis Hb : bounded ch N.
Hypothesis Hr : (r < N)%nat.
Hypothesis Ha : acyclic ch.
Hypothesis HW : weights_nonneg net r.
Hypothesis HO : own_scope net r.
Hypothesis HC : complete net r.
Hypothesis HD : decomposable net r.
Local Notation P := (P net N).

Lemma P_own I J : answers net I r -> answers net J r -> forall u, reach ch r u ->
  (forall x, in_scope net u x -> I x = J x) -> P I u = P J u.
Proof.
  intros HI HJ. apply (node_ind ch N r (fun u => (forall x, in_scope net u x -> I x = J x) -> P I u = P J u)); auto.
  intros u Hu IH HE.
  destruct (P_gen net N r Hb Hr Ha HW I HI u Hu) as (_ & _ & E1). destruct (P_gen net N r Hb Hr Ha HW J HJ u Hu) as (_ & _ & E2).
  assert (IH' : forall c, In c (nch (net u)) -> P I c = P J c).
  { intros c Hc. apply IH; auto. intros x Hx. apply HE. eapply scope_child; eauto. }
  destruct (nk (net u)) as [w| |l] eqn:EK.
  - destruct (HW u w Hu EK) as (_ & ws & -> & _). rewrite (E1 ws), (E2 ws) by auto. unfold psum.
    apply Rsum_ext. intros (c & w) Hin. apply in_combine_wt in Hin as [Hc _]. simpl. rewrite IH'; auto.
  - rewrite E1, E2. apply Rprod_ext. auto.
  - rewrite E1, E2. destruct (HO u l Hu EK) as (_ & HL). unfold pleaf. rewrite (HL I J); auto.
    intros x Hx. apply HE. exists u, l. split; [constructor|auto].
Qed.

Variables (J : varset) (x : Z) (vs : list Z).
Hypothesis HA : forall o, among vs o -> answers net (observe J x o) r.

Lemma P_out o o' u : among vs o -> among vs o' -> reach ch r u -> ~ in_scope net u x -> P (observe J x o) u = P (observe J x o') u.
Proof.
  intros Ho Ho' Hu Hx. apply P_own; auto. intros y Hy. unfold observe. destruct (Z.eqb_spec y x) as [->|]; auto. contradiction.
Qed.

Lemma P_linear : forall u, reach ch r u -> in_scope net u x ->
  exists ts, leaves_over net x u ts /\ forall o, among vs o -> P (observe J x o) u = mixture ts (observe J x o).
Proof.
  apply (node_ind ch N r (fun u => in_scope net u x -> exists ts, leaves_over net x u ts /\ forall o, among vs o -> P (observe J x o) u = mixture ts (observe J x o))); auto.
  intros u Hu IH Hs.
  assert (E : forall o, among vs o -> match nk (net u) with
    | KSum w => forall ws, w = map Fin ws -> P (observe J x o) u = psum (P (observe J x o)) (nch (net u)) ws
    | KProd => P (observe J x o) u = Rprod (map (P (observe J x o)) (nch (net u)))
    | KLeaf l => P (observe J x o) u = pleaf l (observe J x o)
    end). { intros o Ho. destruct (P_gen net N r Hb Hr Ha HW _ (HA o Ho) u Hu) as (_ & _ & E). exact E. }
  destruct (nk (net u)) as [w| |l] eqn:EK.
  - destruct (HW u w Hu EK) as (_ & ws & -> & _ & Hnn).
    destruct (scope_inv net u x Hs) as (c0 & Hc0 & Hx0); [intros l; congruence|].
    assert (IH' : forall c, In c (nch (net u)) -> exists ts, leaves_over net x c ts /\ forall o, among vs o -> P (observe J x o) c = mixture ts (observe J x o)).
    { intros c Hc. apply IH; auto. eapply (HC u _ c0 c); eauto. }
    assert (X : exists ts, leaves_over net x u ts /\ forall o, among vs o -> psum (P (observe J x o)) (nch (net u)) ws = mixture ts (observe J x o)).
    { clear E. assert (Ins : forall c, In c (nch (net u)) -> In c (ch u)) by auto. revert IH' Ins Hnn. clear -r. unfold psum.
      generalize (nch (net u)) as cs. revert ws. intros ws cs. revert ws. induction cs as [|c cs IHc]; intros ws IH' Ins Hnn.
      - exists []. split; [intros a l []|]. intros o _. reflexivity.
      - destruct ws as [|q ws]; [exists []; split; [intros a l []|reflexivity]|].
        destruct (IHc ws) as (ts & H1 & H2); [intros; apply IH'; right; auto|intros; apply Ins; right; auto|intros; apply Hnn; right; auto|].
        destruct (IH' c) as (tc & T1 & T2); [left; auto|].
        exists (map (fun t => (q * fst t, snd t)) tc ++ ts). split.
        + intros a l Hin. apply in_app_iff in Hin as [Hin|Hin]; [|auto].
          apply in_map_iff in Hin as ((a' & l') & [= <- <-] & Hin). destruct (T1 _ _ Hin) as (A1 & A2 & v & A3 & A4).
          split; [|split; auto]; [apply Rmult_le_pos; auto; apply Hnn; left; auto|]. exists v. split; auto.
          eapply reach_step; eauto. apply Ins. left; auto.
        + intros o Ho. rewrite mixture_app, mixture_scale. cbn [combine map fst snd Rsum]. rewrite (H2 o Ho), (T2 o Ho). lra. }
    destruct X as (ts & H1 & H2). exists ts. split; auto. intros o Ho. rewrite (E o Ho ws); auto.
  - destruct (scope_inv net u x Hs) as (c0 & Hc0 & Hx0); [intros l; congruence|].
    destruct (IH c0 Hc0 Hx0) as (ts & T1 & T2).
    pose proof Hc0 as Hc0'. apply in_split in Hc0 as (a & b & Eab).
    assert (Hi : nth_error (nch (net u)) (length a) = Some c0).
    { rewrite Eab, nth_error_app2, Nat.sub_diag by lia. auto. }
    assert (Hout : forall c, In c a \/ In c b -> ~ in_scope net c x).
    { intros c [Hc|Hc]; apply In_nth_error in Hc as (j & Hj).
      - assert (j < length a)%nat by (apply nth_error_Some; congruence).
        apply (only_child net r HD u x c0 (length a) Hu EK Hi Hx0 j c); [|lia].
        rewrite Eab, nth_error_app1 by auto. auto.
      - apply (only_child net r HD u x c0 (length a) Hu EK Hi Hx0 (length a + S j)%nat c); [|lia].
        rewrite Eab, nth_error_app2 by lia. replace (length a + S j - length a)%nat with (S j) by lia. auto. }
    assert (Hrc : forall c, In c a \/ In c b -> reach ch r c).
    { intros c Hc. apply (reach_snoc ch r u c Hu). unfold children. rewrite Eab. apply in_or_app. simpl. tauto. }
    set (k := Rprod (map (P (observe J x None)) a) * Rprod (map (P (observe J x None)) b)).
    assert (Hk : 0 <= k).
    { apply Rmult_le_pos; apply Rprod_nonneg; intros y Hy; apply in_map_iff in Hy as (c & <- & Hc);
        apply (P_gen net N r Hb Hr Ha HW _ (HA None Logic.I) c); apply Hrc; auto. }
    exists (map (fun t => (k * fst t, snd t)) ts). split.
    + intros a' l Hin. apply in_map_iff in Hin as ((a'' & l') & [= <- <-] & Hin). destruct (T1 _ _ Hin) as (A1 & A2 & v & A3 & A4).
      split; [apply Rmult_le_pos; auto|]. split; auto. exists v. split; auto. eapply reach_step; eauto.
    + intros o Ho. rewrite mixture_scale, <- (T2 o Ho), (E o Ho), Eab, map_app, Rprod_app. cbn [map Rprod fold_right].
      rewrite (Rprod_ext (P (observe J x o)) (P (observe J x None)) a) by (intros; apply P_out; auto; exact Logic.I).
      rewrite (Rprod_ext (P (observe J x o)) (P (observe J x None)) b) by (intros; apply P_out; auto; exact Logic.I). unfold k. simpl. lra.
  - exists [(1, l)]. destruct (HO u l Hu EK) as (E0 & _). split.
    + intros a l' [[= <- <-]|[]]. split; [lra|]. split; [|exists u; split; [constructor|auto]].
      destruct Hs as (v & l' & R & K & Hx). apply reach_inv in R as [<-|(c & Hc & _)]; [congruence|].
      unfold children in Hc. rewrite E0 in Hc. destruct Hc.
    + intros o Ho. rewrite (E o Ho). unfold mixture, density, pleaf. simpl. lra.
Qed.

End Net.

Lemma missing_l net N r J x vs : bounded (children net) N -> (r < N)%nat -> acyclic_from (children net) r ->
  weights_nonneg net r -> own_scope net r -> complete net r -> decomposable net r ->
  (forall o, among vs o -> answers net (observe J x o) r) -> in_scope net r x ->
  exists ts, leaves_over net x r ts /\ forall o, among vs o -> value net N (observe J x o) r = Ok (xln (mixture ts (observe J x o))).
Proof.
  intros Hb Hr Ac HW HO HC HD HA Hx. destruct (prune net N r Hb Hr Ac) as (net' & Hb' & Ac' & Sm & _).
  assert (Rr : reach (children net) r r) by constructor.
  destruct (P_linear net' N r Hb' Hr Ac' (same_weights _ _ _ Sm HW) (same_own _ _ _ Sm HO) (same_complete _ _ _ Sm HC)
    (same_decomposable _ _ _ Sm HD) J x vs (fun o Ho => same_answers _ _ _ Sm _ (HA o Ho)) r ltac:(constructor)) as (ts & H1 & H2).
  { apply (same_scope _ _ _ Sm); auto. }
  exists ts. split.
  - intros a l Hin. destruct (H1 a l Hin) as (A1 & A2 & u & A3 & A4). split; auto. split; auto. exists u.
    apply (same_back _ _ _ Sm) in A3; auto. split; auto. rewrite <- (Sm u); auto.
  - intros o Ho. rewrite <- (same_value _ _ _ Sm), <- (H2 o Ho).
    apply (P_gen net' N r Hb' Hr Ac' (same_weights _ _ _ Sm HW) _ (same_answers _ _ _ Sm _ (HA o Ho)) r). constructor.
Qed.

Lemma mixture_nonneg net x r ts I : leaves_over net x r ts -> 0 <= mixture ts I.
Proof.
  intros H. apply Rsum_nonneg. intros y Hy. apply in_map_iff in Hy as ((a & l) & <- & Hin). simpl.
  destruct (H a l Hin) as (Ha & _). apply Rmult_le_pos; auto. unfold density. destruct (lvalue l I); [apply lin_nonneg|lra].
Qed.

Lemma mixture_sum ts (f : Z -> varset) vs :
  Rsum (map (fun v => mixture ts (f v)) vs) = Rsum (map (fun t => fst t * Rsum (map (fun v => density (snd t) (f v)) vs)) ts).
Proof.
  unfold mixture. rewrite Rsum_swap. apply Rsum_ext. intros t _. rewrite <- Rsum_scal_l. reflexivity.
Qed.

(** Summing over values of the variable. *)
Lemma missing_sum_l net N r J x lo hi vs : bounded (children net) N -> (r < N)%nat -> acyclic_from (children net) r ->
  weights_nonneg net r -> own_scope net r -> complete net r -> decomposable net r ->
  (forall o, among vs o -> answers net (observe J x o) r) -> in_scope net r x ->
  (forall u l, reach (children net) r u -> nk (net u) = KLeaf l -> In x (lsc l) ->
    lo * density l (observe J x None) <= Rsum (map (fun v => density l (observe J x (Some v))) vs) <= hi * density l (observe J x None)) ->
  exists p q, value net N (observe J x None) r = Ok (xln p) /\ 0 <= p /\
    (forall v, In v vs -> value net N (observe J x (Some v)) r = Ok (xln (q v)) /\ 0 <= q v) /\
    lo * p <= Rsum (map q vs) <= hi * p.
Proof.
  intros Hb Hr Ac HW HO HC HD HA Hx HB.
  destruct (missing_l net N r J x vs Hb Hr Ac HW HO HC HD HA Hx) as (ts & T1 & T2).
  exists (mixture ts (observe J x None)), (fun v => mixture ts (observe J x (Some v))).
  split; [apply T2; exact Logic.I|]. split; [eapply mixture_nonneg; eauto|]. split; [intros v Hv; split; auto; eapply mixture_nonneg; eauto|].
  rewrite (mixture_sum ts (fun v => observe J x (Some v))). unfold mixture. rewrite <- !Rsum_scal_l.
  assert (X : forall a l, In (a, l) ts -> 0 <= a /\
    lo * density l (observe J x None) <= Rsum (map (fun v => density l (observe J x (Some v))) vs) <= hi * density l (observe J x None)).
  { intros a l Hin. destruct (T1 a l Hin) as (A1 & A2 & u & A3 & A4). split; auto. apply (HB u l); auto. }
  clear T1 T2. induction ts as [|(a, l) ts IH]; simpl; [lra|].
  destruct (X a l ltac:(left; auto)) as (A1 & A2 & A3). destruct IH as [I1 I2]; [intros; apply X; right; auto|].
  assert (a * (lo * density l (observe J x None)) <= a * Rsum (map (fun v => density l (observe J x (Some v))) vs)) by (apply Rmult_le_compat_l; auto).
  assert (a * Rsum (map (fun v => density l (observe J x (Some v))) vs) <= a * (hi * density l (observe J x None))) by (apply Rmult_le_compat_l; auto).
  simpl in *. split; lra.
Qed.

(** No evidence. *)
Lemma nothing_l net N r I : bounded (children net) N -> (r < N)%nat -> acyclic_from (children net) r ->
  weights_nonneg net r -> weights_normalised net r -> leaves_normal net I r -> value net N I r = Ok (Fin 0).
Proof.
  intros Hb Hr Ac HW HN HI. destruct (prune net N r Hb Hr Ac) as (net' & Hb' & Ac' & Sm & _).
  rewrite <- (same_value _ _ _ Sm).
  apply (same_weights _ _ _ Sm) in HW. apply (same_normalised _ _ _ Sm) in HN. apply (same_normal _ _ _ Sm) in HI.
  assert (HA : answers net' I r) by (intros u l Hu K; rewrite (HI u l Hu K); exists (Fin 0); split; [auto|exact Logic.I]).
  assert (X : forall u, reach (children net') r u -> P net' N I u = 1).
  { apply (node_ind (children net') N r (fun u => P net' N I u = 1)); auto. intros u Hu IH.
    destruct (P_gen net' N r Hb' Hr Ac' HW I HA u Hu) as (_ & _ & E). destruct (nk (net' u)) as [w| |l] eqn:EK.
    - destruct (HW u w Hu EK) as (_ & ws & -> & HL & _). rewrite (E ws) by auto. specialize (HN u ws Hu EK). rewrite <- HN. unfold psum.
      clear -IH HL. change (children net' u) with (nch (net' u)) in IH. revert ws HL IH. generalize (nch (net' u)) as cs. induction cs as [|c cs IHc]; intros [|q ws] HL IH; try discriminate; auto.
      cbn [combine map fst snd Rsum]. simpl. rewrite IHc, IH; [lra|left; auto|simpl in HL; lia|intros; apply IH; right; auto].
    - rewrite E. clear -IH. change (children net' u) with (nch (net' u)) in IH. revert IH. generalize (nch (net' u)) as cs.
      induction cs as [|c cs IHc]; intros IH; auto. simpl. rewrite IH, IHc; [lra|intros; apply IH; right; auto|left; auto].
    - rewrite E. unfold pleaf. rewrite (HI u l Hu EK). simpl. apply exp_0. }
  destruct (P_gen net' N r Hb' Hr Ac' HW I HA r) as (-> & _); [constructor|]. rewrite X by constructor. rewrite xln_one. reflexivity.
Qed.
