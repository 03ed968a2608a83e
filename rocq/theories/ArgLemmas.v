From Coq Require Import Reals Lra Classical_Prop.
From Verif Require Import Base Res Arith LogMath LogSpec LogLemmas GraphSpec GraphLemmas Topo TopoLemmas
  Spn DP SpnSpec SpnLemmas Leaves ProbSpec ProbLemmas.
Local Open Scope R_scope.

Lemma Rmaxl_snoc l x a : Rmaxl (l ++ [x]) a = if Rlt_dec (Rmaxl l a) x then x else Rmaxl l a.
Proof. unfold Rmaxl. rewrite fold_left_app. reflexivity. Qed.

Lemma Rmaxl_ge0 l : 0 <= Rmaxl l 0.
Proof. destruct (Rmaxl_spec l 0) as (H & _). exact H. Qed.

(** The choice made by a sum node in ArgMax. *)
Lemma arg_sum_fold (L : list (nat * R)) (mx : nat -> R) :
  (forall cw, In cw L -> 0 <= snd cw * mx (fst cw)) ->
  let m := Rmaxl (map (fun cw => snd cw * mx (fst cw)) L) 0 in
  exists oc,
    fold_left (fun (st : xreal * option nat) cw =>
                 let m := xln (snd cw * mx (fst cw)) in
                 if xgt m (fst st) then (m, Some (fst cw)) else st) L (xln 0, None) = (xln m, oc) /\
    (0 < m -> exists cw, In cw L /\ oc = Some (fst cw) /\ snd cw * mx (fst cw) = m).
Proof.
  induction L as [|cw L IH] using rev_ind; intros H.
  - simpl. exists None. split; auto. unfold Rmaxl; simpl. lra.
  - destruct IH as (oc & E & Hoc); [intros; apply H; apply in_or_app; auto|].
    rewrite fold_left_app, E. cbn [fold_left fst snd].
    rewrite map_app. cbn [map]. rewrite Rmaxl_snoc.
    set (m := Rmaxl (map (fun cw => snd cw * mx (fst cw)) L) 0) in *.
    assert (Hm : 0 <= m) by apply Rmaxl_ge0.
    assert (Hc : 0 <= snd cw * mx (fst cw)) by (apply H; apply in_or_app; right; left; auto).
    rewrite xgt_xln by auto.
    destruct (Rlt_dec m (snd cw * mx (fst cw))) as [Hlt|Hge].
    + eexists. split; [reflexivity|]. intros _. exists cw. split; [apply in_or_app; right; left; auto|auto].
    + exists oc. split; auto. intros Hp. destruct (Hoc Hp) as (cw' & H1 & H2 & H3). exists cw'.
      split; [apply in_or_app; auto|auto].
Qed.

Section Arg.
Variable net : network XR.
Variable card : Z -> nat.
Variables N r : nat.
Local Notation ch := (children net).
Hypothesis Hb : bounded ch N.
Hypothesis Hr : (r < N)%nat.
Hypothesis Ha : acyclic ch.
Hypothesis HW : weights_nonneg net r.
Hypothesis HM : multinomial_leaves net card r.
Hypothesis HC : complete net r.
Hypothesis HD : decomposable net r.
Variable I : varset.
Hypothesis HI : evidence_ok card I.
Local Notation P := (P net N).
Local Notation MX := (MX net N).

Lemma multi_discrete : discrete_leaves net card r.
Proof. intros u l Hu E. destruct (HM u l Hu E) as (H0 & x & Hx). split; auto. exists x. left; auto. Qed.
Let HL := multi_discrete.

(** What the assignment returned for node [u] satisfies. *)
Definition good (u : nat) (J : varset) : Prop :=
  (forall x, J x <> None <-> in_scope net u x) /\
  (forall x v, in_scope net u x -> I x = Some v -> J x = Some v) /\
  evidence_ok card J /\
  (forall J', evidence_ok card J' -> (forall x, in_scope net u x -> J' x = J x) -> MX I u <= P J' u).

Definition jof (f : nat) (u : nat) : varset :=
  match argMax net f I u with Ok a => fst a | _ => fun _ => None end.

Lemma mleaf_argmax l x : multinomial_leaf card l x ->
  exists J, largmax l I = Some (J, xln (mleaf l I)) /\
    (forall y, J y <> None <-> y = x) /\ (forall v, I x = Some v -> J x = Some v) /\
    evidence_ok card J /\ (forall J', J' x = J x -> mleaf l I <= pleaf l J').
Proof.
  intros (ps & mi & -> & Hlen & Hp & Hs & Hm & Hmax).
  assert (Hmi : In (nth mi ps 0) ps) by (apply nth_In; lia).
  unfold mleaf, pleaf, multiLeaf, largmax, lmax, lvalue, multiArgMax, multiMax, multiValue.
  cbn [m_varid m_pr m_modei m_modev]. change (@flog XR) with xlog.
  assert (Hdom : forall v y, vsingle x v y <> None <-> y = x).
  { intros v y. unfold vsingle. destruct (Z.eq_dec y x) as [->|Hn].
    - rewrite updZ_same. split; auto. discriminate.
    - rewrite updZ_diff by auto. split; congruence. }
  assert (Hok : forall v, (0 <= v < Z.of_nat (card x))%Z -> evidence_ok card (vsingle x v)).
  { intros v Hv y u. unfold vsingle. destruct (Z.eq_dec y x) as [->|Hn].
    - rewrite updZ_same. intros E; injection E as <-; auto.
    - rewrite updZ_diff by auto. discriminate. }
  assert (Hn : forall v, (0 <= v < Z.of_nat (card x))%Z -> In (nth (Z.to_nat v) ps 0) ps)
    by (intros v Hv; apply nth_In; lia).
  destruct (I x) as [v|] eqn:E.
  - pose proof (HI x v E) as Hv. rewrite prAt_ok by (rewrite Hlen; auto). cbn [option_map].
    rewrite xlog_nonneg by auto. rewrite lin_xln by auto.
    exists (vsingle x v). split; [reflexivity|]. split; auto. split.
    { intros v' Ev. injection Ev as <-. unfold vsingle. apply updZ_same. }
    split; auto. intros J' EJ. unfold vsingle in EJ. rewrite updZ_same in EJ. rewrite EJ.
    rewrite prAt_ok by (rewrite Hlen; auto). cbn [option_map]. rewrite xlog_nonneg by auto.
    rewrite lin_xln by auto. lra.
  - assert (Hv : (0 <= Z.of_nat mi < Z.of_nat (card x))%Z) by lia.
    rewrite xlog_nonneg by auto. rewrite lin_xln by auto.
    exists (vsingle x (Z.of_nat mi)). split; [reflexivity|]. split; auto. split; [discriminate|].
    split; auto. intros J' EJ. unfold vsingle in EJ. rewrite updZ_same in EJ. rewrite EJ.
    rewrite prAt_ok by (rewrite Hlen; auto). cbn [option_map]. rewrite xlog_nonneg by auto.
    rewrite lin_xln by auto. rewrite Nat2Z.id. lra.
Qed.

Lemma prod_fold f : forall L J0 a i, 0 <= a ->
  (forall c, In c L -> argMax net f I c = Ok (jof f c, xln (MX I c)) /\ 0 <= MX I c) ->
  exists J', foldi_from i (fun _ (st : varset * F XR) c =>
                   a <- argMax net f I c; Ok (merge (fst st) (fst a), fadd (snd st) (snd a)))
                L (J0, xln a) = Ok (J', xln (a * Rprod (map (MX I) L))) /\
    (forall x, (forall c, In c L -> jof f c x = None) -> J' x = J0 x) /\
    (forall x l1 c l2, L = l1 ++ c :: l2 -> jof f c x <> None -> (forall d, In d l2 -> jof f d x = None) ->
       J' x = jof f c x).
Proof.
  induction L as [|c L IH]; intros J0 a i Ha0 H.
  - exists J0. simpl. rewrite Rmult_1_r. split; auto. split; auto. intros x l1 c l2 E. destruct l1; discriminate.
  - cbn [foldi_from]. destruct (H c (or_introl eq_refl)) as [E Hc]. rewrite E. cbn [bind fst snd].
    change (@fadd XR) with xadd. rewrite xadd_xln by auto.
    destruct (IH (merge J0 (jof f c)) (a * MX I c) (i + 1)%nat) as (J' & E' & H1 & H2).
    { apply Rmult_le_pos; auto. } { intros; apply H; right; auto. }
    exists J'. split.
    { etransitivity; [exact E'|]. do 3 f_equal. simpl. lra. }
    split.
    + intros x Hx. rewrite H1 by (intros; apply Hx; right; auto). unfold merge. rewrite Hx by (left; auto). auto.
    + intros x [|d l1] c' l2 EL Hne Hl2; injection EL as -> EL.
      * subst L. rewrite H1 by auto. unfold merge. destruct (jof f c' x); congruence.
      * eapply H2; eauto.
Qed.

Lemma argMax_ind f u : reach ch r u -> (N <= f)%nat ->
  max_ net f I u = Ok (xln (MX I u)) /\
  (0 < MX I u -> exists J, argMax net f I u = Ok (J, xln (MX I u)) /\ good u J).
Proof.
  revert f u. apply (fuel_ind ch N r); auto. intros f u Hu IH.
  destruct (M_spec net card N r Hb Hr Ha HW HL I HI u Hu) as (_ & HM0 & E1).
  assert (Hrc : forall c, In c (nch (net u)) -> reach ch r c).
  { intros c Hc. eapply reach_snoc; eauto. }
  assert (HMc : forall c, In c (nch (net u)) -> 0 <= MX I c).
  { intros c Hc. apply (M_spec net card N r Hb Hr Ha HW HL); auto. }
  cbn [max_ argMax]. destruct (nk (net u)) as [w| |l] eqn:EK.
  - destruct (HW u w Hu EK) as (Hne & ws & -> & HLen & Hnn). specialize (E1 ws eq_refl). split.
    + rewrite E1. unfold foldi.
      rewrite (foldi_zip _ (fun m c wi => let cv := xadd (@flog XR wi) (xln (MX I c)) in
                                            if xgt cv m then cv else m) (map Fin ws) _ (map Fin ws) []);
          [|reflexivity|rewrite map_length; auto|].
      * f_equal. rewrite combine_map_r. change (@fninf XR) with NInf. rewrite <- xln_zero.
        unfold pmax. rewrite <- fold_max_xln; [|lra|].
        2:{ intros y Hy. apply in_map_iff in Hy as ((c & w) & <- & Hin). apply in_combine_wt in Hin as [H1 H2].
            simpl. apply Rmult_le_pos; auto. }
        assert (Hsub : forall cw, In cw (combine (nch (net u)) ws) -> In (fst cw) (nch (net u)) /\ In (snd cw) ws)
          by (intros (c & w) Hin; apply in_combine_wt in Hin; auto).
        revert Hsub. generalize (combine (nch (net u)) ws) as L. generalize (xln 0) as a.
        intros a L. revert a. induction L as [|(c, w) L IHL]; intros a Hsub; auto.
        cbn [map fold_left fst snd].
        destruct (Hsub (c, w) (or_introl eq_refl)) as [H1 H2]. cbn [fst snd] in H1, H2.
        change (@flog XR) with xlog. rewrite (xlog_nonneg w) by auto.
        rewrite (xadd_xln w (MX I c)) by auto.
        apply IHL. intros cw Hin. apply Hsub. right; auto.
      * intros i s c wi Hc Hw. unfold idx. rewrite Hw. cbn [bind]. destruct (IH c Hc) as (-> & _). reflexivity.
    + intros Hpos.
      assert (EF : exists oc, foldi (fun i (st : F XR * option nat) c =>
                 wi <- idx (map Fin ws) i; v <- max_ net f I c;
                 let m := @fadd XR (@flog XR wi) v in
                 Ok (if @fgt XR m (fst st) then (m, Some c) else st)) (nch (net u)) (@fninf XR, None)
                 = Ok (xln (MX I u), oc) /\
            exists cw, In cw (combine (nch (net u)) ws) /\ oc = Some (fst cw) /\ snd cw * MX I (fst cw) = MX I u).
      { unfold foldi.
        rewrite (foldi_zip _ (fun (st : xreal * option nat) c wi => let m := xadd (@flog XR wi) (xln (MX I c)) in
                              if xgt m (fst st) then (m, Some c) else st) (map Fin ws) _ (map Fin ws) []);
          [|reflexivity|rewrite map_length; auto|].
        - assert (Hsub : forall cw, In cw (combine (nch (net u)) ws) -> In (fst cw) (nch (net u)) /\ In (snd cw) ws)
            by (intros (c & w) Hin; apply in_combine_wt in Hin; auto).
          destruct (arg_sum_fold (combine (nch (net u)) ws) (MX I)) as (oc & EO & Ho).
          { intros cw Hin. apply Hsub in Hin as [H1 H2]. apply Rmult_le_pos; auto. }
          fold (pmax (MX I) (nch (net u)) ws) in EO, Ho. rewrite <- E1 in EO, Ho.
          exists oc. split; [|apply Ho; auto]. rewrite <- EO. f_equal. rewrite combine_map_r.
          change (@fninf XR) with NInf. rewrite <- xln_zero.
          change (@pair (F XR) (option nat) (xln 0) None) with (@pair xreal (option nat) (xln 0) None).
          generalize (@pair xreal (option nat) (xln 0) None) as a.
          revert Hsub. clear EO Ho. generalize (combine (nch (net u)) ws) as L.
          induction L as [|(c, w) L IHL]; intros Hsub a; auto. cbn [map fold_left fst snd].
          destruct (Hsub (c, w) (or_introl eq_refl)) as [H1 H2]. cbn [fst snd] in H1, H2.
          change (@flog XR) with xlog. rewrite (xlog_nonneg w) by auto.
          rewrite (xadd_xln w (MX I c)) by auto. apply IHL. intros; apply Hsub; right; auto.
        - intros i s c wi Hc Hw. change (F XR) with xreal in Hw |- *. unfold idx. rewrite Hw. cbn [bind]. destruct (IH c Hc) as (-> & _). reflexivity. }
      destruct EF as (oc & EF & cw & Hin & -> & Em).
      match goal with |- context [bind (foldi ?g ?l ?s0) _] =>
        change (foldi g l s0 = Ok (xln (MX I u), Some (fst cw))) in EF; rewrite EF end.
      destruct cw as [c w]. cbn [bind fst snd].
      pose proof Hin as Hin'. apply in_combine_wt in Hin' as [Hc Hw]. cbn [fst snd] in Em.
      pose proof (HMc c Hc) as Hm0. pose proof (Hnn w Hw) as Hw0.
      assert (Hcp : 0 < MX I c).
      { destruct (Rle_lt_or_eq_dec _ _ Hm0) as [|E]; auto. rewrite <- E in Em. lra. }
      destruct (proj2 (IH c Hc) Hcp) as (J & EJ & G1 & G2 & G3 & G4). rewrite EJ. cbn [bind fst].
      exists J. split; auto.
      assert (Hsc : forall x, in_scope net u x <-> in_scope net c x).
      { intros x. split; intros Hx.
        - destruct (scope_inv net u x Hx) as (d & Hd & Hdx); [intros l; congruence|].
          eapply (HC u _ d c); eauto.
        - eapply scope_child; eauto. }
      split; [intros x; rewrite Hsc; apply G1|]. split; [intros x v Hx; apply G2; apply Hsc; auto|].
      split; auto. intros J' HJ' Hag.
      destruct (P_spec net card N r Hb Hr Ha HW HL J' HJ' u Hu) as (_ & _ & E2). rewrite EK in E2.
      rewrite (E2 ws) by auto. rewrite <- Em. apply Rle_trans with (P J' c * w).
      * rewrite Rmult_comm. apply Rmult_le_compat_r; auto. apply G4; auto. intros x Hx. apply Hag. apply Hsc; auto.
      * unfold psum. apply Rsum_ge_elem.
        -- intros y Hy. apply in_map_iff in Hy as ((c' & w') & <- & Hin'). apply in_combine_wt in Hin' as [Hc' Hw'].
           simpl. apply Rmult_le_pos; auto. apply (P_nonneg net card N r); auto.
        -- apply in_map_iff. exists (c, w). auto.
  - split.
    + rewrite E1. unfold foldi. rewrite (foldi_fold _ (fun v c => xadd v (xln (MX I c)))).
      2:{ intros i s c Hc. destruct (IH c Hc) as (-> & _). reflexivity. }
      f_equal. change (@fz XR 0) with (Fin 0). rewrite <- xln_one.
      rewrite <- (Rmult_1_l (Rprod _)), <- fold_xadd_xln; [|lra|].
      2:{ intros y Hy. apply in_map_iff in Hy as (c & <- & Hc). auto. }
      rewrite map_map. generalize (nch (net u)) as L. generalize (xln 1) as a.
      intros a L. revert a. induction L as [|c L IHL]; intros a; auto. cbn [map fold_left]. apply IHL.
    + intros Hpos. rewrite E1 in Hpos.
      assert (Hcp : forall c, In c (nch (net u)) -> 0 < MX I c).
      { intros c Hc. eapply Rprod_pos_inv; [|exact Hpos|apply in_map; auto].
        intros y Hy. apply in_map_iff in Hy as (d & <- & Hd). auto. }
      assert (HJ : forall c, In c (nch (net u)) -> argMax net f I c = Ok (jof f c, xln (MX I c)) /\ good c (jof f c)).
      { intros c Hc. destruct (proj2 (IH c Hc) (Hcp c Hc)) as (J & EJ & G). unfold jof. rewrite EJ. auto. }
      destruct (prod_fold f (nch (net u)) (fun _ => None) 1 0 ltac:(lra)) as (J & EJ & J1 & J2).
      { intros c Hc. destruct (HJ c Hc). auto. }
      rewrite xln_one, Rmult_1_l, <- E1 in EJ. exists J. split; [exact EJ|].
      assert (Hj : forall c x, In c (nch (net u)) -> (jof f c x <> None <-> in_scope net c x)).
      { intros c x Hc. apply (proj2 (HJ c Hc)). }
      assert (HJc : forall c x, In c (nch (net u)) -> in_scope net c x -> J x = jof f c x).
      { intros c x Hc Hx. destruct (in_split _ _ Hc) as (l1 & l2 & El).
        apply (J2 x l1 c l2 El); [apply Hj; auto|]. intros d Hd.
        destruct (jof f d x) eqn:Ed; auto. exfalso.
        destruct (In_nth_error _ _ Hd) as (j & Hjn).
        assert (Hdc : In d (nch (net u))) by (rewrite El; apply in_or_app; right; right; auto).
        assert (Hdx : in_scope net d x) by (apply Hj; auto; congruence).
        refine (HD u (length l1) (length l1 + S j)%nat c d x Hu EK _ _ _ Hx Hdx); [lia| |].
        - rewrite El, nth_error_app2, Nat.sub_diag by lia. auto.
        - rewrite El, nth_error_app2 by lia. replace (length l1 + S j - length l1)%nat with (S j) by lia. auto. }
      assert (Hinv : forall x, in_scope net u x -> exists c, In c (nch (net u)) /\ in_scope net c x).
      { intros x Hx. apply scope_inv; auto. intros l; congruence. }
      assert (Hdom : forall x, J x <> None <-> in_scope net u x).
      { intros x. split.
        - intros Hx. destruct (classic (in_scope net u x)) as [|Hno]; auto. exfalso. apply Hx. apply J1.
          intros c Hc. destruct (jof f c x) eqn:Ec; auto. exfalso. apply Hno.
          eapply scope_child; eauto. apply Hj; auto. congruence.
        - intros Hx. destruct (Hinv x Hx) as (c & Hc & Hcx). rewrite (HJc c x Hc Hcx). apply Hj; auto. }
      split; auto. split; [|split].
      * intros x v Hx Ev. destruct (Hinv x Hx) as (c & Hc & Hcx). rewrite (HJc c x Hc Hcx).
        apply (proj2 (HJ c Hc)); auto.
      * intros x v Ev. assert (Hx : in_scope net u x) by (apply Hdom; congruence).
        destruct (Hinv x Hx) as (c & Hc & Hcx). rewrite (HJc c x Hc Hcx) in Ev.
        apply (proj2 (HJ c Hc)) in Ev. auto.
      * intros J' HJ' Hag. destruct (P_spec net card N r Hb Hr Ha HW HL J' HJ' u Hu) as (_ & _ & E2).
        rewrite EK in E2. rewrite E1, E2. apply Rprod_le. intros c Hc. split; auto.
        apply (proj2 (HJ c Hc)); auto. intros x Hx. rewrite Hag by (eapply scope_child; eauto). auto.
  - destruct (HM u l Hu EK) as (_ & x & Hm).
    destruct (dleaf_value card l x I (or_introl Hm) HI) as (_ & Ev & _). rewrite Ev, E1. split; auto.
    intros Hpos. destruct (mleaf_argmax l x Hm) as (J & EJ & H1 & H2 & H3 & H4). rewrite EJ. exists J.
    split; auto.
    assert (Hsc : forall y, in_scope net u y <-> y = x).
    { intros y. apply (scope_leaf net card r HL u l x y Hu EK). left; auto. }
    split; [intros y; rewrite Hsc; apply H1|]. split; [intros y v Hy; apply Hsc in Hy as ->; auto|].
    split; auto. intros J' HJ' Hag.
    destruct (P_spec net card N r Hb Hr Ha HW HL J' HJ' u Hu) as (_ & _ & E2). rewrite EK in E2.
    rewrite E1, E2. apply H4. apply Hag. apply Hsc; auto.
Qed.
End Arg.
