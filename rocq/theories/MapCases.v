(** StoreMAP on multinomial networks, and witnesses. *)
From Coq Require Import Reals Lra.
From Verif Require Import Base Res Arith LogMath LogSpec LogLemmas GraphSpec GraphLemmas Topo TopoLemmas
  Storer StorerLemmas Spn DP SpnSpec SpnLemmas Leaves ProbSpec ProbLemmas ArgLemmas ProbCases MapSpec MapLemmas.
Local Open Scope R_scope.

Section Multi.
Variable net : network XR.
Variable card : Z -> nat.
Variables N r : nat.
Local Notation ch := (children net).
Hypothesis Hb : bounded ch N.
Hypothesis Hr : (r < N)%nat.
Hypothesis Ha : acyclic ch.
Hypothesis HW : weights_nonneg net r.
Hypothesis HM : multinomial_leaves net card r.
Hypothesis HC : complete net r.
Hypothesis HD : decomposable net r.
Variable I : varset.
Hypothesis HI : evidence_ok card I.
Let HL := multi_discrete net card r HM.

Lemma multi_answer : leaves_answer net I r.
Proof.
  intros u l Hu EK. destruct (HM u l Hu EK) as (_ & x & Hx).
  destruct (dleaf_value card l x I (or_introl Hx) HI) as (_ & E1 & E2 & _).
  destruct (mleaf_argmax card 1 0 Nat.lt_0_1 I HI l x Hx) as (J & EJ & _).
  exists (xln (mleaf l I)), J, (xln (mleaf l I)). split; auto. split; auto.
  unfold logval. unfold xln. destruct (Rlt_dec 0 (mleaf l I)); eauto.
Qed.

Variable sel : nat -> nat.
Hypothesis HT : maximal_tree net N I r sel.
Local Notation S := (selected net sel).

Lemma sel_child u c : reach S r u -> In c (S u) -> In c (nch (net u)).
Proof.
  unfold selected. intros Hu Hc. destruct (nk (net u)) as [w| |l] eqn:EK; auto; [|destruct Hc].
  destruct Hc as [<-|[]]. destruct (HT u w Hu EK) as (i & E & _). eapply nth_error_In; eauto.
Qed.

Lemma sel_reach u v : reach S r u -> reach S u v -> reach ch u v.
Proof.
  intros Hu H. revert Hu. induction H as [|x c y Hc H IH]; intros Hx; [apply reach_refl|].
  eapply reach_step; [apply sel_child; eauto|]. apply IH. eapply reach_snoc; eauto.
Qed.

Lemma sel_ch u : reach S r u -> reach ch r u.
Proof. intros H. eapply sel_reach; eauto. apply reach_refl. Qed.

(** Every variable in scope has exactly one leaf in the tree. *)
Lemma sel_unique u : reach S r u -> forall v v' l l' x, reach S u v -> reach S u v' ->
  nk (net v) = KLeaf l -> nk (net v') = KLeaf l' -> In x (lsc l) -> In x (lsc l') -> v = v'.
Proof.
  intros Hu0. pose proof (sel_ch u Hu0) as Hc0. revert u Hc0 Hu0.
  apply (node_ind ch N r (fun u => reach S r u -> forall v v' l l' x, reach S u v -> reach S u v' ->
  nk (net v) = KLeaf l -> nk (net v') = KLeaf l' -> In x (lsc l) -> In x (lsc l') -> v = v')); auto.
  intros u Hu IH Hs v v' l l' x Hv Hv' El El' Hx Hx'.
  apply reach_inv in Hv as [<-|(c & Hc & Hv)].
  - apply reach_inv in Hv' as [<-|(c' & Hc' & Hv')]; auto. unfold selected in Hc'. rewrite El in Hc'. destruct Hc'.
  - apply reach_inv in Hv' as [<-|(c' & Hc' & Hv')]; [unfold selected in Hc; rewrite El' in Hc; destruct Hc|].
    assert (Sc : reach S r c) by (eapply reach_snoc; [exact Hs|exact Hc]).
    assert (Sc' : reach S r c') by (eapply reach_snoc; [exact Hs|exact Hc']).
    assert (E : c = c').
    { unfold selected in Hc, Hc'. destruct (nk (net u)) as [w| |l0] eqn:EK; [|clear IH|destruct Hc].
      - destruct Hc as [<-|[]]. destruct Hc' as [<-|[]]. auto.
      - destruct (Nat.eq_dec c c') as [|Hn]; auto. exfalso.
        apply In_nth_error in Hc as (i & Hi). apply In_nth_error in Hc' as (j & Hj).
        refine (HD u i j c c' x Hu EK _ Hi Hj _ _).
        + intros ->. congruence.
        + exists v, l. split; auto. apply sel_reach; auto.
        + exists v', l'. split; auto. apply sel_reach; auto. }
    subst c'. eapply (IH c); eauto. apply sel_child; auto.
Qed.

(** Every variable in scope of a tree node is covered by a tree leaf below it. *)
Lemma sel_covers u : reach ch r u -> reach S r u -> forall x, in_scope net u x ->
  exists v l, reach S u v /\ nk (net v) = KLeaf l /\ In x (lsc l).
Proof.
  intros Hu0. revert u Hu0. apply (node_ind ch N r (fun u => reach S r u -> forall x, in_scope net u x ->
  exists v l, reach S u v /\ nk (net v) = KLeaf l /\ In x (lsc l))); auto.
  intros u Hu IH Hs x Hx. destruct (nk (net u)) as [w| |l] eqn:EK.
  - destruct (HT u w Hs EK) as (i & Ei & _). pose proof (nth_error_In _ _ Ei) as Hi.
    assert (Hin : In (sel u) (S u)) by (unfold selected; rewrite EK; left; auto).
    assert (Hx' : in_scope net (sel u) x).
    { destruct (scope_inv net u x Hx) as (c & Hc & Hcx); [intros l; congruence|]. eapply HC; eauto. }
    destruct (IH (sel u) Hi ltac:(eapply reach_snoc; eauto) x Hx') as (v & l & Hv & H).
    exists v, l. split; auto. eapply reach_step; eauto.
  - destruct (scope_inv net u x Hx) as (c & Hc & Hcx); [intros l; congruence|].
    assert (Hin : In c (S u)) by (unfold selected; rewrite EK; auto).
    destruct (IH c Hc ltac:(eapply reach_snoc; eauto) x Hcx) as (v & l & Hv & H).
    exists v, l. split; auto. eapply reach_step; eauto.
  - destruct (HM u l Hu EK) as (_ & y & Hy). exists u, l. split; [apply reach_refl|]. split; auto.
    rewrite (dleaf_sc card l y (or_introl Hy)).
    apply (scope_leaf net card r HL u l y x Hu EK (or_introl Hy)) in Hx. left; auto.
Qed.

Variable M : varset.
Hypothesis HU : union_of_leaves net I r sel M.

Lemma M_leaf u l x : reach S r u -> nk (net u) = KLeaf l -> multinomial_leaf card l x ->
  exists J, largmax l I = Some (J, xln (mleaf l I)) /\ M x = J x /\ J x <> None /\
    (forall v, I x = Some v -> J x = Some v) /\ evidence_ok card J /\
    (forall J', J' x = J x -> mleaf l I <= pleaf l J').
Proof.
  intros Hs EK Hx. destruct (mleaf_argmax card 1 0 Nat.lt_0_1 I HI l x Hx) as (J & EJ & H1 & H2 & H3 & H4).
  assert (Jx : J x <> None) by (apply H1; auto).
  exists J. split; auto. split; [|auto].
  destruct HU as (U1 & U2). pose proof (U2 u l J _ x Hs EK EJ Jx) as Mx.
  destruct (M x) as [v|] eqn:E; [|congruence].
  destruct (U1 x v E) as (u' & l' & J' & y' & Hu' & EK' & EJ' & Ex').
  destruct (HM u' l' (sel_ch u' Hu') EK') as (_ & x' & Hx').
  destruct (mleaf_argmax card 1 0 Nat.lt_0_1 I HI l' x' Hx') as (J2 & EJ2 & H1' & _).
  rewrite EJ2 in EJ'. injection EJ' as <- <-.
  assert (x = x') by (apply H1'; congruence). subst x'.
  assert (u = u').
  { eapply (sel_unique r (reach_refl _ _)); eauto; [rewrite (dleaf_sc card l x (or_introl Hx))|
      rewrite (dleaf_sc card l' x (or_introl Hx'))]; left; auto. }
  subst u'. rewrite EK in EK'. injection EK' as <-. rewrite EJ in EJ2. injection EJ2 as <-. congruence.
Qed.

Lemma M_ok : evidence_ok card M.
Proof.
  intros x v E. destruct HU as (U1 & U2).
  destruct (U1 x v E) as (u' & l' & J' & y' & Hu' & EK' & EJ' & Ex').
  destruct (HM u' l' (sel_ch u' Hu') EK') as (_ & x' & Hx').
  destruct (mleaf_argmax card 1 0 Nat.lt_0_1 I HI l' x' Hx') as (J2 & EJ2 & _ & _ & H3 & _).
  rewrite EJ2 in EJ'. injection EJ' as <- <-. eapply H3; eauto.
Qed.

Lemma M_dom x : M x <> None <-> in_scope net r x.
Proof.
  split.
  - intros H. destruct (M x) as [v|] eqn:E; [|congruence]. destruct HU as (U1 & U2).
    destruct (U1 x v E) as (u' & l' & J' & y' & Hu' & EK' & EJ' & Ex').
    destruct (HM u' l' (sel_ch u' Hu') EK') as (_ & x' & Hx').
    destruct (mleaf_argmax card 1 0 Nat.lt_0_1 I HI l' x' Hx') as (J2 & EJ2 & H1 & _).
    rewrite EJ2 in EJ'. injection EJ' as <- <-.
    assert (x = x') by (apply H1; congruence). subst x'.
    exists u', l'. split; [apply sel_ch; auto|]. split; auto. rewrite (dleaf_sc card l' x (or_introl Hx')). left; auto.
  - intros Hx. destruct (sel_covers r (reach_refl _ _) (reach_refl _ _) x Hx) as (v & l & Hv & EK & Hin).
    destruct (HM v l (sel_ch v Hv) EK) as (_ & x' & Hx').
    rewrite (dleaf_sc card l x' (or_introl Hx')) in Hin. destruct Hin as [->|[]].
    destruct (M_leaf v l x Hv EK Hx') as (J & _ & E & H & _). congruence.
Qed.

Lemma M_evidence x a : in_scope net r x -> I x = Some a -> M x = Some a.
Proof.
  intros Hx E. destruct (sel_covers r (reach_refl _ _) (reach_refl _ _) x Hx) as (v & l & Hv & EK & Hin).
  destruct (HM v l (sel_ch v Hv) EK) as (_ & x' & Hx').
  rewrite (dleaf_sc card l x' (or_introl Hx')) in Hin. destruct Hin as [->|[]].
  destruct (M_leaf v l x Hv EK Hx') as (J & _ & -> & _ & H & _). auto.
Qed.

Lemma M_value u : reach ch r u -> reach S r u -> MX net N I u <= P net N M u.
Proof.
  revert u. apply (node_ind ch N r (fun u => reach S r u -> MX net N I u <= P net N M u)); auto.
  intros u Hu IH Hs.
  destruct (P_spec net card N r Hb Hr Ha HW HL M M_ok u Hu) as (_ & _ & EP).
  destruct (M_spec net card N r Hb Hr Ha HW HL I HI u Hu) as (EMu & HMu & EM).
  assert (Hrc : forall c, In c (nch (net u)) -> reach ch r c).
  { intros c Hc. eapply reach_snoc; eauto. }
  assert (Hp : forall c, In c (nch (net u)) -> 0 <= P net N M c).
  { intros c Hc. apply (P_nonneg net card N r Hb Hr Ha HW HL); auto. apply M_ok. }
  destruct (nk (net u)) as [w| |l] eqn:EK.
  - destruct (HW u w Hu EK) as (Hne & ws & -> & HLen & Hnn). rewrite (EP ws eq_refl).
    destruct (HT u _ Hs EK) as (i & Ei & (ws' & w & c & x & E1 & E2 & E3 & E4 & E5)).
    rewrite EK in E1. injection E1 as <-. rewrite Ei in E3. injection E3 as <-.
    rewrite nth_error_map in E2. destruct (nth_error ws i) as [wi|] eqn:Ew; [|discriminate].
    simpl in E2. injection E2 as <-.
    pose proof (nth_error_In _ _ Ei) as Hin. pose proof (Hnn _ (nth_error_In _ _ Ew)) as Hw0.
    assert (Hss : reach S r (sel u)).
    { eapply reach_snoc; [exact Hs|]. unfold selected. rewrite EK. left; auto. }
    destruct (M_spec net card N r Hb Hr Ha HW HL I HI (sel u) (Hrc _ Hin)) as (EMc & HMc & _).
    rewrite EMc in E4. injection E4 as <-. rewrite EMu in E5. injection E5 as E5.
    change (xln (MX net N I u) = xadd (xlog (Fin wi)) (xln (MX net N I (sel u)))) in E5.
    rewrite xlog_nonneg, xadd_xln in E5 by auto.
    assert (E6 : MX net N I u = wi * MX net N I (sel u)).
    { rewrite <- (lin_xln (MX net N I u)), E5, lin_xln; auto. apply Rmult_le_pos; auto. }
    rewrite E6. apply Rle_trans with (wi * P net N M (sel u)).
    { apply Rmult_le_compat_l; auto. }
    unfold psum.
    rewrite Rmult_comm. apply Rsum_ge_elem.
    + intros y Hy. apply in_map_iff in Hy as ([c w] & <- & Hc). simpl.
      apply in_combine_wt in Hc as [Hc Hw]. apply Rmult_le_pos; auto.
    + apply in_map_iff. exists (sel u, wi). split; auto. apply (nth_error_In _ i).
      clear - Ei Ew. revert ws i Ei Ew. induction (nch (net u)) as [|a l IH]; intros [|b ws] [|i] Ei Ew; simpl in *; try discriminate.
      * congruence.
      * apply IH; auto.
  - rewrite EP, EM. apply Rprod_le. intros c Hc. split.
    + apply (M_spec net card N r Hb Hr Ha HW HL I HI c (Hrc c Hc)).
    + apply IH; auto. eapply reach_snoc; [exact Hs|]. unfold selected. rewrite EK. auto.
  - rewrite EP, EM. destruct (HM u l Hu EK) as (_ & x & Hx).
    destruct (M_leaf u l x Hs EK Hx) as (J & _ & E & _ & _ & _ & H). apply H. auto.
Qed.
End Multi.

Lemma storeMAP_multi_l (net : network XR) (card : Z -> nat) N r I tk (st : storer xreal) ops rnd :
  run_state (ustep xreal (Fin 0)) (newStorer xreal) ops = Some st ->
  bounded (children net) N -> (r < N)%nat -> acyclic (children net) -> siblings_ok (children net) ->
  leaves_childless net -> nch (net r) <> [] -> weights_nonneg net r ->
  multinomial_leaves net card r -> complete net r -> decomposable net r -> evidence_ok card I ->
  ((0 <= tk)%Z -> snd (table xreal st tk) = true) ->
  (forall i n, (0 < n)%nat -> (rnd i n < n)%nat) ->
  exists st' tk' M m v, storeMAP net rnd (2 * N + 1) r I tk st = Ok (st', (Some r, tk', Some M)) /\
    (forall x, M x <> None <-> in_scope net r x) /\
    (forall x a, in_scope net r x -> I x = Some a -> M x = Some a) /\
    max_ net N I r = Ok m /\ value net N M r = Ok v /\ xge v m = true.
Proof.
  intros Hst Hb Hr Ha Hs HL0 Hne HW HM HC HD HI Htk Hrnd.
  pose proof (multi_answer net card r HM I HI) as HA.
  destruct (storeMAP_l net N r I tk st ops rnd Hst Hb Hr Ha Hs HL0 Hne HW HA Htk Hrnd)
    as (st' & tk' & M & sel & E & _ & _ & _ & HT & HU).
  pose proof (multi_discrete net card r HM) as HL.
  destruct (M_spec net card N r Hb Hr Ha HW HL I HI r (reach_refl _ _)) as (E2 & H2 & _).
  pose proof (M_ok net card N r HM I HI sel HT M HU) as HMok.
  exists st', tk', M, (xln (MX net N I r)), (xln (P net N M r)).
  split; auto. split; [apply (M_dom net card N r Hb Hr Ha HM HC HD I HI sel HT M HU)|].
  split; [apply (M_evidence net card N r Hb Hr Ha HM HC HD I HI sel HT M HU)|].
  split; auto. split; [apply (P_spec net card N r Hb Hr Ha HW HL M HMok r (reach_refl _ _))|].
  apply xge_xln; auto.
  - apply (P_nonneg net card N r); auto. apply reach_refl.
  - apply (M_value net card N r Hb Hr Ha HW HM HD I HI sel HT M HU); apply reach_refl.
Qed.

Lemma wnet_siblings l5 : siblings_ok (children (wnet l5)) /\ leaves_childless (wnet l5).
Proof.
  split.
  - apply (graded_siblings_ok _ (fun u => match u with 0 => 0 | 1 | 2 => 1 | _ => 2 end)%nat). intros u c. unfold children.
    destruct u as [|[|[|[|[|u]]]]]; simpl; intros H; intuition (subst; reflexivity).
  - intros u l. destruct u as [|[|[|[|[|u]]]]]; simpl; intros E; try discriminate; auto.
Qed.

Lemma map_case_l :
  let net := wnet wl5 in
  bounded (children net) 6 /\ acyclic (children net) /\ siblings_ok (children net) /\ leaves_childless net /\
  nch (net 0%nat) <> [] /\ weights_nonneg net 0 /\ multinomial_leaves net wcard 0 /\ complete net 0 /\
  decomposable net 0 /\ evidence_ok wcard (setvar (fun _ => None) 1 2) /\
  leaves_answer net (setvar (fun _ => None) 1 2) 0.
Proof.
  simpl. destruct (wnet_graph wl5) as [H1 H2]. destruct (wnet_weights wl5) as [H3 H4].
  destruct (wnet_valid wl5 eq_refl) as [H5 H6]. destruct (wnet_siblings wl5) as [H7 H8].
  assert (H9 : evidence_ok wcard (setvar (fun _ => None) 1 2)) by apply wnet_case.
  split; auto. split; auto. split; auto. split; auto. split; [discriminate|]. split; auto.
  split; [apply wnet_multi|]. split; auto. split; auto. split; auto.
  apply (multi_answer (wnet wl5) wcard 0 wnet_multi _ H9).
Qed.

(** A tree: a sum over two products of leaves. *)
Definition tnet : network XR := fun u =>
  match u with
  | 0 => mkNode (@KSum XR (map Fin [/4; 3/4])) [1; 2]%nat
  | 1 => mkNode KProd [3; 4]%nat
  | 2 => mkNode KProd [5; 6]%nat
  | 3 => mkNode (KLeaf (mleafR 0 [/3; 2/3] 1)) []
  | 4 => mkNode (KLeaf (mleafR 1 [/2; /4; /4] 0)) []
  | 5 => mkNode (KLeaf (mleafR 0 [/3; 2/3] 1)) []
  | _ => mkNode (KLeaf (mleafR 1 [/2; /4; /4] 0)) []
  end.

Lemma trace_case_l :
  bounded (children tnet) 7 /\ acyclic (children tnet) /\ siblings_ok (children tnet) /\ leaves_childless tnet /\
  weights_nonneg tnet 0 /\ leaves_answer tnet (fun _ => None) 0 /\ tree (children tnet) 0.
Proof.
  assert (Hac : acyclic (children tnet)).
  { apply (ranked_acyclic _ (fun u => match u with 0 => 2 | 1 | 2 => 1 | _ => 0 end)%nat). intros u c. unfold children.
    destruct u as [|[|[|[|[|[|u]]]]]]; simpl; intros H; intuition (subst; simpl; lia). }
  assert (Ht : tree (children tnet) 0).
  { split; [|split].
    - intros x. unfold children. destruct x as [|[|[|[|[|[|x]]]]]]; simpl; intuition discriminate.
    - intros x. unfold children. destruct x as [|[|[|[|[|[|x]]]]]]; simpl; repeat constructor; simpl; intuition discriminate.
    - intros x y c. unfold children. destruct x as [|[|[|[|[|[|x]]]]]], y as [|[|[|[|[|[|y]]]]]]; simpl;
        intros Hx Hy; intuition (subst; try discriminate; auto). }
  split. { intros u c. unfold children. destruct u as [|[|[|[|[|[|u]]]]]]; simpl; intros H; intuition lia. }
  split; auto. split. { eapply tree_siblings; eauto. }
  split. { intros u l. destruct u as [|[|[|[|[|[|u]]]]]]; simpl; intros E; try discriminate; auto. }
  split. { intros u w _. destruct u as [|[|[|[|[|[|u]]]]]]; simpl; try discriminate. intros E; injection E as <-.
    split; [discriminate|]. exists [/4; 3/4]. split; auto. split; auto. intros x [<-|[<-|[]]]; lra. }
  split; auto. apply (multi_answer tnet wcard 0); [|apply evidence_empty].
  intros u l _ E. destruct u as [|[|[|[|[|[|u]]]]]]; simpl in E; try discriminate; injection E as <-; split; auto.
  - exists 0%Z. apply wl3.
  - exists 1%Z. apply wl4.
  - exists 0%Z. apply wl3.
  - exists 1%Z. apply wl4.
Qed.
