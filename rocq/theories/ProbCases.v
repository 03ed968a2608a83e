(** Final forms and witnesses for C18-C20. *)
From Coq Require Import Reals Lra Classical_Prop.
From Verif Require Import Base Res Arith LogMath LogSpec LogLemmas GraphSpec GraphLemmas Topo TopoLemmas
  Spn DP SpnSpec SpnLemmas Leaves ProbSpec ProbLemmas ArgLemmas.
Local Open Scope R_scope.

Lemma xge_xln x y : 0 <= x -> 0 <= y -> y <= x -> xge (xln x) (xln y) = true.
Proof.
  intros Hx Hy H. unfold xge. rewrite xgt_xln, xeq_xln by auto.
  destruct (Rlt_dec y x); auto. destruct (Req_EM_T x y); auto. lra.
Qed.

Lemma xln_le1 x : 0 <= x <= 1 -> xln x = NInf \/ exists y, y <= 0 /\ xln x = Fin y.
Proof.
  intros H. unfold xln. destruct (Rlt_dec 0 x) as [Hp|]; auto. right. exists (ln x). split; auto.
  destruct (Req_dec x 1) as [->|Hn]; [rewrite ln_1; lra|]. apply Rlt_le. rewrite <- ln_1. apply ln_increasing; lra.
Qed.

Lemma marginals_l (net : network XR) (card : Z -> nat) (N r : nat) :
  bounded (children net) N -> (r < N)%nat -> acyclic (children net) ->
  weights_nonneg net r -> discrete_leaves net card r -> complete net r -> decomposable net r ->
  exists p : varset -> R,
    (forall I, evidence_ok card I -> value net N I r = Ok (xln (p I)) /\ 0 <= p I) /\
    (forall I xs, evidence_ok card I -> NoDup xs -> (forall x, In x xs -> in_scope net r x /\ I x = None) ->
       p I = sum_over card xs p I) /\
    (weights_normalised net r -> forall I, (forall x, in_scope net r x -> I x = None) ->
       evidence_ok card I -> p I = 1).
Proof.
  intros Hb Hr Ha HW HL HC HD. exists (fun I => P net N I r). split; [|split].
  - intros I HI. destruct (P_spec net card N r Hb Hr Ha HW HL I HI r (reach_refl _ _)) as (H1 & H2 & _). auto.
  - intros I xs HI Hn H. apply P_sum_over; auto.
  - intros HN I H HI. apply (P_one net card N r); auto. apply reach_refl.
Qed.

Lemma evidence_empty card : evidence_ok card (fun _ => None).
Proof. intros x v E. discriminate. Qed.

Lemma total_one_l (net : network XR) (card : Z -> nat) (N r : nat) (xs : list Z) :
  bounded (children net) N -> (r < N)%nat -> acyclic (children net) ->
  weights_nonneg net r -> weights_normalised net r -> discrete_leaves net card r ->
  complete net r -> decomposable net r ->
  NoDup xs -> (forall x, In x xs <-> in_scope net r x) ->
  sum_over card xs (fun I => match value net N I r with Ok x => lin x | _ => 0 end) (fun _ => None) = 1.
Proof.
  intros Hb Hr Ha HW HN HL HC HD Hn Hx.
  change (sum_over card xs (fun I => P net N I r) (fun _ => None) = 1).
  rewrite <- (P_sum_over net card N r) by (auto using evidence_empty; intros x H; split; auto; apply Hx; auto).
  apply (P_one net card N r); auto using evidence_empty. apply reach_refl.
Qed.

Lemma value_prob_l (net : network XR) (card : Z -> nat) (N r : nat) (I : varset) :
  bounded (children net) N -> (r < N)%nat -> acyclic (children net) ->
  weights_nonneg net r -> weights_normalised net r -> discrete_leaves net card r -> evidence_ok card I ->
  forall u, reach (children net) r u ->
  exists x m, value net N I u = Ok x /\ max_ net N I u = Ok m /\
    (x = NInf \/ exists y, y <= 0 /\ x = Fin y) /\ xge x m = true.
Proof.
  intros Hb Hr Ha HW HN HL HI u Hu.
  destruct (P_spec net card N r Hb Hr Ha HW HL I HI u Hu) as (E1 & H1 & _).
  destruct (M_spec net card N r Hb Hr Ha HW HL I HI u Hu) as (E2 & H2 & _).
  exists (xln (P net N I u)), (xln (MX net N I u)). split; auto. split; auto. split.
  - apply xln_le1. split; auto. apply (P_le_one net card N r); auto.
  - apply xge_xln; auto. apply (M_le_P net card N r); auto.
Qed.

Lemma argmax_l (net : network XR) (card : Z -> nat) (N r : nat) (I : varset) (m : R) :
  bounded (children net) N -> (r < N)%nat -> acyclic (children net) ->
  weights_nonneg net r -> multinomial_leaves net card r -> complete net r -> decomposable net r ->
  evidence_ok card I -> max_ net N I r = Ok (Fin m) ->
  exists J v, argMax net N I r = Ok (J, Fin m) /\
    (forall x, J x <> None <-> in_scope net r x) /\
    (forall x a, in_scope net r x -> I x = Some a -> J x = Some a) /\
    evidence_ok card J /\
    value net N J r = Ok v /\ xge v (Fin m) = true.
Proof.
  intros Hb Hr Ha HW HM HC HD HI Em. pose proof (multi_discrete net card r HM) as HL.
  destruct (M_spec net card N r Hb Hr Ha HW HL I HI r (reach_refl _ _)) as (E2 & H2 & _).
  rewrite Em in E2. injection E2 as E2.
  assert (Hp : 0 < MX net N I r).
  { destruct (Rle_lt_or_eq_dec _ _ H2) as [|E]; auto. rewrite <- E, xln_zero in E2. discriminate. }
  destruct (argMax_ind net card N r Hb Hr Ha HW HM HC HD I HI N r (reach_refl _ _) (le_n N)) as (_ & G).
  destruct (G Hp) as (J & EJ & G1 & G2 & G3 & G4). exists J, (xln (P net N J r)). rewrite E2.
  split; auto. split; auto. split; auto. split; auto. split.
  - apply (P_spec net card N r Hb Hr Ha HW HL J G3 r (reach_refl _ _)).
  - apply xge_xln; auto. apply (P_nonneg net card N r); auto. apply reach_refl.
Qed.

(** Witnesses. *)
Definition mleafR (x : Z) (ps : list R) (mi : nat) : leaf XR :=
  multiLeaf (@mkMulti XR [x] x (map Fin ps) (Z.of_nat mi) (Fin (nth mi ps 0))).

Definition wnet (l5 : leaf XR) : network XR := fun u =>
  match u with
  | 0 => mkNode (@KSum XR (map Fin [/4; 3/4])) [1; 2]%nat
  | 1 => mkNode KProd [3; 4]%nat
  | 2 => mkNode KProd [4; 5]%nat
  | 3 => mkNode (KLeaf (mleafR 0 [/3; 2/3] 1)) []
  | 4 => mkNode (KLeaf (mleafR 1 [/2; /4; /4] 0)) []
  | _ => mkNode (KLeaf l5) []
  end.
Definition wcard (x : Z) : nat := if (x =? 0)%Z then 2%nat else 3%nat.

Lemma mleafR_ok card x ps mi : length ps = card x -> (forall p, In p ps -> 0 <= p) -> Rsum ps = 1 ->
  (mi < length ps)%nat -> (forall p, In p ps -> p <= nth mi ps 0) -> multinomial_leaf card (mleafR x ps mi) x.
Proof. intros. exists ps, mi. repeat split; auto. Qed.

Lemma wl3 : multinomial_leaf wcard (mleafR 0 [/3; 2/3] 1) 0.
Proof. apply mleafR_ok; simpl; auto; try lra; intros p [<-|[<-|[]]]; lra. Qed.
Lemma wl4 : multinomial_leaf wcard (mleafR 1 [/2; /4; /4] 0) 1.
Proof. apply mleafR_ok; simpl; auto; try lra; try lia; intros p [<-|[<-|[<-|[]]]]; lra. Qed.

Lemma wnet_graph l5 : bounded (children (wnet l5)) 6 /\ acyclic (children (wnet l5)).
Proof.
  split.
  - intros u c. unfold children. destruct u as [|[|[|[|[|u]]]]]; simpl; intros H; intuition lia.
  - apply (ranked_acyclic _ (fun u => match u with 0 => 2 | 1 | 2 => 1 | _ => 0 end)%nat). intros u c. unfold children.
    destruct u as [|[|[|[|[|u]]]]]; simpl; intros H; intuition (subst; simpl; lia).
Qed.

Lemma wnet_weights l5 : weights_nonneg (wnet l5) 0 /\ weights_normalised (wnet l5) 0.
Proof.
  split.
  - intros u w _. destruct u as [|[|[|[|[|u]]]]]; simpl; try discriminate. intros E; injection E as <-.
    split; [discriminate|]. exists [/4; 3/4]. split; auto. split; auto. intros x [<-|[<-|[]]]; lra.
  - intros u w _. destruct u as [|[|[|[|[|u]]]]]; simpl; try discriminate. intros E.
    destruct w as [|a [|b [|c w]]]; try discriminate. injection E as <- <-. simpl. lra.
Qed.

Lemma reach_leaf {A} (net : network A) u v : nch (net u) = [] -> reach (children net) u v -> v = u.
Proof. intros E H. apply reach_inv in H as [->|(c & Hc & _)]; auto. unfold children in Hc. rewrite E in Hc. destruct Hc. Qed.

Lemma wnet_scope l5 : lsc l5 = [0%Z] -> forall u x, (u < 6)%nat ->
  (in_scope (wnet l5) u x <-> In x (match u with 0 | 1 | 2 => [0%Z; 1%Z] | 3 | 5 => [0%Z] | _ => [1%Z] end)%nat).
Proof.
  intros E5.
  assert (L : forall u l, nk (wnet l5 u) = KLeaf l -> forall x, in_scope (wnet l5) u x <-> In x (lsc l)).
  { intros u l EK x. split.
    - intros (v & l' & H1 & H2 & H3). apply reach_leaf in H1 as ->; [congruence|].
      destruct u as [|[|[|[|[|u]]]]]; try discriminate; reflexivity.
    - intros H. exists u, l. split; auto. apply reach_refl. }
  pose proof (L 3%nat _ eq_refl) as L3. pose proof (L 4%nat _ eq_refl) as L4. pose proof (L 5%nat _ eq_refl) as L5.
  rewrite E5 in L5. simpl in L3, L4.
  assert (U : forall u, (forall l, nk (wnet l5 u) <> KLeaf l) -> forall x,
     in_scope (wnet l5) u x <-> exists c, In c (nch (wnet l5 u)) /\ in_scope (wnet l5) c x).
  { intros u Hk x. split.
    - intros H. apply scope_inv; auto.
    - intros (c & Hc & H). eapply scope_child; eauto. }
  assert (L1 : forall x, in_scope (wnet l5) 1 x <-> In x [0; 1]%Z).
  { intros x. rewrite U by discriminate. simpl. split.
    - intros (c & [<-|[<-|[]]] & H); [apply L3 in H|apply L4 in H]; simpl in H; intuition.
    - intros [<-|[<-|[]]]; [exists 3%nat|exists 4%nat]; split; auto; [apply L3|apply L4]; simpl; auto. }
  assert (L2 : forall x, in_scope (wnet l5) 2 x <-> In x [0; 1]%Z).
  { intros x. rewrite U by discriminate. simpl. split.
    - intros (c & [<-|[<-|[]]] & H); [apply L4 in H|apply L5 in H]; simpl in H; intuition.
    - intros [<-|[<-|[]]]; [exists 5%nat|exists 4%nat]; split; auto; [apply L5|apply L4]; simpl; auto. }
  intros u x Hu. destruct u as [|[|[|[|[|[|u]]]]]]; [|apply L1|apply L2|apply L3|apply L4|apply L5|lia].
  rewrite U by discriminate. simpl. split.
  - intros (c & [<-|[<-|[]]] & H); [apply L1 in H|apply L2 in H]; simpl in H; auto.
  - intros H. exists 1%nat. split; auto. apply L1. auto.
Qed.

Lemma wnet_valid l5 : lsc l5 = [0%Z] -> complete (wnet l5) 0 /\ decomposable (wnet l5) 0.
Proof.
  intros E5. pose proof (wnet_scope l5 E5) as S. split.
  - intros u w c c' x _. destruct u as [|[|[|[|[|u]]]]]; simpl; try discriminate.
    intros _ [<-|[<-|[]]] [<-|[<-|[]]]; rewrite !S by lia; auto.
  - intros u i j c c' x _. destruct u as [|[|[|[|[|u]]]]]; simpl; try discriminate; intros _ Hij Hi Hj;
      destruct i as [|[|i]], j as [|[|j]]; simpl in Hi, Hj; try congruence;
      try (rewrite nth_error_nil in Hi; discriminate); try (rewrite nth_error_nil in Hj; discriminate);
      try (destruct i; discriminate); try (destruct j; discriminate);
      injection Hi as <-; injection Hj as <-; rewrite !S by lia; simpl; intuition (subst; discriminate).
Qed.

Lemma wnet_disc : discrete_leaves (wnet (@indLeaf XR 0 1)) wcard 0.
Proof.
  intros u l _ E. destruct u as [|[|[|[|[|u]]]]]; simpl in E; try discriminate; injection E as <-; split; auto.
  - exists 0%Z. left. apply wl3.
  - exists 1%Z. left. apply wl4.
  - exists 0%Z. right. exists 1%nat. split; auto.
Qed.

Definition wl5 : leaf XR := mleafR 0 [/5; 4/5] 1.
Lemma wnet_multi : multinomial_leaves (wnet wl5) wcard 0.
Proof.
  intros u l _ E. destruct u as [|[|[|[|[|u]]]]]; simpl in E; try discriminate; injection E as <-; split; auto.
  - exists 0%Z. apply wl3.
  - exists 1%Z. apply wl4.
  - exists 0%Z. apply mleafR_ok; simpl; auto; try lra; intros p [<-|[<-|[]]]; lra.
Qed.

Lemma wnet_case :
  let net := wnet (@indLeaf XR 0 1) in
  bounded (children net) 6 /\ acyclic (children net) /\ weights_nonneg net 0 /\ weights_normalised net 0 /\
  discrete_leaves net wcard 0 /\ complete net 0 /\ decomposable net 0 /\
  (forall x, In x [0; 1]%Z <-> in_scope net 0 x) /\ evidence_ok wcard (setvar (fun _ => None) 1 2).
Proof.
  simpl. destruct (wnet_graph (@indLeaf XR 0 1)) as [H1 H2]. destruct (wnet_weights (@indLeaf XR 0 1)) as [H3 H4].
  destruct (wnet_valid (@indLeaf XR 0 1) eq_refl) as [H5 H6].
  split; auto. split; auto. split; auto. split; auto. split; [apply wnet_disc|]. split; auto. split; auto. split.
  - intros x. rewrite (wnet_scope (@indLeaf XR 0 1) eq_refl 0) by lia. reflexivity.
  - intros x v. unfold setvar. destruct (Z.eqb_spec x 1) as [->|]; [|discriminate]. intros E; injection E as <-.
    simpl. lia.
Qed.

Lemma wnet_case2 :
  bounded (children (wnet wl5)) 6 /\ acyclic (children (wnet wl5)) /\ weights_nonneg (wnet wl5) 0 /\
  multinomial_leaves (wnet wl5) wcard 0 /\ complete (wnet wl5) 0 /\ decomposable (wnet wl5) 0 /\
  evidence_ok wcard (fun _ => None) /\ exists m, max_ (wnet wl5) 6 (fun _ => None) 0 = Ok (Fin m).
Proof.
  destruct (wnet_graph wl5) as [H1 H2]. destruct (wnet_weights wl5) as [H3 H4].
  destruct (wnet_valid wl5 eq_refl) as [H5 H6].
  split; auto. split; auto. split; auto. split; [apply wnet_multi|]. split; auto. split; auto.
  split; [apply evidence_empty|].
  pose proof (multi_discrete _ _ _ wnet_multi) as HL.
  assert (S : forall u, reach (children (wnet wl5)) 0 u -> _) by
    exact (M_spec (wnet wl5) wcard 6 0 H1 ltac:(lia) H2 H3 HL (fun _ => None) (evidence_empty wcard)).
  assert (R1 : reach (children (wnet wl5)) 0 1) by (apply reach_child; simpl; auto).
  assert (R3 : reach (children (wnet wl5)) 0 3) by (eapply reach_snoc; [exact R1|simpl; auto]).
  assert (R4 : reach (children (wnet wl5)) 0 4) by (eapply reach_snoc; [exact R1|simpl; auto]).
  destruct (S 3%nat R3) as (_ & _ & E3). destruct (S 4%nat R4) as (_ & _ & E4).
  destruct (S 1%nat R1) as (_ & _ & E1). destruct (S 0%nat (reach_refl _ _)) as (E0 & _ & Em).
  simpl in E1. cbn [wnet nk nch] in E3, E4, Em. specialize (Em _ eq_refl).
  assert (V3 : MX (wnet wl5) 6 (fun _ => None) 3 = 2/3).
  { rewrite E3. unfold mleaf, mleafR, multiLeaf, lmax, multiMax. cbn [m_varid m_modev].
    change (@flog XR) with xlog. simpl nth. rewrite xlog_nonneg, lin_xln by lra. auto. }
  assert (V4 : MX (wnet wl5) 6 (fun _ => None) 4 = /2).
  { rewrite E4. unfold mleaf, mleafR, multiLeaf, lmax, multiMax. cbn [m_varid m_modev].
    change (@flog XR) with xlog. simpl nth. rewrite xlog_nonneg, lin_xln by lra. auto. }
  rewrite V3, V4 in E1.
  assert (Hp : 0 < MX (wnet wl5) 6 (fun _ => None) 0).
  { rewrite Em. unfold pmax.
    destruct (Rmaxl_spec (map (fun cw => snd cw * MX (wnet wl5) 6 (fun _ => None) (fst cw)) (combine [1; 2]%nat [/4; 3/4])) 0)
      as (_ & H & _). simpl map in H. specialize (H _ (or_introl eq_refl)). simpl map.
    rewrite E1 in H |- *. eapply Rlt_le_trans; [|exact H]. lra. }
  rewrite E0, xln_pos by auto. eauto.
Qed.

(** C20 fails for an indicator of a non-zero value. *)
Definition wnet20 : network XR := fun u =>
  match u with 0 => mkNode KProd [1%nat] | _ => mkNode (KLeaf (@indLeaf XR 0 1)) [] end.

Lemma argmax_refuted_l :
  exists (net : network XR) card N r (I : varset) J,
    bounded (children net) N /\ (r < N)%nat /\ acyclic (children net) /\
    weights_nonneg net r /\ discrete_leaves net card r /\ complete net r /\ decomposable net r /\
    evidence_ok card I /\ max_ net N I r = Ok (Fin 0) /\
    argMax net N I r = Ok (J, Fin 0) /\ value net N J r = Ok NInf.
Proof.
  exists wnet20, (fun _ => 2%nat), 2%nat, 0%nat, (fun _ => None), (merge (fun _ => None) (vsingle 0 0)).
  split. { intros u c. unfold children. destruct u; simpl; intros H; intuition lia. }
  split; [lia|].
  split. { apply (ranked_acyclic _ (fun u => match u with O => 1 | _ => 0 end)%nat). intros u c. unfold children.
           destruct u; simpl; intros H; intuition (subst; simpl; lia). }
  split. { intros u w _. destruct u; simpl; discriminate. }
  split. { intros u l _ E. destruct u; simpl in E; [discriminate|]. injection E as <-. split; auto.
           exists 0%Z. right. exists 1%nat. split; auto. }
  split. { intros u w c c' x _. destruct u; simpl; discriminate. }
  split. { intros u i j c c' x _. destruct u; simpl; [|discriminate]. intros _ Hij Hi Hj.
           destruct i as [|[|i]], j as [|[|j]]; simpl in *; congruence. }
  split; [apply evidence_empty|].
  split. { change (max_ wnet20 2 (fun _ => None) 0) with (@Ok xreal (Fin (0 + 0))). rewrite Rplus_0_r. auto. }
  split. { change (argMax wnet20 2 (fun _ => None) 0) with
             (Ok (merge (fun _ => None) (vsingle 0 0), Fin (0 + 0))). rewrite Rplus_0_r. auto. }
  reflexivity.
Qed.
