(** The steps of learning write through one table only: what every write keeps, they keep. *)
From Verif Require Import Base Res Arith LogMath GraphSpec GraphLemmas Search SearchLemmas Topo TopoLemmas Storer StorerSpec StorerLemmas
  Spn DP SpnSpec Walk WalkLemmas Struct Derive DeriveLemmas Hard PipeLemmas Train TrainSpec TrainKeep.

Section Kept.
Context {A : arith}.
Local Notation F := (F A).
Local Notation storer := (storer F).
Variable net : network A.
Variable r : nat.
Variable J : storer -> Prop.

Definition kept_by (t : option nat) : Prop := forall s u i v s', J s -> storeAt s t u i v = Ok s' -> J s'.

Lemma kept_via t s u v s' : kept_by t -> J s -> storeVia s t u v = Ok s' -> J s'.
Proof. intros H Hs E. exact (H s u 0%Z v s' Hs E). Qed.

Lemma kept_storeInference fuel I tk st st' x : (0 <= tk)%Z -> kept_by (fst (table F st tk)) -> J st ->
  storeInference net fuel r I tk st = Ok (st', x) -> J st'.
Proof.
  intros Ht HK H. unfold storeInference. destruct (Nat.eqb _ 0); [intros E; injection E as <- _; auto|].
  replace (if (tk <? 0)%Z then newTicket F st else (st, tk)) with (st, tk) by (destruct (Z.ltb_spec tk 0); auto; lia).
  destruct (topSortTarjan _ fuel r) as [ord|] eqn:Eo; [|discriminate]. clear Eo. revert HK. generalize (fst (table F st tk)). intros t HK.
  assert (X : forall ord s p, J s -> storeLoop net I t ord s = Ok p -> J (fst p)).
  { clear - HK. induction ord as [|u ord IH]; intros s p Hs E; simpl in E; [injection E as <-; auto|].
    destruct (storeNode net I t s u) as [[s1 go]| |] eqn:E1; try discriminate. cbn [bind] in E.
    assert (K : J s1).
    { unfold storeNode in E1. destruct (nk (net u)) as [w| |l].
      - destruct (storeSumVals s t 0 w (nch (net u))) as [[vs|]| |]; try discriminate; cbn [bind] in E1.
        + destruct (if Nat.eqb _ 0 then _ else _) as [v| |]; try discriminate. cbn [bind] in E1.
          destruct (storeVia s t u v) as [s2| |] eqn:E2; try discriminate. injection E1 as <- _. eapply kept_via; eauto.
        + injection E1 as <- _. auto.
      - destruct (storeVia s t u _) as [s2| |] eqn:E2; try discriminate. injection E1 as <- _. eapply kept_via; eauto.
      - destruct (orPanic (lvalue l I)) as [v| |]; try discriminate. cbn [bind] in E1.
        destruct (storeVia s t u v) as [s2| |] eqn:E2; try discriminate. injection E1 as <- _. eapply kept_via; eauto. }
    destruct go; [|injection E as <-; auto]. apply (IH s1 p); auto. }
  destruct (storeLoop net I t ord st) as [[st2 go]| |] eqn:E; try discriminate. cbn [bind]. intros E2.
  apply X in E; auto. cbn [fst] in E. destruct go; injection E2 as <- _; auto.
Qed.

Lemma ticketFor_pos (st : storer) tk : (0 <= tk)%Z -> ticketFor st tk = (st, tk).
Proof. intros H. unfold ticketFor. destruct (Z.ltb_spec tk 0); auto; lia. Qed.

Lemma kept_deriveSPN d fuel st tk itk st' x : (0 <= tk)%Z -> kept_by (fst (table F st tk)) -> J st ->
  deriveSPN net d fuel r st tk itk = Ok (st', x) -> J st'.
Proof.
  intros Ht HK H. unfold deriveSPN. rewrite ticketFor_pos by auto.
  destruct (storeVia st _ r (fz 0)) as [st2| |] eqn:E1; try discriminate. cbn [bind].
  destruct (walkFrom _ _ _ _ _ _) as [st3| |] eqn:E2; try discriminate. cbn [bind]. intros E. injection E as <- _.
  apply kept_via in E1; auto.
  eapply (walk_ind J (fun _ => True)) in E2; eauto.
  intros s u s' _ Hs. unfold deriveNode. destruct (nk (net u)) as [w| |l]; apply foldi_ind with (J := J); auto; intros i c a b Hi Ha E; cbv beta in E;
    destruct (tSingle _ _ a _ c) as [v e].
  - destruct (idx w i) as [wi| |]; try discriminate. eapply kept_via; eauto.
  - eapply kept_via; eauto.
  - eapply kept_via; eauto.
Qed.

Lemma kept_deriveWeights d fuel st tk dtk itk st' x : (0 <= tk)%Z -> kept_by (fst (table F st tk)) -> J st ->
  deriveWeights net d fuel r st tk dtk itk = Ok (st', x) -> J st'.
Proof.
  intros Ht HK H. unfold deriveWeights. rewrite ticketFor_pos by auto.
  destruct (walkFrom _ _ _ _ _ _) as [st3| |] eqn:E2; try discriminate. cbn [bind]. intros E. injection E as <- _.
  eapply (walk_ind J (fun _ => True)) in E2; eauto.
  intros s u s' _ Hs. unfold weightNode. destruct (nk (net u)) as [w| |l]; try (intros E; injection E as <-; auto; fail).
  apply foldi_ind with (J := J); auto. intros i c a b Hi Ha E. eapply HK in E; eauto.
Qed.
Lemma kept_deriveWeightsBatch d fuel st tk dtk itk st' x : (0 <= tk)%Z -> kept_by (fst (table F st tk)) -> J st ->
  deriveWeightsBatch net d fuel r st tk dtk itk = Ok (st', x) -> J st'.
Proof.
  intros Ht HK H. unfold deriveWeightsBatch. rewrite ticketFor_pos by auto.
  destruct (walkFrom _ _ _ _ _ _) as [st3| |] eqn:E2; try discriminate. cbn [bind]. intros E. injection E as <- _.
  eapply (walk_ind J (fun _ => True)) in E2; eauto.
  intros s u s' _ Hs. unfold batchNode. destruct (nk (net u)) as [w| |l]; try (intros E; injection E as <-; auto; fail).
  apply foldi_ind with (J := J); auto. intros i c a b Hi Ha E. cbv beta in E. destruct (tEntry _ _ a _ u _) as [dw e]. eapply HK in E; eauto.
Qed.
Lemma kept_deriveHard rnd fuelT fuel st tk I st' x : (0 <= tk)%Z -> kept_by (fst (table F st tk)) -> J st ->
  deriveHard net rnd fuelT fuel r st tk I = Ok (st', x) -> J st'.
Proof.
  intros Ht HK H. unfold deriveHard. rewrite ticketFor_pos by auto.
  destruct (traceMAP net rnd fuelT r I) as [T| |]; try discriminate. cbn [bind].
  destruct (walkFrom _ _ _ _ _ _) as [st3| |] eqn:E2; try discriminate. cbn [bind]. intros E. injection E as <- _.
  eapply (walk_ind J (fun _ => True)) in E2; eauto.
  intros s u s' _ Hs. unfold hardNode. destruct (nk (net u)) as [w| |l]; try (intros E; injection E as <-; auto; fail).
  destruct (T u) as [i|]; [|intros E; injection E as <-; auto].
  destruct (storeAt s _ u (Z.of_nat i) _) as [s1| |] eqn:E1; try discriminate. cbn [bind].
  destruct (idx _ i); try discriminate. cbn [bind]. intros E. injection E as <-. eapply HK in E1; eauto.
Qed.
Lemma kept_storeDGD fuel s w z u l st st' : kept_by (fst (table F st l)) -> J st -> storeDGD fuel r s w z u l net st = Ok st' -> J st'.
Proof.
  intros HK. unfold storeDGD. revert HK. generalize (fst (table F st w)), (fst (table F st u)), (fst (table F st s)), (fst (table F st z)), (fst (table F st l)).
  intros dwt dut ist izt lt HK. generalize [r] at 1. generalize [r]. intros V. revert st.
  induction fuel as [|k IH]; intros st Q Hs E; [discriminate|]. simpl in E. destruct Q as [|n Q]; [congruence|].
  destruct (storeNodeD net dwt dut ist izt lt st n) as [st1| |] eqn:E1; try discriminate. cbn [bind] in E. apply IH in E; auto.
  unfold storeNodeD in E1. destruct (nk (net n)) as [W| |lf]; [|injection E1 as <-; auto|injection E1 as <-; auto].
  revert E1. apply foldi_ind with (J := J); auto. intros i c a b Hi Ha E1. cbv zeta in E1. eapply HK in E1; eauto.
Qed.
End Kept.

(** A storage object got from a fresh one, with tables for the tickets [ks]. *)
Section Good.
Context {A : arith}.
Local Notation F := (F A).
Local Notation storer := (storer F).

Definition fresh_run (st : storer) : Prop := exists ops, run_state (ustep F (fz 0)) (newStorer F) ops = Some st.
Definition good (ks : list Z) (st : storer) : Prop := fresh_run st /\ forall k, In k ks -> snd (table F st k) = true.

Lemma fresh_runs st st' : fresh_run st -> runs st st' -> fresh_run st'.
Proof.
  intros (ops & H) (o & H'). exists (ops ++ o). revert H. generalize (newStorer F). induction ops as [|x ops IH]; intros s H; simpl in *; [congruence|].
  destruct (ustep F (fz 0) s x) as [[s1 y]|]; [|discriminate]. auto.
Qed.
Lemma fresh_wf st : fresh_run st -> wf F st.
Proof. intros (ops & H). eapply wf_run; [apply wf_new|eauto]. Qed.

(** What a call writing through the table of [tk] keeps. *)
Definition onlyat (st : storer) (tk : Z) (st' : storer) : Prop :=
  runs st st' /\ tables F st' = tables F st /\ allocated F st' (fst (table F st tk)) = true.
Lemma onlyat_kept st tk : kept_by (onlyat st tk) (fst (table F st tk)).
Proof.
  intros s u i v s' (H1 & H2 & H3) E. destruct (storeAt_keeps _ s u i v s' H3 E) as (K1 & K2 & K3). split; [eapply runs_trans; eauto|]. split; auto.
  rewrite <- H2. unfold storeAt in E. destruct (tStore F s _ u i v) as [[s1 b]|] eqn:Es; [|discriminate]. injection E as <-. apply (tStore_tables F _ _ _ _ _ _ _ Es).
Qed.
Lemma onlyat_refl st tk : wf F st -> onlyat st tk st.
Proof. intros W. split; [apply runs_refl|]. split; auto. apply handle_allocated. auto. Qed.
Lemma good_onlyat ks st tk st' : good ks st -> onlyat st tk st' -> good ks st'.
Proof. intros (H1 & H2) (K1 & K2 & _). split; [eapply fresh_runs; eauto|]. intros k Hk. unfold table. rewrite K2. apply H2; auto. Qed.

Lemma good_call ks st tk st' : good ks st -> (kept_by (onlyat st tk) (fst (table F st tk)) -> onlyat st tk st -> onlyat st tk st') -> good ks st'.
Proof. intros H HC. eapply good_onlyat; eauto. apply HC; [apply onlyat_kept|apply onlyat_refl; apply fresh_wf; apply H]. Qed.

Lemma good_reset ks st k : good ks st -> good ks (fst (reset F st k)).
Proof.
  intros (H1 & H2). split.
  - eapply fresh_runs; eauto. exists [US F (OReset F k)]. reflexivity.
  - intros k' Hk. unfold reset, table. cbn [fst snd]. simpl. unfold updZ. destruct (k' =? k)%Z; auto. apply H2 in Hk. exact Hk.
Qed.
Lemma good_resetTickets ks st ts : good ks st -> good ks (resetTickets F st ts).
Proof. unfold resetTickets. revert st. induction ts as [|k ts IH]; intros st H; simpl; auto. apply IH. apply (good_reset ks st k H). Qed.

Lemma reset_this st k u l : sEntry F (fz 0) (fst (reset F st k)) k u l = (fz 0, false).
Proof.
  unfold reset, sEntry. cbn [fst]. simpl. unfold updZ. rewrite Z.eqb_refl. unfold tEntry, tValue. simpl. rewrite upd_same. auto.
Qed.
Lemma reset_other st k k' u l : wf F st -> k' <> k -> sEntry F (fz 0) (fst (reset F st k)) k' u l = sEntry F (fz 0) st k' u l.
Proof.
  intros W Hne. unfold reset, sEntry. cbn [fst]. simpl. unfold updZ. apply Z.eqb_neq in Hne. rewrite !Hne. destruct (tables F st k') as [t|] eqn:Et; auto.
  unfold tEntry, tValue, map_get. simpl. pose proof (allocated_table F st k' t W Et) as Ha. simpl in Ha. apply Nat.ltb_lt in Ha.
  rewrite !upd_diff by lia. auto.
Qed.
Lemma tickets_good n : good (map Z.of_nat (seq 0 n)) (@tickets_ A n) /\ tickets F (@tickets_ A n) = Z.of_nat n /\
  (forall k u l, sEntry F (fz 0) (@tickets_ A n) k u l = (fz 0, false)).
Proof.
  unfold tickets_. induction n as [|n IH].
  - split; [|split; [reflexivity|]]; [split; [exists []; reflexivity|intros k []]|]. intros. reflexivity.
  - rewrite seq_S, fold_left_app. cbn [fold_left Nat.add]. destruct IH as ((H1 & H2) & H3 & H4).
    set (st := fold_left (fun (st : storer) (_ : nat) => fst (newTicket F st)) (seq 0 n) (newStorer F)) in *.
    pose proof (fresh_wf _ H1) as W. split; [split|split].
    + eapply fresh_runs; eauto. exists [US F (ONew F)]. reflexivity.
    + intros k Hk. rewrite map_app in Hk. unfold newTicket, table. cbn [fst]. simpl. unfold updZ. rewrite H3.
      destruct (Z.eqb_spec k (Z.of_nat n)); auto. apply in_app_or in Hk as [Hk|[Hk|[]]]; [|congruence]. apply H2 in Hk. exact Hk.
    + simpl. rewrite H3. lia.
    + intros k u l. unfold newTicket, sEntry. cbn [fst]. simpl. unfold updZ. destruct (k =? _)%Z eqn:E.
      * unfold tEntry, tValue. simpl. rewrite upd_same. auto.
      * specialize (H4 k u l). unfold sEntry in H4. destruct (tables F st k) as [t|] eqn:Et; auto. rewrite <- H4.
        unfold tEntry, tValue, map_get. simpl. pose proof (allocated_table F st k t W Et) as Ha. simpl in Ha. apply Nat.ltb_lt in Ha.
        rewrite !upd_diff by lia. auto.
Qed.
End Good.
