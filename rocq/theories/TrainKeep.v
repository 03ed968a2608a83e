(** The storage used while learning only has entries for nodes below the root, at positions of
    their children or weights. *)
From Verif Require Import Base Res Arith LogMath GraphSpec GraphLemmas Search SearchLemmas Topo TopoLemmas Storer Spn DP SpnSpec Walk WalkLemmas
  Struct Derive DeriveLemmas Hard Train TrainSpec.

Lemma foldi_ind {X S} (J : S -> Prop) (f : nat -> S -> X -> res S) l :
  (forall i x s s', nth_error l i = Some x -> J s -> f i s x = Ok s' -> J s') ->
  forall s s', J s -> foldi f l s = Ok s' -> J s'.
Proof.
  unfold foldi. enough (G : forall l i, (forall j x s s', nth_error l j = Some x -> J s -> f (i + j) s x = Ok s' -> J s') ->
    forall s s', J s -> foldi_from i f l s = Ok s' -> J s') by (intros H s s'; apply (G l 0); auto).
  clear l. induction l as [|c l IH]; intros i H s s' Hs E; simpl in E; [congruence|].
  destruct (f i s c) as [s1| |] eqn:E1; try discriminate. cbn [bind] in E. apply (IH (i + 1)) with (s := s1); auto.
  - intros j x a b Hj Ha Eb. apply (H (Datatypes.S j) x a b Hj Ha). rewrite <- Eb. f_equal. lia.
  - apply (H 0 c s s1 eq_refl Hs). rewrite Nat.add_0_r. auto.
Qed.
Lemma foldr_ind {X S} (J : S -> Prop) (f : S -> X -> res S) l :
  (forall x s s', In x l -> J s -> f s x = Ok s' -> J s') ->
  forall s s', J s -> foldr_ f l s = Ok s' -> J s'.
Proof.
  induction l as [|c l IH]; intros H s s' Hs E; simpl in E; [congruence|].
  destruct (f s c) as [s1| |] eqn:E1; try discriminate. cbn [bind] in E. apply (IH) with (s := s1); auto.
  - intros x a b Hx. apply H. right; auto.
  - apply (H c s s1); auto. left; auto.
Qed.

Lemma give_children_in d cs : forall Fr V x, In x (fst (give_children d cs (Fr, V))) -> In x Fr \/ In x cs.
Proof.
  induction cs as [|c cs IH]; intros Fr V x H; cbn in *; auto.
  destruct (memn c V).
  - destruct (IH _ _ _ H); auto.
  - destruct (IH _ _ _ H) as [H1|H1]; auto. destruct d; cbn in H1; [apply in_app_or in H1 as [H1|[H1|[]]]|destruct H1]; auto.
Qed.

Lemma walk_ind {St} (J : St -> Prop) (K : nat -> Prop) (g : graph) d (proc : St -> nat -> res St) :
  (forall u c, K u -> In c (g u) -> K c) -> (forall s u s', K u -> J s -> proc s u = Ok s' -> J s') ->
  forall fuel r s s', K r -> J s -> walkFrom g d proc fuel r s = Ok s' -> J s'.
Proof.
  intros Hc Hp fuel r s s' Hr. unfold walkFrom.
  enough (G : forall fuel Fr V s, (forall x, In x Fr -> K x) -> J s -> walk g d proc fuel Fr V s = Ok s' -> J s').
  { apply G. intros x [<-|[]]. auto. }
  clear fuel s r Hr. induction fuel as [|k IH]; intros Fr V s HF Hs E; [discriminate|]. simpl in E. destruct Fr as [|u Fr]; [congruence|].
  destruct (proc s u) as [s1| |] eqn:E1; try discriminate. cbn [bind] in E.
  destruct (give_children d (g u) (Fr, V)) as [F2 V2] eqn:EG. apply (IH _ _ _) in E; auto.
  - intros x Hx. pose proof (give_children_in d (g u) Fr V x) as H. rewrite EG in H. destruct (H Hx) as [H1|H1]; [apply HF; right; auto|].
    apply (Hc u); auto. apply HF. left; auto.
  - apply (Hp s u s1); auto. apply HF. left; auto.
Qed.

Lemma tarjan_in (g : graph) r fuel ord : topSortTarjan g fuel r = Some ord -> forall x, In x ord -> reach g r x.
Proof.
  unfold topSortTarjan. enough (G : forall fuel stk V P out, (forall x, In x stk -> reach g r x) -> (forall x, In x out -> reach g r x) ->
    tarjan_loop g fuel stk V P out = Some ord -> forall x, In x ord -> reach g r x).
  { refine (G fuel [r] [r] [] [] _ _); [intros x [<-|[]]; constructor|intros x []]. }
  clear fuel. induction fuel as [|k IH]; intros stk V P out Hs Ho E; [discriminate|]. simpl in E. destruct stk as [|u stk]; [injection E as <-; auto|].
  destruct (memn u P).
  - refine (IH _ _ _ _ _ _ E); [intros x Hx; apply Hs; right; auto|]. intros x Hx. apply in_app_or in Hx as [Hx|[<-|[]]]; auto. apply Hs. left; auto.
  - destruct (push_children_spec (g u) (u :: stk) V) as (new & EN & _ & Hn & _). rewrite EN in E. refine (IH _ _ _ _ _ Ho E).
    intros x Hx. apply in_app_or in Hx as [Hx|Hx]; auto. apply in_rev in Hx. apply reach_snoc with (y := u); [apply Hs; left; auto|]. apply Hn; auto.
Qed.

Section Keep.
Context {A : arith}.
Local Notation F := (F A).
Local Notation storer := (storer F).
Variable net : network A.
Variables r M : nat.
Local Notation ch := (children net).

Definition sok (K : nat -> Prop) (st : storer) : Prop :=
  (forall t s m, theap F st t s = Some m -> K s) /\
  (forall m i v, mheap F st m i = Some v -> (0 <= i < Z.of_nat M)%Z).

Lemma sok_new K : sok K (newStorer F).
Proof. split; simpl; discriminate. Qed.
Lemma sok_make K st k : sok K st -> sok K (make_table F st k).
Proof. intros (H1 & H2). split; auto. simpl. intros t s m. unfold upd. destruct (Nat.eqb _ _); [discriminate|]. apply H1. Qed.
Lemma sok_reset K st k : sok K st -> sok K (fst (reset F st k)).
Proof. intros H. unfold reset. cbn [fst]. apply sok_make. exact H. Qed.
Lemma sok_newTicket K st : sok K st -> sok K (fst (newTicket F st)).
Proof. intros H. unfold newTicket. cbn [fst]. apply sok_make. exact H. Qed.
Lemma sok_resetTickets K ks : forall st, sok K st -> sok K (resetTickets F st ks).
Proof. unfold resetTickets. induction ks as [|k ks IH]; intros st H; simpl; auto. apply IH. apply sok_make. exact H. Qed.
Lemma sok_tickets K n : sok K (tickets_ n).
Proof.
  unfold tickets_. generalize (seq 0 n). intros l. generalize (sok_new K). generalize (newStorer F).
  induction l as [|x l IH]; intros st H; simpl; auto. apply IH. apply sok_newTicket. auto.
Qed.
Lemma sok_ticketFor K st tk : sok K st -> sok K (fst (ticketFor st tk)).
Proof. intros H. unfold ticketFor. destruct (tk <? 0)%Z; auto. apply sok_newTicket. auto. Qed.

Lemma sok_storeAt (K : nat -> Prop) st t s i v st' : sok K st -> K s -> (0 <= i < Z.of_nat M)%Z -> storeAt st t s i v = Ok st' -> sok K st'.
Proof.
  intros (H1 & H2) Hs Hi. unfold storeAt, tStore. destruct t as [t|]; [|discriminate]. destruct (theap F st t s) as [m|] eqn:Et; intros E; injection E as <-; split; simpl.
  - auto.
  - intros m' j x. unfold upd, updZ. destruct (Nat.eqb m' m); [|apply H2]. destruct (Z.eqb_spec j i) as [->|]; [auto|apply H2].
  - intros t' s' m'. unfold upd. destruct (Nat.eqb t' t); [|apply H1]. destruct (Nat.eqb_spec s' s) as [->|]; [auto|apply H1].
  - intros m' j x. unfold upd, updZ. destruct (Nat.eqb m' (mnext F st)); [|apply H2]. rewrite Nat.eqb_refl.
    destruct (Z.eqb_spec j i) as [->|]; [auto|discriminate].
Qed.

Hypothesis HM : 1 <= M.
Lemma sok_storeVia (K : nat -> Prop) st t s v st' : sok K st -> K s -> storeVia st t s v = Ok st' -> sok K st'.
Proof. intros H Hs E. apply (sok_storeAt K st t s 0%Z v st' H Hs); [lia|exact E]. Qed.

Hypothesis HC : forall u, reach ch r u -> length (nch (net u)) <= M.
Local Notation below := (reach ch r).

Lemma sok_storeInference fuel I tk st st' x : sok below st -> storeInference net fuel r I tk st = Ok (st', x) -> sok below st'.
Proof.
  intros H. unfold storeInference. destruct (Nat.eqb _ 0); [intros E; injection E as <- _; auto|].
  pose proof (sok_ticketFor below st tk H) as H1. unfold ticketFor in H1. destruct (if (tk <? 0)%Z then newTicket F st else (st, tk)) as [st1 tk1]. cbn [fst] in H1.
  destruct (topSortTarjan ch fuel r) as [ord|] eqn:Eo; [|discriminate].
  pose proof (tarjan_in ch r fuel ord Eo) as Hin. clear Eo. generalize (fst (table F st1 tk1)). intros t.
  assert (X : forall ord s p, (forall x, In x ord -> below x) -> sok below s -> storeLoop net I t ord s = Ok p -> sok below (fst p)).
  { clear - HM. induction ord as [|u ord IH]; intros s p Hin Hs E; simpl in E; [injection E as <-; auto|].
    destruct (storeNode net I t s u) as [[s1 go]| |] eqn:E1; try discriminate. cbn [bind] in E.
    assert (K : sok below s1).
    { unfold storeNode in E1. destruct (nk (net u)) as [w| |l].
      - destruct (storeSumVals s t 0 w (nch (net u))) as [[vs|]| |]; try discriminate; cbn [bind] in E1.
        + destruct (if Nat.eqb _ 0 then _ else _) as [v| |]; try discriminate. cbn [bind] in E1.
          destruct (storeVia s t u v) as [s2| |] eqn:E2; try discriminate. injection E1 as <- _. eapply sok_storeVia; eauto. apply Hin; left; auto.
        + injection E1 as <- _. auto.
      - destruct (storeVia s t u _) as [s2| |] eqn:E2; try discriminate. injection E1 as <- _. eapply sok_storeVia; eauto. apply Hin; left; auto.
      - destruct (orPanic (lvalue l I)) as [v| |]; try discriminate. cbn [bind] in E1.
        destruct (storeVia s t u v) as [s2| |] eqn:E2; try discriminate. injection E1 as <- _. eapply sok_storeVia; eauto. apply Hin; left; auto. }
    destruct go; [|injection E as <-; auto]. apply (IH s1 p); auto. intros x Hx. apply Hin. right; auto. }
  destruct (storeLoop net I t ord st1) as [[st2 go]| |] eqn:E; try discriminate. cbn [bind]. intros E2.
  apply X in E; auto. cbn [fst] in E. destruct go; injection E2 as <- _; auto.
Qed.

Lemma below_child u c : below u -> In c (nch (net u)) -> below c.
Proof. intros H Hc. eapply reach_snoc; eauto. Qed.
Lemma below_inner u c : below u -> In c (inner net u) -> below c.
Proof. intros H Hc. apply inner_sub in Hc. eapply reach_snoc; eauto. Qed.

Lemma sok_deriveSPN d fuel st tk itk st' x : sok below st -> deriveSPN net d fuel r st tk itk = Ok (st', x) -> sok below st'.
Proof.
  intros H. unfold deriveSPN. pose proof (sok_ticketFor below st tk H) as H1. destruct (ticketFor st tk) as [st1 tk1]. cbn [fst] in H1.
  destruct (storeVia st1 _ r (fz 0)) as [st2| |] eqn:E1; try discriminate. cbn [bind].
  destruct (walkFrom _ _ _ _ _ _) as [st3| |] eqn:E2; try discriminate. cbn [bind]. intros E. injection E as <- _.
  apply sok_storeVia with (K := below) in E1; auto; [|constructor].
  eapply (walk_ind (sok below) below) in E2; eauto; [apply below_inner| |constructor].
  intros s u s' Hu Hs. unfold deriveNode. destruct (nk (net u)) as [w| |l]; apply foldi_ind with (J := sok below); auto; intros i c a b Hi Ha E; cbv beta in E;
    destruct (tSingle _ _ a _ c) as [v e]; assert (Hc : below c) by (eapply below_child; eauto; eapply nth_error_In; eauto).
  - destruct (idx w i) as [wi| |]; try discriminate. eapply sok_storeVia; eauto.
  - eapply sok_storeVia; eauto.
  - eapply sok_storeVia; eauto.
Qed.

Lemma pos_ok u i c : below u -> nth_error (nch (net u)) i = Some c -> (0 <= Z.of_nat i < Z.of_nat M)%Z.
Proof. intros Hu Hi. pose proof (HC u Hu). assert (i < length (nch (net u))) by (apply nth_error_Some; congruence). lia. Qed.

Lemma sok_deriveWeights d fuel st tk dtk itk st' x : sok below st -> deriveWeights net d fuel r st tk dtk itk = Ok (st', x) -> sok below st'.
Proof.
  intros H. unfold deriveWeights. pose proof (sok_ticketFor below st tk H) as H1. destruct (ticketFor st tk) as [st1 tk1]. cbn [fst] in H1.
  destruct (walkFrom _ _ _ _ _ _) as [st3| |] eqn:E2; try discriminate. cbn [bind]. intros E. injection E as <- _.
  eapply (walk_ind (sok below) below) in E2; eauto; [apply below_inner| |constructor].
  intros s u s' Hu Hs. unfold weightNode. destruct (nk (net u)) as [w| |l]; try (intros E; injection E as <-; auto; fail).
  apply foldi_ind with (J := sok below); auto. intros i c a b Hi Ha E. eapply sok_storeAt in E; eauto. eapply pos_ok; eauto.
Qed.
Lemma sok_deriveWeightsBatch d fuel st tk dtk itk st' x : sok below st -> deriveWeightsBatch net d fuel r st tk dtk itk = Ok (st', x) -> sok below st'.
Proof.
  intros H. unfold deriveWeightsBatch. pose proof (sok_ticketFor below st tk H) as H1. destruct (ticketFor st tk) as [st1 tk1]. cbn [fst] in H1.
  destruct (walkFrom _ _ _ _ _ _) as [st3| |] eqn:E2; try discriminate. cbn [bind]. intros E. injection E as <- _.
  eapply (walk_ind (sok below) below) in E2; eauto; [apply below_inner| |constructor].
  intros s u s' Hu Hs. unfold batchNode. destruct (nk (net u)) as [w| |l]; try (intros E; injection E as <-; auto; fail).
  apply foldi_ind with (J := sok below); auto. intros i c a b Hi Ha E. cbv beta in E. destruct (tEntry _ _ a _ u _) as [dw e].
  eapply sok_storeAt in E; eauto. eapply pos_ok; eauto.
Qed.

Lemma hardNext_child (T : nat -> option nat) u c : In c (hardNext net T u) -> In c (nch (net u)).
Proof.
  unfold hardNext. destruct (nk (net u)) as [w| |l]; [|intros H; apply filter_In in H; apply H|intros []].
  destruct (T u) as [i|]; [|intros []]. destruct (nth_error (nch (net u)) i) as [c'|] eqn:E; [|intros []].
  intros [<-|[]]. eapply nth_error_In; eauto.
Qed.
Lemma sok_deriveHard rnd fuelT fuel st tk I st' x : sok below st -> deriveHard net rnd fuelT fuel r st tk I = Ok (st', x) -> sok below st'.
Proof.
  intros H. unfold deriveHard. pose proof (sok_ticketFor below st tk H) as H1. destruct (ticketFor st tk) as [st1 tk1]. cbn [fst] in H1.
  destruct (traceMAP net rnd fuelT r I) as [T| |]; try discriminate. cbn [bind].
  destruct (walkFrom _ _ _ _ _ _) as [st3| |] eqn:E2; try discriminate. cbn [bind]. intros E. injection E as <- _.
  eapply (walk_ind (sok below) below) in E2; eauto; [|  |constructor].
  - intros u c Hu Hc. eapply below_child; eauto. eapply hardNext_child; eauto.
  - intros s u s' Hu Hs. unfold hardNode. destruct (nk (net u)) as [w| |l]; try (intros E; injection E as <-; auto; fail).
    destruct (T u) as [i|]; [|intros E; injection E as <-; auto].
    destruct (storeAt s _ u (Z.of_nat i) _) as [s1| |] eqn:E1; try discriminate. cbn [bind]. unfold idx.
    destruct (nth_error (nch (net u)) i) as [c|] eqn:Ec; [|discriminate]. cbn [bind]. intros E. injection E as <-.
    eapply sok_storeAt in E1; eauto. eapply pos_ok; eauto.
Qed.

Lemma sok_storeDGD fuel s w z u l st st' : (forall W, nk (net r) = KSum W -> length W <= M) -> sok below st ->
  storeDGD fuel r s w z u l net st = Ok st' -> sok below st'.
Proof.
  intros HW H. unfold storeDGD. generalize (fst (table F st w)), (fst (table F st u)), (fst (table F st s)), (fst (table F st z)), (fst (table F st l)).
  intros dwt dut ist izt lt.
  enough (G : forall fuel Q st, (forall x, In x Q -> x = r) -> sok below st ->
    storeLoopD net (storeNodeD net dwt dut ist izt lt) fuel Q [r] st = Ok st' -> sok below st').
  { apply G; auto. intros x [<-|[]]; auto. }
  clear fuel st H. induction fuel as [|k IH]; intros Q st HQ Hs E; [discriminate|]. simpl in E. destruct Q as [|n Q]; [congruence|].
  destruct (storeNodeD net dwt dut ist izt lt st n) as [st1| |] eqn:E1; try discriminate. cbn [bind] in E.
  assert (n = r) by (apply HQ; left; auto). subst n. apply IH in E; auto.
  - assert (X : forall cs Q, (forall x, In x Q -> x = r) -> forall x, In x (fold_left (fun Q0 c => if negb (isLeaf net c) && memn c [r] then Q0 ++ [c] else Q0) cs Q) -> x = r).
    { clear. induction cs as [|c cs IH]; intros Q HQ x Hx; simpl in Hx; [auto|].
      destruct (negb (isLeaf net c) && (Nat.eqb c r || false)) eqn:Ec; [|eapply IH; eauto].
      eapply IH in Hx; eauto. intros y Hy. apply in_app_or in Hy as [Hy|[<-|[]]]; auto. apply andb_prop in Ec as [_ Ec].
      destruct (Nat.eqb_spec c r); auto; discriminate. }
    apply X. intros x Hx. apply HQ. right; auto.
  - unfold storeNodeD in E1. destruct (nk (net r)) as [W| |lf] eqn:EK; [|injection E1 as <-; auto|injection E1 as <-; auto].
    revert E1. apply foldi_ind with (J := sok below); auto. intros i c a b Hi Ha E1. cbv zeta in E1. eapply sok_storeAt in E1; eauto; [constructor|].
    pose proof (HW W eq_refl). assert (i < length W) by (apply nth_error_Some; congruence). lia.
Qed.
End Keep.
