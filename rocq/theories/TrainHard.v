(** Hard generative learning, for every arithmetic. *)
From Coq Require Import FunctionalExtensionality Classical_Prop.
From Verif Require Import Base Res Arith LogMath GraphSpec GraphLemmas Search SearchLemmas Topo TopoLemmas Storer StorerSpec StorerLemmas
  Spn DP SpnSpec MapSpec Walk WalkLemmas Struct Derive DeriveLemmas GradLemmas StepLemmas Hard HardSpec HardLemmas PipeLemmas
  Train TrainSpec TrainRange TrainKeep TrainShape TrainAll TrainKept TrainSteps TrainBatch.

Section Kept.
Context {A : arith}.
Local Notation F := (F A).
Local Notation storer := (storer F).
Lemma winv_kept (st : storer) tk : kept_by (winv tk st) (fst (table F st tk)).
Proof.
  intros s u i v s' HW E. unfold table in E. cbn [fst] in E. destruct (tables F st tk) as [t|] eqn:Et; [|discriminate].
  destruct (storeAt_ok tk t st Et s u i v HW) as (s1 & E1 & H & _). rewrite E1 in E. injection E as <-. auto.
Qed.
Lemma winv_refl (st : storer) tk : wf F st -> winv tk st st.
Proof. intros W. split; auto. Qed.
Lemma winv_entry (st st' : storer) tk k x l : winv tk st st' -> k <> tk -> sEntry F (fz 0) st' k x l = sEntry F (fz 0) st k x l.
Proof. intros (_ & _ & _ & H) Hk. rewrite !sEntry_cval, H; auto. Qed.

(** No map of the storage is empty. *)
Definition full (st : storer) : Prop := forall t x m, theap F st t x = Some m -> exists l, mheap F st m l <> None.
Lemma full_kept t : kept_by full t.
Proof.
  intros s u i v s' H E. unfold storeAt, tStore in E. destruct t as [t|]; [|discriminate]. destruct (theap F s t u) as [m|] eqn:Et; injection E as <-; intros t' x m' Hx; simpl in *.
  - destruct (Nat.eqb_spec m' m) as [->|Hn].
    + exists i. rewrite upd_same. unfold updZ. rewrite Z.eqb_refl. discriminate.
    + rewrite upd_diff by auto. eauto.
  - destruct (Nat.eqb_spec m' (mnext F s)) as [->|Hn].
    + exists i. rewrite upd_same. unfold updZ. rewrite Z.eqb_refl. discriminate.
    + rewrite !upd_diff by auto. apply (H t' x). unfold upd in Hx. destruct (Nat.eqb_spec t' t) as [->|]; auto. destruct (Nat.eqb_spec x u); auto. congruence.
Qed.
Lemma full_make st k : full st -> full (make_table F st k).
Proof. intros H t x m. simpl. unfold upd. destruct (Nat.eqb _ _); [discriminate|]. apply H. Qed.
Lemma full_reset st k : full st -> full (fst (reset F st k)).
Proof. intros H. unfold reset. cbn [fst]. apply full_make. exact H. Qed.
Lemma full_tickets n : full (tickets_ n).
Proof.
  unfold tickets_. generalize (seq 0 n). intros l. assert (H : full (newStorer F)) by (intros t x m; simpl; discriminate). revert H. generalize (newStorer F).
  induction l as [|x l IH]; intros st H; simpl; auto. apply IH. unfold newTicket. cbn [fst]. apply full_make. exact H.
Qed.
End Kept.

(** Results of loops that end well. *)
Lemma chain_fold_ok {X S N} (f : S -> X -> res S) (out : S -> N) (step : X -> N -> N -> Prop) (K : S -> Prop) l :
  (forall x s s', In x l -> K s -> f s x = Ok s' -> step x (out s) (out s') /\ K s') ->
  forall s s', K s -> foldr_ f l s = Ok s' -> chain step l (out s) (out s') /\ K s'.
Proof.
  induction l as [|x l IH]; intros H s s' Hs E; cbn [foldr_] in E.
  - injection E as <-. split; auto. constructor.
  - destruct (f s x) as [s1| |] eqn:E1; try discriminate. cbn [bind] in E. destruct (H x s s1 (or_introl eq_refl) Hs E1) as [H1 H2].
    destruct (IH (fun y a b Hy => H y a b (or_intror Hy)) s1 s' H2 E) as [H3 H4]. split; auto. econstructor; eauto.
Qed.
Lemma chain_epochs_ok {A} {X S N} (P : params A) (f : S -> res S) (out : S -> N) (step : X -> N -> N -> Prop) (K : S -> Prop) (L : list X) :
  (forall s s', K s -> f s = Ok s' -> chain step L (out s) (out s') /\ K s') ->
  forall s s', K s -> epochs P f s = Ok s' -> chain step (concat (repeat L (Z.to_nat (piter P)))) (out s) (out s') /\ K s'.
Proof.
  intros H. unfold epochs. induction (Z.to_nat (piter P)) as [|n IH]; intros s s' Hs E; cbn [repeat foldr_ concat] in *.
  - injection E as <-. split; auto. constructor.
  - destruct (f s) as [s1| |] eqn:E1; try discriminate. cbn [bind] in E. destruct (H s s1 Hs E1) as [H1 H2]. destruct (IH s1 s' H2 E) as [H3 H4].
    split; auto. eapply chain_app; eauto.
Qed.
Lemma foldr_eq {X S} (f g : S -> X -> res S) (K : S -> Prop) l :
  (forall x s, In x l -> K s -> f s x = g s x) -> (forall x s s', In x l -> K s -> f s x = Ok s' -> K s') ->
  forall s, K s -> foldr_ f l s = foldr_ g l s.
Proof.
  induction l as [|x l IH]; intros H1 H2 s Hs; cbn [foldr_]; auto. rewrite <- H1 by (simpl; auto). destruct (f s x) as [s1| |] eqn:E; auto. cbn [bind].
  apply IH; [intros; apply H1; simpl; auto|intros y a b Hy; apply H2; simpl; auto|]. apply (H2 x s); simpl; auto.
Qed.

Lemma counted_snoc_yes {X} (Q : X -> Prop) l x n : Q x -> counted Q l n -> counted Q (l ++ [x]) (S n).
Proof. intros Hx. induction 1; simpl; [repeat constructor; auto|apply counted_yes; auto|apply counted_no; auto]. Qed.
Lemma counted_snoc_no {X} (Q : X -> Prop) l x n : ~ Q x -> counted Q l n -> counted Q (l ++ [x]) n.
Proof. intros Hx. induction 1; simpl; [apply counted_no; auto; constructor|apply counted_yes; auto|apply counted_no; auto]. Qed.
Lemma counted_ex {X} (Q : X -> Prop) l : exists n, counted Q l n.
Proof. induction l as [|x l (n & IH)]; [exists 0; constructor|]. destruct (classic (Q x)); [exists (S n); apply counted_yes|exists n; apply counted_no]; auto. Qed.
Lemma counted_zero {X} (Q : X -> Prop) l n : counted Q l n -> (n = 0 <-> forall x, In x l -> ~ Q x).
Proof.
  induction 1 as [|x l n Hx H IH|x l n Hx H IH]; [split; auto; intros _ x []| |].
  - split; [discriminate|]. intros K. exfalso. apply (K x (or_introl eq_refl)). auto.
  - rewrite IH. split; intros K y; [intros [<-|Hy]; auto|intros Hy; apply K; right; auto].
Qed.

Section Hard.
Context {A : arith}.
Local Notation F := (F A).
Local Notation storer := (storer F).
Variables r N M : nat.
Variable net0 : network A.
Hypothesis HM : at_most M r net0.
Hypothesis Hbd : bounded (children net0) N.
Hypothesis Hr : r < N.
Hypothesis HL : leaves_childless net0.
Variables (ordN : nat -> (nat -> bool) -> list nat) (ordP : nat -> nat -> (Z -> option F) -> list (Z * F)).
Hypothesis HN : ranges_nodes N ordN.
Hypothesis HP : ranges_entries M ordP.
Variable rnd : nat -> nat -> nat -> nat.
Variable fuelT : nat.
Variable P : params A.
Local Notation below := (reach (children net0) r).
Local Notation entry := (sEntry F (fz 0)).

Lemma HB0 : forall u, below u -> u < N.
Proof. intros u Hu. eapply reach_bounded; eauto. Qed.
Lemma ow_leaves n : only_weights r net0 n -> leaves_childless n.
Proof.
  intros (H1 & H2) u l EK. rewrite H1. destruct (H2 u) as [E|(_ & w & w' & _ & E & _)]; [|congruence]. apply (HL u l). congruence.
Qed.

(** *** Applying a table, when it succeeds *)
Lemma gR_ok f nrm occ st k n s nd : sok M below st -> gR ordP f nrm occ st (fst (table F st k)) s (n s) = Ok nd -> nd = applied f nrm st k n s.
Proof.
  intros (_ & Hs). unfold gR, applied. rewrite tValue_cnode. destruct (nk (n s)) as [W| |] eqn:EK; try congruence. destruct (cnode F st k s) as [m|] eqn:Ec; try congruence.
  destruct (HP occ s (mheap F st m) (Hs m)) as [A1 A2]. destruct (rangeWeights_cases f _ (mheap F st m) W A1 A2) as [[_ ->]|[_ ->]]; [|discriminate].
  cbn [bind]. unfold cval. rewrite Ec. intros E. injection E as <-. reflexivity.
Qed.
Lemma applyRange_ok f nrm occ st k n n' : sok M below st -> applyRange ordN ordP f nrm occ st k n = Ok n' -> n' = applied f nrm st k n.
Proof.
  intros Hs. unfold applyRange. set (t := fst (table F st k)).
  destruct (HN occ (keysOf st t)) as [A1 A2]; [intros x Hx; apply HB0; eapply keys_below; eauto|].
  destruct (local_cases (rangeNode ordP f nrm occ st t) (gR ordP f nrm occ st t) (rangeNode_local ordP f nrm occ st t) (gR_nofuel _ _ _ _ _ _) n (ordN occ (keysOf st t)) A1)
    as [(n1 & -> & H1 & H2)|[_ ->]]; [|discriminate].
  intros E. injection E as <-. extensionality u. destruct (keysOf st t u) eqn:Ek.
  - apply (gR_ok f nrm occ st k n u); auto. apply H1. apply A2. auto.
  - rewrite H2 by (rewrite A2; congruence). unfold applied. unfold t in Ek. rewrite keysOf_cnode in Ek. destruct (cnode F st k u); [discriminate|].
    destruct (nk (n u)); auto.
Qed.
(** The search of applyHGD does what the loop over the table does. *)
Lemma applyHGD_range eta lambda tk nrm b occ occ' st n : only_weights r net0 n -> sok M below st ->
  applyHGD ordP (S N) r eta lambda tk nrm b occ st n = applyFastHGD ordN ordP eta lambda tk nrm b occ' st n.
Proof.
  intros Ho Hs. unfold applyHGD, applyFastHGD, applyRange. set (t := fst (table F st tk)). set (f := hardStep eta lambda b).
  pose proof (ow_children r net0 n Ho) as Ech. pose proof (ow_leaves n Ho) as HLn.
  assert (Hbn : bounded (children n) N) by (rewrite Ech; auto).
  destruct (walk_fold (inner n) UseQueue N r (inner_bounded n N Hbn) Hr) as (calls & _ & [Hnd Hen] & HW). rewrite HW.
  destruct (HN occ' (keysOf st t)) as [A1 A2]; [intros x Hx; apply HB0; eapply keys_below; eauto|].
  apply local_same with (g1 := gR ordP f nrm occ st t) (g2 := gR ordP f nrm occ' st t); auto using rangeNode_local, gR_nofuel.
  - intros s Hx. destruct (keysOf st t s) eqn:Ek; [left; apply A2; auto|]. right. unfold gR. rewrite (tValue_keys st t s Ek). destruct (nk (n s)); auto.
  - intros s Hx. apply A2 in Hx. pose proof (keys_below r M net0 st t s Hs Hx) as Hb. rewrite <- Ech in Hb.
    destruct (reach_inner_parent n r HLn s Hb) as [H|(H & _)]; [left; apply Hen; auto|]. right. unfold gR. unfold isLeaf in H. destruct (nk (n s)); auto; discriminate.
  - intros s _ _. eapply gR_same; eauto.
Qed.

(** *** What one instance leaves in the table *)
Definition KH (n : network A) (Ts : list (nat -> option nat)) (s : tstate A) : Prop :=
  tnet s = n /\ good [0; 1]%Z (tst s) /\ sok M below (tst s) /\ full (tst s) /\
  forall x l, exists k, counted (fun T => chosen_edge n T r x l) Ts k /\ entry (tst s) 0 x l = (times k, negb (Nat.eqb k 0)).

Lemma hard_one n Ts s I st1 x1 st2 x2 : only_weights r net0 n -> KH n Ts s ->
  storeInference n fuelT r I 1 (tst s) = Ok (st1, x1) -> deriveHard n (rnd (tcnt s)) fuelT (S N) r st1 0 I = Ok (st2, x2) ->
  exists T, traceMAP n (rnd (tcnt s)) fuelT r I = Ok T /\ forall c, KH n (Ts ++ [T]) (mkT st2 n c) /\ KH n (Ts ++ [T]) (mkT (fst (reset F st2 1)) n c).
Proof.
  intros Ho (En & HG & Hs & Hf & HC) E1 E2.
  assert (HG1 : good [0; 1]%Z st1).
  { refine (good_call _ (tst s) 1%Z st1 HG _). intros K1 K2. exact (kept_storeInference n r _ _ I 1%Z (tst s) st1 _ ltac:(lia) K1 K2 E1). }
  assert (HW1 : winv 1 (tst s) st1).
  { exact (kept_storeInference n r _ _ I 1%Z (tst s) st1 _ ltac:(lia) (winv_kept (tst s) 1%Z) (winv_refl _ _ (fresh_wf _ (proj1 HG))) E1). }
  assert (HG2 : good [0; 1]%Z st2).
  { refine (good_call _ st1 0%Z st2 HG1 _). intros K1 K2. exact (kept_deriveHard n r _ _ _ _ st1 0%Z I st2 _ ltac:(lia) K1 K2 E2). }
  assert (Hs2 : sok M below st2).
  { refine (k_hard r M net0 HM _ _ n Ho _ st1 0%Z I (st2, x2) _ E2). exact (k_inf r M net0 HM _ n Ho I 1%Z (tst s) (st1, x1) Hs E1). }
  assert (Hf2 : full st2).
  { refine (kept_deriveHard n r _ _ _ _ st1 0%Z I st2 _ ltac:(lia) (full_kept _) _ E2). exact (kept_storeInference n r _ _ I 1%Z (tst s) st1 _ ltac:(lia) (full_kept _) Hf E1). }
  destruct (traceMAP n (rnd (tcnt s)) fuelT r I) as [T| |] eqn:ET.
  2:{ unfold deriveHard in E2. rewrite ET in E2. destruct (ticketFor st1 0); discriminate. }
  2:{ unfold deriveHard in E2. rewrite ET in E2. destruct (ticketFor st1 0); discriminate. }
  exists T. split; auto. destruct HG1 as ((ops1 & Hst1) & HT1).
  assert (Hbn : bounded (children n) N) by (rewrite (ow_children r net0 n Ho); auto).
  destruct (hard_counts_l n T N r (rnd (tcnt s)) fuelT I st1 ops1 0 Hst1 Hbn Hr (fun _ => HT1 0%Z ltac:(simpl; auto)) ET) as (st3 & E3 & C1 & C2 & _).
  cbn in C1, C2. rewrite E3 in E2. injection E2 as <- <-.
  assert (HC2 : forall x l, exists k, counted (fun T => chosen_edge n T r x l) (Ts ++ [T]) k /\ entry st3 0 x l = (times k, negb (Nat.eqb k 0))).
  { intros x l. destruct (HC x l) as (k & K1 & K2). destruct (classic (chosen_edge n T r x l)) as [Hx|Hx].
    - exists (S k). split; [apply counted_snoc_yes; auto|]. rewrite C1 by auto. rewrite (winv_entry _ _ _ _ _ _ HW1) by lia. rewrite K2. reflexivity.
    - exists k. split; [apply counted_snoc_no; auto|]. rewrite C2 by auto. rewrite (winv_entry _ _ _ _ _ _ HW1) by lia. auto. }
  intros c. split; (split; [reflexivity|]); cbn [tst]; (split; [|split; [|split]]); auto using good_reset, sok_reset, full_reset.
  intros x l. rewrite reset_other by (try lia; apply fresh_wf; apply HG2). auto.
Qed.

Lemma applied_step n Ts s c b : KH n Ts s ->
  Forall2 (fun I T => exists rnd fuel, traceMAP n rnd fuel r I = Ok T) c Ts ->
  hard_step r (pnorm P) (peta P) (plambda P) b c n (applied (hardStep (peta P) (plambda P) b) (pnorm P) (tst s) 0 n).
Proof.
  intros (_ & _ & Hs & Hf & HC) HT. exists Ts. split; auto.
  assert (HV : forall x l k, counted (fun T => chosen_edge n T r x l) Ts k -> cval F (tst s) 0 x l = if Nat.eqb k 0 then None else Some (times k)).
  { intros x l k Hk. destruct (HC x l) as (k' & K1 & K2).
    assert (k' = k). { clear - Hk K1. revert k Hk. induction K1; intros k Hk; inversion Hk; subst; try contradiction; auto. }
    subst k'. rewrite sEntry_cval in K2. destruct (cval F (tst s) 0 x l) as [v|]; destruct (Nat.eqb k 0); cbn in K2; congruence. }
  assert (HX : forall u m, cnode F (tst s) 0 u = Some m -> exists T i, In T Ts /\ chosen_edge n T r u (Z.of_nat i)).
  { intros u m Ec. unfold cnode in Ec. destruct (tables F (tst s) 0) as [t|] eqn:Et; [|discriminate]. destruct (Hf t u m Ec) as (l & Hl).
    destruct (counted_ex (fun T => chosen_edge n T r u l) Ts) as (k & Hk). pose proof (HV u l k Hk) as Ev. unfold cval, cnode in Ev. rewrite Et, Ec in Ev.
    destruct (Nat.eqb_spec k 0) as [|Hk0]; [congruence|]. destruct (classic (exists T, In T Ts /\ chosen_edge n T r u l)) as [(T & K1 & K2)|K].
    - pose proof K2 as (_ & _ & i & _ & ->). eauto.
    - destruct Hk0. apply (proj2 (counted_zero _ _ _ Hk)). intros T K1 K2. apply K. eauto. }
  split.
  - intros u Hu. unfold applied. destruct (nk (n u)) as [W| |] eqn:EK; auto. destruct Hu as [Hu|Hu]; [destruct (Hu W); auto|].
    destruct (cnode F (tst s) 0 u) as [m|] eqn:Ec; auto. destruct (HX u m Ec) as (T & i & K1 & K2). destruct (Hu T i K1 K2).
  - intros u W T j EK HIn Hch. exists (stepped (hardStep (peta P) (plambda P) b) (cval F (tst s) 0 u) 0 W). split; [apply stepped_length|].
    assert (Hcn : exists m, cnode F (tst s) 0 u = Some m).
    { destruct (counted_ex (fun T => chosen_edge n T r u (Z.of_nat j)) Ts) as (k & Hk). pose proof (HV u _ k Hk) as Ev.
      destruct (Nat.eqb_spec k 0) as [Hk0|Hk0]; [exfalso; exact (proj1 (counted_zero _ _ _ Hk) Hk0 T HIn Hch)|].
      unfold cval in Ev. destruct (cnode F (tst s) 0 u) as [m|]; [eauto|discriminate]. }
    destruct Hcn as (m & Hm). split; [unfold applied; rewrite EK, Hm; reflexivity|].
    intros i w Hw. destruct (counted_ex (fun T => chosen_edge n T r u (Z.of_nat i)) Ts) as (k & Hk). exists k. split; auto.
    rewrite (stepped_nth _ _ _ 0 i w Hw). cbn [Nat.add]. rewrite (HV u _ k Hk). destruct (Nat.eqb k 0); reflexivity.
Qed.

(** *** GenerativeHardGD and GenerativeHardBGD *)
Definition KS (s : tstate A) : Prop := only_weights r net0 (tnet s) /\ KH (tnet s) [] s.
Lemma KS_start : KS (start 2 net0).
Proof.
  split; [apply ow_refl|]. destruct (@tickets_good A 2) as (HG & _ & Hbl). split; [reflexivity|]. split; [exact HG|]. split; [apply sok_tickets|]. split; [apply full_tickets|].
  intros x l. exists 0. split; [constructor|]. apply Hbl.
Qed.
(** Resetting ticket 0 after a batch. *)
Lemma KS_reset n n' Ts s c : KH n Ts s -> only_weights r net0 n' -> KS (mkT (fst (reset F (tst s) 0)) n' c).
Proof.
  intros (_ & HG & Hs & Hf & _) Ho. split; auto. split; [reflexivity|]. cbn [tst]. split; [apply good_reset; auto|]. split; [apply sok_reset; auto|]. split; [apply full_reset; auto|].
  intros x l. exists 0. split; [constructor|]. apply reset_this.
Qed.
Lemma applied_ow f nrm st n : only_weights r net0 n -> sok M below st -> forall k, only_weights r net0 (applied f nrm st k n).
Proof.
  intros Ho (Hs & _) k. apply ow_trans with (b := n); auto. split.
  - intros u. unfold applied. destruct (nk (n u)); auto. destruct (cnode F st k u); auto.
  - intros u. unfold applied. destruct (nk (n u)) as [W| |] eqn:EK; auto. destruct (cnode F st k u) as [m|] eqn:Ec; auto. right.
    split; [|exists W; eexists; split; [reflexivity|split; [reflexivity|rewrite maybeNorm_len, stepped_length; auto]]].
    rewrite (ow_children r net0 n Ho). unfold cnode in Ec. destruct (tables F st k) as [t|]; [|discriminate]. exact (Hs t u m Ec).
Qed.

Lemma hgd_step s I s' : KS s -> hgdInstance ordP rnd fuelT (S N) r P s I = Ok s' ->
  hard_step r (pnorm P) (peta P) (plambda P) 1 [I] (tnet s) (tnet s') /\ KS s'.
Proof.
  intros (Ho & HK) E. unfold hgdInstance in E.
  destruct (storeInference (tnet s) fuelT r I 1 (tst s)) as [[st1 x1]| |] eqn:E1; try discriminate. cbn [bind fst] in E.
  destruct (deriveHard (tnet s) (rnd (tcnt s)) fuelT (S N) r st1 0 I) as [[st2 x2]| |] eqn:E2; try discriminate. cbn [bind fst] in E.
  destruct (hard_one (tnet s) [] s I st1 x1 st2 x2 Ho HK E1 E2) as (T & ET & HT). destruct (HT 0) as [HT1 HT2].
  rewrite (applyHGD_range (peta P) (plambda P) 0 (pnorm P) 1 (tcnt s) (tcnt s) st2 (tnet s) Ho (proj1 (proj2 (proj2 HT1)))) in E.
  unfold applyFastHGD in E. destruct (applyRange ordN ordP _ _ _ _ _ _) as [n'| |] eqn:E3; try discriminate.
  pose proof (applyRange_ok _ _ _ _ _ _ _ (proj1 (proj2 (proj2 HT1))) E3) as ->. injection E as <-. cbn [tnet]. split.
  - apply (applied_step (tnet s) [T] (mkT st2 (tnet s) 0)); auto. constructor; [eauto|constructor].
  - apply (KS_reset (tnet s) _ ([] ++ [T]) (mkT (fst (reset F st2 1)) (tnet s) 0)); auto. apply applied_ow; auto. apply HT1.
Qed.

Lemma generativeHardGD_l data net' : generativeHardGD ordP rnd fuelT (S N) r P data net0 = Ok net' ->
  chain (fun I => hard_step r (pnorm P) (peta P) (plambda P) 1 [I]) (concat (repeat data (Z.to_nat (piter P)))) net0 net'.
Proof.
  unfold generativeHardGD. destruct (epochs P _ _) as [s'| |] eqn:E; try discriminate. intros E'. injection E' as <-.
  refine (proj1 (chain_epochs_ok P _ (@tnet A) _ KS data _ (start 2 net0) s' KS_start E)).
  intros s s1 Hs E1. refine (chain_fold_ok _ (@tnet A) _ KS data _ s s1 Hs E1). intros I a b _ Ha Eb. apply hgd_step; auto.
Qed.

Lemma hbgd_batch c s s' : KS s -> runBatch (hbgdInstance rnd fuelT (S N) r) (flushWith (applyFastHGD ordN ordP (peta P) (plambda P) 0 (pnorm P) (pbatch P)) 0) s c = Ok s' ->
  hard_step r (pnorm P) (peta P) (plambda P) (pbatch P) c (tnet s) (tnet s') /\ KS s'.
Proof.
  intros (Ho & HK) E. unfold runBatch in E. set (n := tnet s) in *.
  assert (X : forall c2 Ts s1 s2, KH n Ts s1 -> foldr_ (hbgdInstance rnd fuelT (S N) r) c2 s1 = Ok s2 ->
    exists Ts2, Forall2 (fun I T => exists rnd fuel, traceMAP n rnd fuel r I = Ok T) c2 Ts2 /\ KH n (Ts ++ Ts2) s2).
  { clear - Ho HM Hbd Hr HL. induction c2 as [|I c2 IH]; intros Ts s1 s2 H1 E; cbn [foldr_] in E.
    - injection E as <-. exists []. rewrite app_nil_r. split; [constructor|auto].
    - destruct (hbgdInstance rnd fuelT (S N) r s1 I) as [s3| |] eqn:E3; try discriminate. cbn [bind] in E. unfold hbgdInstance in E3. rewrite (proj1 H1) in E3.
      destruct (storeInference n fuelT r I 1 (tst s1)) as [[st1 x1]| |] eqn:Ei; try discriminate. cbn [bind fst] in E3.
      destruct (deriveHard n (rnd (tcnt s1)) fuelT (S N) r st1 0 I) as [[st2 x2]| |] eqn:Ed; try discriminate. cbn [bind fst] in E3. injection E3 as <-.
      destruct (hard_one n Ts s1 I st1 x1 st2 x2 Ho H1 Ei Ed) as (T & ET & HT). destruct (HT (S (tcnt s1))) as [_ HT2].
      destruct (IH (Ts ++ [T]) _ s2 HT2 E) as (Ts2 & K1 & K2). exists (T :: Ts2). split; [constructor; eauto|]. rewrite <- app_assoc in K2. exact K2. }
  destruct (foldr_ (hbgdInstance rnd fuelT (S N) r) c s) as [s2| |] eqn:E2; try discriminate. cbn [bind] in E.
  destruct (X c [] s s2 HK E2) as (Ts & HT & HK2). cbn [app] in HK2. unfold flushWith, applyFastHGD in E. rewrite (proj1 HK2) in E.
  destruct (applyRange ordN ordP _ _ _ _ _ _) as [n'| |] eqn:E3; try discriminate. pose proof (applyRange_ok _ _ _ _ _ _ _ (proj1 (proj2 (proj2 HK2))) E3) as ->.
  injection E as <-. cbn [tnet]. split; [apply applied_step with (Ts := Ts); auto|]. apply (KS_reset n _ Ts s2); auto. apply applied_ow; auto. apply HK2.
Qed.

Lemma generativeHardBGD_l data net' : (0 < pbatch P)%Z -> generativeHardBGD ordN ordP rnd fuelT (S N) r P data net0 = Ok net' ->
  exists cs, batches (Z.to_nat (pbatch P)) data cs /\
    chain (hard_step r (pnorm P) (peta P) (plambda P) (pbatch P)) (concat (repeat cs (Z.to_nat (piter P)))) net0 net'.
Proof.
  intros Hb. unfold generativeHardBGD. destruct (epochs P _ _) as [s'| |] eqn:E; try discriminate. intros E'. injection E' as <-.
  destruct (batches_exist (Z.to_nat (pbatch P)) ltac:(lia) data) as (cs & Hcs). exists cs. split; auto.
  refine (proj1 (chain_epochs_ok P _ (@tnet A) _ KS cs _ (start 2 net0) s' KS_start E)).
  intros s s1 Hs E1. rewrite (batchEpoch_runs _ Hb _ _ data cs s Hcs) in E1. refine (chain_fold_ok _ (@tnet A) _ KS cs _ s s1 Hs E1). intros c a b _ Ha Eb. apply hbgd_batch; auto.
Qed.
End Hard.
