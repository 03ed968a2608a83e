(** Hard discriminative learning, for every arithmetic; the sums the other discriminative learners change. *)
From Coq Require Import FunctionalExtensionality Classical_Prop.
From Verif Require Import Base Res Arith LogMath GraphSpec GraphLemmas Search SearchLemmas Topo TopoLemmas Storer StorerSpec StorerLemmas
  Spn DP SpnSpec MapSpec Walk WalkLemmas Struct Derive DeriveLemmas GradLemmas StepLemmas Hard HardSpec HardLemmas PipeLemmas
  Train TrainSpec TrainRange TrainKeep TrainShape TrainAll TrainKept TrainSteps TrainBatch TrainHard TrainDisc.

(** Batches counted over all iterations. *)
Section Flat.
Context {A : arith}.
Variable P : params A.
Hypothesis Hb : (0 < pbatch P)%Z.
Variable one : dstate A -> varset -> res (dstate A * varset).
Variable ap : nat -> storer (F A) -> network A -> res (network A).
Variable tks : list Z.
Hypothesis Hone : forall s I x, one s I = Ok x -> tcnt (ds (fst x)) = S (tcnt (ds s)).
Local Notation flush := (flushD ap tks).
Local Notation f := (fun i s I => s <- just one s I; m <- remOf (S i) (pbatch P); if (m =? 0)%Z then flush s else Ok s).

Lemma flush_cnt s s' : flush s = Ok s' -> tcnt (ds s') = tcnt (ds s).
Proof. unfold flushD. destruct (ap _ _ _); try discriminate. cbn [bind]. intros E. injection E as <-. auto. Qed.
Lemma flat_foldi l : forall i s, tcnt (ds s) = i ->
  foldr_ (just (fun s I => x <- one s I; afterOne P flush x)) l s = foldi_from i f l s /\
  forall s', foldi_from i f l s = Ok s' -> tcnt (ds s') = i + length l.
Proof.
  induction l as [|I l IH]; intros i s Hi; cbn [foldr_ foldi_from length]; [split; auto; intros s' E; injection E as <-; lia|].
  unfold just at 1 3 5. destruct (one s I) as [x| |] eqn:E1; [|split; [auto|discriminate]|split; [auto|discriminate]]. cbn [bind].
  pose proof (Hone s I x E1) as Hc. unfold afterOne. rewrite Hc, Hi. destruct (remOf (S i) (pbatch P)) as [m| |]; cbn [bind]; [|split; [auto|discriminate]|split; [auto|discriminate]].
  destruct (m =? 0)%Z.
  - destruct (flush (fst x)) as [s1| |] eqn:E2; cbn [bind fst]; [|split; [auto|discriminate]|split; [auto|discriminate]].
    destruct (IH (i + 1) s1) as [K1 K2]; [rewrite (flush_cnt _ _ E2); lia|]. split; auto. intros s' E. rewrite (K2 s' E). lia.
  - cbn [bind fst]. destruct (IH (i + 1) (fst x)) as [K1 K2]; [lia|]. split; auto. intros s' E. rewrite (K2 s' E). lia.
Qed.

Lemma dBatches_runs Y data cs s net' data' : NoDup Y -> (forall I, In I data -> has_all Y I) -> restores Y one -> length (dy s) = length Y -> tcnt (ds s) = 0 ->
  batches (Z.to_nat (pbatch P)) (concat (repeat data (Z.to_nat (piter P)))) cs ->
  dBatches P one flush data s = Ok (net', data') -> exists s', foldr_ (runBatch (just one) flush) cs s = Ok s' /\ tnet (ds s') = net' /\ data' = data.
Proof.
  intros HY HD HR Hl H0 Hcs E. unfold dBatches in E. destruct (dEpochs P _ data s) as [x| |] eqn:E1; try discriminate. cbn [bind] in E.
  destruct (dEpochs_restored P Y _ data (afterOne_restores P Y one ap tks HR) HD s x Hl E1) as (K1 & K2 & K3).
  destruct (flat_foldi (concat (repeat data (Z.to_nat (piter P)))) 0 s H0) as [F1 F2]. rewrite F1 in K3. pose proof (F2 _ K3) as F3.
  rewrite <- (batch_runs (pbatch P) Hb (just one) flush _ cs s Hcs). unfold foldi. rewrite K3. cbn [bind]. rewrite F3 in E. cbn [Nat.add] in E.
  destruct (remOf _ _) as [m| |]; try discriminate. cbn [bind] in *. destruct (m =? 0)%Z.
  - cbn [bind] in E. injection E as <- <-. eauto.
  - destruct (flush (fst x)) as [s1| |]; try discriminate. cbn [bind] in E. injection E as <- <-. eauto.
Qed.
End Flat.

Section Hard.
Context {A : arith}.
Local Notation F := (F A).
Local Notation storer := (storer F).
Variables r N M : nat.
Variable net0 : network A.
Hypothesis HM : at_most M r net0.
Hypothesis Hbd : bounded (children net0) N.
Hypothesis Hr : r < N.
Variables (ordN : nat -> (nat -> bool) -> list nat) (ordP : nat -> nat -> (Z -> option F) -> list (Z * F)).
Hypothesis HN : ranges_nodes N ordN.
Hypothesis HP : ranges_entries M ordP.
Variable rnd : nat -> nat -> nat -> nat.
Variable fuelT : nat.
Variable P : params A.
Variable Y : list Z.
Hypothesis HY : NoDup Y.
Variable ks : list Z.
Hypothesis Hk0 : In 0%Z ks.
Hypothesis Hk1 : In 1%Z ks.
Local Notation below := (reach (children net0) r).
Local Notation entry := (sEntry F (fz 0)).

(** Table [k] counts the edges on the trees [Ts]. *)
Definition counts (n : network A) (st : storer) (k : Z) (Ts : list (nat -> option nat)) : Prop :=
  forall x l, exists c, counted (fun T => chosen_edge n T r x l) Ts c /\ entry st k x l = (times c, negb (Nat.eqb c 0)).
Definition KC (n : network A) (Ts Us : list (nat -> option nat)) (st : storer) : Prop :=
  good ks st /\ sok M below st /\ full st /\ counts n st 0 Ts /\ counts n st 1 Us.

Lemma counts_same n st st' k Ts : (forall x l, entry st' k x l = entry st k x l) -> counts n st k Ts -> counts n st' k Ts.
Proof. intros H HC x l. destruct (HC x l) as (c & K1 & K2). exists c. rewrite H. auto. Qed.
Lemma counts_more n st st' k Ts T : (forall x l, chosen_edge n T r x l -> entry st' k x l = (fadd (fst (entry st k x l)) (fz 1), true)) ->
  (forall x l, ~ chosen_edge n T r x l -> entry st' k x l = entry st k x l) -> counts n st k Ts -> counts n st' k (Ts ++ [T]).
Proof.
  intros H1 H2 HC x l. destruct (HC x l) as (c & K1 & K2). destruct (classic (chosen_edge n T r x l)) as [Hx|Hx].
  - exists (S c). split; [apply counted_snoc_yes; auto|]. rewrite H1 by auto. rewrite K2. reflexivity.
  - exists c. split; [apply counted_snoc_no; auto|]. rewrite H2; auto.
Qed.

(** One call of DeriveHard. *)
Lemma hard_call n rn st tk I st' x : only_weights r net0 n -> good ks st -> sok M below st -> full st -> (0 <= tk)%Z -> In tk ks ->
  deriveHard n rn fuelT (S N) r st tk I = Ok (st', x) ->
  good ks st' /\ sok M below st' /\ full st' /\ exists T, traceMAP n rn fuelT r I = Ok T /\
    (forall Ts, counts n st tk Ts -> counts n st' tk (Ts ++ [T])) /\ (forall k Ts, k <> tk -> counts n st k Ts -> counts n st' k Ts).
Proof.
  intros Ho HG Hs Hf H0 Hk E.
  split; [refine (good_call _ st tk st' HG _); intros K1 K2; exact (kept_deriveHard n r _ _ _ _ st tk I st' _ H0 K1 K2 E)|].
  split; [exact (k_hard r M net0 HM _ _ n Ho _ st tk I (st', x) Hs E)|].
  split; [exact (kept_deriveHard n r _ _ _ _ st tk I st' _ H0 (full_kept _) Hf E)|].
  destruct (traceMAP n rn fuelT r I) as [T| |] eqn:ET.
  2:{ unfold deriveHard in E. rewrite ET in E. destruct (ticketFor st tk); discriminate. }
  2:{ unfold deriveHard in E. rewrite ET in E. destruct (ticketFor st tk); discriminate. }
  exists T. split; auto. pose proof HG as ((ops & Hst) & HT).
  assert (Hbn : bounded (children n) N) by (rewrite (ow_children r net0 n Ho); auto).
  destruct (hard_counts_l n T N r rn fuelT I st ops tk Hst Hbn Hr (fun _ => HT tk Hk) ET) as (st3 & E3 & C1 & C2 & C3).
  cbv zeta in *. replace (tk <? 0)%Z with false in * by (symmetry; apply Z.ltb_ge; lia). rewrite E3 in E. injection E as <- _. split.
  - intros Ts HC. exact (counts_more n st st3 tk Ts T C1 C2 HC).
  - intros k Ts Hne HC. exact (counts_same n st st3 k Ts (fun x l => C3 k x l Hne) HC).
Qed.

Lemma hardCounts_l n Ts Us (s : dstate A) I st J y : only_weights r net0 n -> tnet (ds s) = n -> KC n Ts Us (tst (ds s)) -> has_all Y I -> length (dy s) = length Y ->
  hardCounts rnd fuelT (S N) r Y s I = Ok (st, J, y) ->
  exists T U, (exists rn, traceMAP n rn fuelT r I = Ok T) /\ (exists rn, traceMAP n rn fuelT r (without Y I) = Ok U) /\ KC n (Ts ++ [T]) (Us ++ [U]) st /\ J = I.
Proof.
  intros Ho En (HG & Hs & Hf & C0 & C1) HI Hl. unfold hardCounts. destruct (pull_without I Y (dy s) HY Hl HI) as (y1 & P1 & P2 & _). rewrite En.
  destruct (deriveHard n _ _ _ r (tst (ds s)) 0 I) as [[st1 x1]| |] eqn:E1; try discriminate. cbn [bind fst]. rewrite P1. cbn [bind fst snd].
  destruct (deriveHard n _ _ _ r st1 1 (without Y I)) as [[st2 x2]| |] eqn:E2; try discriminate. cbn [bind fst]. rewrite P2. cbn [bind]. intros E. injection E as <- <- <-.
  destruct (hard_call n _ _ 0%Z I st1 x1 Ho HG Hs Hf ltac:(lia) Hk0 E1) as (G1 & S1 & F1 & T & ET & T1 & T2).
  destruct (hard_call n _ _ 1%Z _ st2 x2 Ho G1 S1 F1 ltac:(lia) Hk1 E2) as (G2 & S2 & F2 & U & EU & U1 & U2).
  exists T, U. split; [eauto|]. split; [eauto|]. split; auto. split; auto. split; auto. split; auto. split.
  - apply U2; [lia|]. apply T1. auto.
  - apply U1. apply T2; auto. lia.
Qed.

(** *** Applying the difference of the counts *)
Definition appliedD (eta lambda : F) nrm b (st : storer) (n : network A) : network A := fun u =>
  match nk (n u), cnode F st 0 u, cnode F st 1 u with
  | KSum W, None, None => n u
  | KSum W, _, _ => mkNode (KSum (maybeNorm nrm (stepped (hdStep eta lambda b) (countDiff st (fst (table F st 0)) (fst (table F st 1)) u) 0 W))) (nch (n u))
  | _, _, _ => n u
  end.
Lemma applyHDGD_ok eta lambda nrm b occ st n n' : only_weights r net0 n -> sok M below st -> applyHDGD ordN ordP eta lambda 0 1 nrm b occ st n = Ok n' ->
  n' = appliedD eta lambda nrm b st n /\ only_weights r net0 n'.
Proof.
  intros Ho Hs E. split; [|exact (proj2 (applyHDGD_agree r N M ordN ordN ordP ordP HN HN HP HP net0 (HB0 r N net0 Hbd Hr) eta lambda 0 1 nrm b occ occ st n Ho Hs) n' E)].
  revert E. unfold applyHDGD. set (dt := fst (table F st 0)). set (pt := fst (table F st 1)).
  assert (HK : forall x, keysOf st dt x || keysOf st pt x = true -> below x).
  { intros x Hx. apply orb_true_iff in Hx as [Hx|Hx]; eapply keys_below; eauto. }
  destruct (HN occ (fun s => keysOf st dt s || keysOf st pt s)) as [A1 A2]; [intros x Hx; apply (HB0 r N net0 Hbd Hr); auto|].
  destruct (local_cases (hdNode ordP eta lambda nrm b occ st dt pt) (gH ordP eta lambda nrm b occ st dt pt) (hdNode_local ordP eta lambda nrm b occ st dt pt)
    (gH_nofuel _ _ _ _ _ _ _ _ _) n _ A1) as [(n1 & -> & H1 & H2)|[_ ->]]; [|discriminate].
  intros E. injection E as <-. extensionality u. unfold appliedD. fold dt pt.
  destruct (keysOf st dt u || keysOf st pt u) eqn:Ek.
  - pose proof (H1 u (proj2 (A2 u) Ek)) as E1. unfold gH in E1. destruct (nk (n u)) as [W| |] eqn:EK; try discriminate.
    destruct (HP occ u _ (countDiff_pos r M net0 st dt pt u Hs)) as [C1 C2].
    destruct (rangeWeights_cases (hdStep eta lambda b) _ _ W C1 C2) as [[_ E2]|[_ E2]]; rewrite E2 in E1; [|discriminate]. cbn [bind] in E1. injection E1 as <-.
    unfold dt, pt in Ek. rewrite !keysOf_cnode in Ek. destruct (cnode F st 0 u), (cnode F st 1 u); try discriminate; reflexivity.
  - rewrite H2 by (rewrite A2; congruence). unfold dt, pt in Ek. rewrite !keysOf_cnode in Ek. destruct (cnode F st 0 u), (cnode F st 1 u); try discriminate.
    destruct (nk (n u)); auto.
Qed.

Lemma counts_cval n st k Ts : counts n st k Ts -> forall x l c, counted (fun T => chosen_edge n T r x l) Ts c -> entry st k x l = (times c, negb (Nat.eqb c 0)).
Proof.
  intros HC x l c Hc. destruct (HC x l) as (c' & K1 & K2).
  assert (c' = c) by (clear - Hc K1; revert c Hc; induction K1; intros c Hc; inversion Hc; subst; try contradiction; auto). congruence.
Qed.
Lemma entry_table st k u l : tEntry F (fz 0) st (fst (table F st k)) u l = entry st k u l.
Proof. unfold sEntry, table. cbn [fst]. destruct (tables F st k); reflexivity. Qed.
Lemma node_met n st k Ts u m : full st -> counts n st k Ts -> cnode F st k u = Some m -> exists T i, In T Ts /\ chosen_edge n T r u (Z.of_nat i).
Proof.
  intros Hf HC Ec. unfold cnode in Ec. destruct (tables F st k) as [t|] eqn:Et; [|discriminate]. destruct (Hf t u m Ec) as (l & Hl).
  destruct (counted_ex (fun T => chosen_edge n T r u l) Ts) as (c & Hc). pose proof (counts_cval n st k Ts HC u l c Hc) as Ev.
  rewrite sEntry_cval in Ev. unfold cval, cnode in Ev. rewrite Et, Ec in Ev.
  destruct (mheap F st m l); [|congruence]. destruct (Nat.eqb_spec c 0) as [|Hc0]; [discriminate|].
  destruct (classic (exists T, In T Ts /\ chosen_edge n T r u l)) as [(T & K1 & K2)|K].
  - pose proof K2 as (_ & _ & i & _ & ->). eauto.
  - destruct Hc0. apply (proj2 (counted_zero _ _ _ Hc)). intros T K1 K2. apply K. eauto.
Qed.
Lemma met_node n st k Ts u T j : counts n st k Ts -> In T Ts -> chosen_edge n T r u (Z.of_nat j) -> cnode F st k u <> None.
Proof.
  intros HC HT Hch. destruct (counted_ex (fun T => chosen_edge n T r u (Z.of_nat j)) Ts) as (c & Hc). pose proof (counts_cval n st k Ts HC u _ c Hc) as Ev.
  destruct (Nat.eqb_spec c 0) as [H0|H0]; [exfalso; exact (proj1 (counted_zero _ _ _ Hc) H0 T HT Hch)|].
  rewrite sEntry_cval in Ev. unfold cval in Ev. destruct (cnode F st k u); [discriminate|cbn in Ev; congruence].
Qed.

Lemma appliedD_step n Ts Us st c b : KC n Ts Us st ->
  Forall2 (fun I T => exists rnd fuel, traceMAP n rnd fuel r I = Ok T) c Ts ->
  Forall2 (fun I T => exists rnd fuel, traceMAP n rnd fuel r (without Y I) = Ok T) c Us ->
  hard_disc_step r (pnorm P) (peta P) (plambda P) b Y c n (appliedD (peta P) (plambda P) (pnorm P) b st n).
Proof.
  intros (_ & Hs & Hf & C0 & C1) HT HU. exists Ts, Us. split; auto. split; auto. split.
  - intros u Hu. unfold appliedD. destruct (nk (n u)) as [W| |] eqn:EK; auto.
    destruct (cnode F st 0 u) as [m|] eqn:E0.
    { destruct (node_met n st 0 Ts u m Hf C0 E0) as (T & i & K1 & K2). destruct (Hu T i); auto. apply in_or_app; auto. }
    destruct (cnode F st 1 u) as [m|] eqn:E1; auto.
    destruct (node_met n st 1 Us u m Hf C1 E1) as (T & i & K1 & K2). destruct (Hu T i); auto. apply in_or_app; auto.
  - intros u T j HIn Hch. pose proof Hch as (_ & (W & EK) & _). exists W.
    exists (stepped (hdStep (peta P) (plambda P) b) (countDiff st (fst (table F st 0)) (fst (table F st 1)) u) 0 W).
    split; auto. split; [apply stepped_length|]. split.
    + unfold appliedD. rewrite EK. apply in_app_or in HIn as [HIn|HIn].
      * pose proof (met_node n st 0 Ts u T j C0 HIn Hch) as Hn. destruct (cnode F st 0 u); [|congruence]. reflexivity.
      * pose proof (met_node n st 1 Us u T j C1 HIn Hch) as Hn. destruct (cnode F st 1 u); [|congruence]. destruct (cnode F st 0 u); reflexivity.
    + intros i w Hw. destruct (counted_ex (fun T => chosen_edge n T r u (Z.of_nat i)) Ts) as (a & Ha).
      destruct (counted_ex (fun T => chosen_edge n T r u (Z.of_nat i)) Us) as (d & Hd). exists a, d. split; auto. split; auto.
      rewrite (stepped_nth _ _ _ 0 i w Hw). cbn [Nat.add]. f_equal. unfold countDiff. rewrite !entry_table.
      rewrite (counts_cval n st 0 Ts C0 u _ a Ha), (counts_cval n st 1 Us C1 u _ d Hd). unfold hdStep, lessOf.
      destruct a as [|a], d as [|d]; cbn [Nat.eqb negb andb orb]; auto.
Qed.

(** *** DiscriminativeHardGD and DiscriminativeHardBGD *)
Definition KD (s : dstate A) : Prop := only_weights r net0 (tnet (ds s)) /\ KC (tnet (ds s)) [] [] (tst (ds s)) /\ length (dy s) = length Y.
Lemma counts_blank n st k : (forall x l, entry st k x l = (fz 0, false)) -> counts n st k [].
Proof. intros H x l. exists 0. split; [constructor|]. apply H. Qed.
Lemma resetTickets_two st : resetTickets F st [0; 1]%Z = fst (reset F (fst (reset F st 0)) 1).
Proof. reflexivity. Qed.
Lemma KD_reset n n' Ts Us st y c : KC n Ts Us st -> only_weights r net0 n' -> length y = length Y -> KD (mkD (mkT (resetTickets F st [0; 1]%Z) n' c) y).
Proof.
  intros (HG & Hs & Hf & _) Ho Hy. split; auto. split; auto. cbn [ds tst]. rewrite resetTickets_two. split; [apply good_reset, good_reset; auto|].
  split; [apply sok_reset, sok_reset; auto|]. split; [apply full_reset, full_reset; auto|]. split; apply counts_blank; intros x l.
  - rewrite reset_other by (try lia; apply fresh_wf; apply (good_reset ks st 0 HG)). apply reset_this.
  - apply reset_this.
Qed.
Lemma KD_start k : ks = map Z.of_nat (seq 0 k) -> KD (mkD (start k net0) (repeat 0%Z (length Y))).
Proof.
  intros E. split; [apply ow_refl|]. split; [|apply repeat_length]. destruct (@tickets_good A k) as (HG & _ & Hbl). cbn [ds tst start tnet]. split; [rewrite E; exact HG|].
  split; [apply sok_tickets|]. split; [apply full_tickets|]. split; apply counts_blank; intros x l; apply Hbl.
Qed.

Lemma dhgd_step s I s' : has_all Y I -> KD s -> just (dhgdInstance ordN ordP rnd fuelT (S N) r P Y) s I = Ok s' ->
  hard_disc_step r (pnorm P) (peta P) (plambda P) 1 Y [I] (tnet (ds s)) (tnet (ds s')) /\ KD s'.
Proof.
  intros HI (Ho & HK & Hl) E. unfold just, dhgdInstance in E. destruct (hardCounts rnd fuelT (S N) r Y s I) as [[[st J] y]| |] eqn:E1; try discriminate. cbn [bind] in E.
  destruct (hardCounts_l (tnet (ds s)) [] [] s I st J y Ho eq_refl HK HI Hl E1) as (T & U & (rn & ET) & (rn' & EU) & HK' & ->).
  destruct (hardCounts_restore r fuelT (S N) rnd Y HY s I st I y HI Hl E1) as [_ Hy].
  destruct (applyHDGD _ _ _ _ _ _ _ _ _ _ _) as [n'| |] eqn:E2; try discriminate. cbn [bind fst] in E. injection E as <-.
  destruct (applyHDGD_ok _ _ _ _ _ _ _ _ Ho (proj1 (proj2 HK')) E2) as [-> Ho']. cbn [ds tnet]. split.
  - apply (appliedD_step _ ([] ++ [T]) ([] ++ [U])); auto; constructor; eauto; constructor.
  - apply (KD_reset (tnet (ds s)) _ ([] ++ [T]) ([] ++ [U])); auto.
Qed.

Lemma discriminativeHardGD_l data net' data' : ks = [0; 1]%Z -> (forall I, In I data -> has_all Y I) ->
  discriminativeHardGD ordN ordP rnd fuelT (S N) r P Y data net0 = Ok (net', data') ->
  chain (fun I => hard_disc_step r (pnorm P) (peta P) (plambda P) 1 Y [I]) (concat (repeat data (Z.to_nat (piter P)))) net0 net'.
Proof.
  intros Hks HD. unfold discriminativeHardGD. destruct (dEpochs P _ data _) as [x| |] eqn:E; try discriminate. cbn [bind]. intros E'. injection E' as <- _.
  destruct (dEpochs_restored P Y _ data (dhgd_restores r fuelT (S N) ordN ordP rnd P Y HY) HD _ x (start_y Y _) E) as (_ & _ & K).
  refine (proj1 (chain_fold_ok _ (fun s => tnet (ds s)) _ KD _ _ _ (fst x) (KD_start 2 Hks) K)).
  intros I a b HI Ha Eb. apply dhgd_step; auto. apply HD. apply in_concat in HI as (l & K1 & K2). apply repeat_spec in K1. subst l. auto.
Qed.

Lemma dhbgd_batch c s s' : (forall I, In I c -> has_all Y I) -> In 2%Z ks -> KD s ->
  runBatch (just (dhbgdInstance rnd fuelT (S N) r Y)) (flushD (applyHDGD ordN ordP (peta P) (plambda P) 0 1 (pnorm P) (pbatch P)) [0; 1]%Z) s c = Ok s' ->
  hard_disc_step r (pnorm P) (peta P) (plambda P) (pbatch P) Y c (tnet (ds s)) (tnet (ds s')) /\ KD s'.
Proof.
  intros HI Hk2 (Ho & HK & Hl) E. unfold runBatch in E. set (n := tnet (ds s)) in *.
  assert (X : forall c2 Ts Us s1 s2, (forall I, In I c2 -> has_all Y I) -> tnet (ds s1) = n -> KC n Ts Us (tst (ds s1)) -> length (dy s1) = length Y ->
    foldr_ (just (dhbgdInstance rnd fuelT (S N) r Y)) c2 s1 = Ok s2 ->
    exists Ts2 Us2, Forall2 (fun I T => exists rnd fuel, traceMAP n rnd fuel r I = Ok T) c2 Ts2 /\
      Forall2 (fun I T => exists rnd fuel, traceMAP n rnd fuel r (without Y I) = Ok T) c2 Us2 /\
      tnet (ds s2) = n /\ KC n (Ts ++ Ts2) (Us ++ Us2) (tst (ds s2)) /\ length (dy s2) = length Y).
  { clear - Ho HM Hbd Hr HY Hk0 Hk1 Hk2. induction c2 as [|I c2 IH]; intros Ts Us s1 s2 HI En HK Hl E; cbn [foldr_] in E.
    - injection E as <-. exists [], []. rewrite !app_nil_r. auto.
    - destruct (just (dhbgdInstance rnd fuelT (S N) r Y) s1 I) as [s3| |] eqn:E3; try discriminate. cbn [bind] in E.
      unfold just in E3. destruct (dhbgdInstance rnd fuelT (S N) r Y s1 I) as [x| |] eqn:Ex; try discriminate. cbn [bind] in E3. injection E3 as <-.
      destruct (dhbgd_restores r fuelT (S N) rnd Y HY s1 I x (HI I (or_introl eq_refl)) Hl Ex) as [_ Hl3].
      unfold dhbgdInstance in Ex. rewrite En in Ex. destruct (storeInference n fuelT r I 2 (tst (ds s1))) as [[st1 x1]| |] eqn:Ei; try discriminate. cbn [bind fst] in Ex.
      destruct (hardCounts _ _ _ _ _ _ _) as [[[st J] y]| |] eqn:Eh; try discriminate. cbn [bind] in Ex. injection Ex as <-. cbn [fst dy] in *.
      destruct HK as (HG & Hs & Hf & C0 & C1).
      assert (HW : winv 2 (tst (ds s1)) st1).
      { exact (kept_storeInference n r _ _ I 2%Z (tst (ds s1)) st1 _ ltac:(lia) (winv_kept _ 2%Z) (winv_refl _ _ (fresh_wf _ (proj1 HG))) Ei). }
      assert (HG1 : good ks st1).
      { refine (good_call _ (tst (ds s1)) 2%Z st1 HG _). intros K1 K2. exact (kept_storeInference n r _ _ I 2%Z (tst (ds s1)) st1 _ ltac:(lia) K1 K2 Ei). }
      assert (HK1 : KC n Ts Us (fst (reset F st1 2))).
      { split; [apply good_reset; auto|]. split; [apply sok_reset; exact (k_inf r M net0 HM _ n Ho I 2%Z _ (st1, x1) Hs Ei)|].
        split; [apply full_reset; exact (kept_storeInference n r _ _ I 2%Z _ st1 _ ltac:(lia) (full_kept _) Hf Ei)|].
        split; [apply (counts_same n (tst (ds s1)) _ 0 Ts)|apply (counts_same n (tst (ds s1)) _ 1 Us)]; auto; intros x l; rewrite reset_other by (try lia; apply fresh_wf; apply HG1); apply (winv_entry _ _ _ _ _ _ HW); lia. }
      destruct (hardCounts_l n Ts Us (mkD (mkT (fst (reset F st1 2)) n (tcnt (ds s1))) (dy s1)) I st J y Ho eq_refl HK1 (HI I (or_introl eq_refl)) Hl Eh) as (T & U & (rn & ET) & (rn' & EU) & HK' & ->).
      destruct (IH (Ts ++ [T]) (Us ++ [U]) (mkD (mkT st n (S (tcnt (ds s1)))) y) s2 (fun J HJ => HI J (or_intror HJ)) eq_refl HK' Hl3 E) as (Ts2 & Us2 & K1 & K2 & K3 & K4 & K5).
      exists (T :: Ts2), (U :: Us2). split; [constructor; eauto|]. split; [constructor; eauto|]. split; auto. rewrite <- !app_assoc in K4. auto. }
  destruct (foldr_ _ c s) as [s2| |] eqn:E2; try discriminate. cbn [bind] in E.
  destruct (X c [] [] s s2 HI eq_refl HK Hl E2) as (Ts & Us & HT & HU & En & HK2 & Hl2). cbn [app] in HK2. unfold flushD in E. rewrite En in E.
  destruct (applyHDGD _ _ _ _ _ _ _ _ _ _ _) as [n'| |] eqn:E3; try discriminate. cbn [bind] in E. injection E as <-.
  destruct (applyHDGD_ok _ _ _ _ _ _ _ _ Ho (proj1 (proj2 HK2)) E3) as [-> Ho']. cbn [ds tnet]. split; [apply appliedD_step with (Ts := Ts) (Us := Us); auto|].
  apply (KD_reset n _ Ts Us); auto.
Qed.

Lemma discriminativeHardBGD_l data net' data' : ks = [0; 1; 2]%Z -> (0 < pbatch P)%Z -> (forall I, In I data -> has_all Y I) ->
  discriminativeHardBGD ordN ordP rnd fuelT (S N) r P Y data net0 = Ok (net', data') ->
  exists cs, batches (Z.to_nat (pbatch P)) (concat (repeat data (Z.to_nat (piter P)))) cs /\
    chain (hard_disc_step r (pnorm P) (peta P) (plambda P) (pbatch P) Y) cs net0 net'.
Proof.
  intros Hks Hb HD E. assert (Hbn : 0 < Z.to_nat (pbatch P)) by lia.
  destruct (batches_exist (Z.to_nat (pbatch P)) Hbn (concat (repeat data (Z.to_nat (piter P))))) as (cs & Hcs). exists cs. split; auto.
  unfold discriminativeHardBGD in E. eapply dBatches_runs in E as (s' & K & <- & _); eauto using dhbgd_restores, start_y.
  - refine (proj1 (chain_fold_ok _ (fun s => tnet (ds s)) _ KD cs _ _ s' (KD_start 3 Hks) K)). intros c a b Hc Ha Eb. apply dhbgd_batch; auto; [|rewrite Hks; simpl; auto].
    intros I HI. pose proof (proj2 (batches_in _ _ _ Hbn Hcs c Hc) I HI) as Hin. apply in_concat in Hin as (l & K1 & K2). apply repeat_spec in K1. subst l. auto.
  - intros s I x. unfold dhbgdInstance. destruct (storeInference _ _ _ _ _ _); try discriminate. cbn [bind]. destruct (hardCounts _ _ _ _ _ _ _) as [[[st J] y]| |]; try discriminate.
    cbn [bind]. intros Ex. injection Ex as <-. reflexivity.
Qed.
End Hard.
