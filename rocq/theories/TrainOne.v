(** Batches of one instance and learning online. *)
From Coq Require Import Reals Lra FunctionalExtensionality Classical_Prop.
From Verif Require Import Base Res Arith LogMath LogSpec LogLemmas GraphSpec GraphLemmas Search SearchLemmas Topo TopoLemmas Storer StorerSpec StorerLemmas
  Spn DP SpnSpec SpnLemmas ProbSpec ProbLemmas MapSpec Walk WalkLemmas Struct Derive DeriveSpec DeriveLemmas GradLemmas StepLemmas DeriveCases Hard HardSpec HardLemmas PipeLemmas
  Train TrainSpec TrainRange TrainKeep TrainShape TrainAll TrainKept TrainGrad TrainSteps TrainBatch TrainBgd TrainHard.

Lemma batches_one {X} (l : list X) : batches 1 l (map (fun x => [x]) l).
Proof. induction l as [|x l IH]; cbn [map]; [constructor|]. apply (batches_cons 1 [x] l); auto. Qed.
Lemma batches_one_inv {X} (l : list X) cs : batches 1 l cs -> cs = map (fun x => [x]) l.
Proof.
  induction 1 as [|l H1 H2|c l cs Hc H IH]; auto.
  - destruct l; [congruence|simpl in H2; lia].
  - destruct c as [|x [|y c]]; try discriminate. cbn. rewrite IH. auto.
Qed.
Lemma foldr_single {X S} (f : S -> list X -> res S) l : forall s, foldr_ f (map (fun x => [x]) l) s = foldr_ (fun s x => f s [x]) l s.
Proof. induction l as [|x l IH]; intros s; cbn [map foldr_]; auto. destruct (f s [x]); auto. cbn [bind]. apply IH. Qed.
Lemma concat_single {X} (l : list X) n : concat (repeat (map (fun x => [x]) l) n) = map (fun x => [x]) (concat (repeat l n)).
Proof. induction n as [|n IH]; cbn [repeat concat]; auto. rewrite map_app, IH. auto. Qed.
Lemma chain_map {X Y S} (f : X -> Y) (step : Y -> S -> S -> Prop) l a b : chain step (map f l) a b -> chain (fun x => step (f x)) l a b.
Proof.
  revert a. induction l as [|x l IH]; intros a H; cbn [map] in H; inversion H; subst; [constructor|]. econstructor; eauto.
Qed.

Section Table.
Context {A : arith}.
Local Notation F := (F A).
Variables (ordN : nat -> (nat -> bool) -> list nat) (ordP : nat -> nat -> (Z -> option F) -> list (Z * F)).
Lemma applyRange_reset f nrm occ (st : storer F) k k' n : wf F st -> k' <> k ->
  applyRange ordN ordP f nrm occ (fst (reset F st k)) k' n = applyRange ordN ordP f nrm occ st k' n.
Proof.
  intros W Hne. unfold applyRange. assert (Et : fst (table F (fst (reset F st k)) k') = fst (table F st k')).
  { unfold reset, table. cbn [fst]. simpl. unfold updZ. apply Z.eqb_neq in Hne. rewrite !Hne. auto. }
  rewrite Et. set (t := fst (table F st k')).
  assert (EV : forall s, tValue F (fst (reset F st k)) t s = tValue F st t s).
  { intros s. unfold tValue. destruct t as [t0|] eqn:E0; auto. assert (t0 < tnext F st).
    { subst t. unfold table in E0. cbn [fst] in E0. pose proof (allocated_table F st k' t0 W E0) as Ha. simpl in Ha. apply Nat.ltb_lt in Ha. auto. }
    unfold reset. cbn [fst]. simpl. unfold upd. destruct (Nat.eqb_spec t0 (tnext F st)); [lia|]. auto. }
  assert (EK : keysOf (fst (reset F st k)) t = keysOf st t).
  { extensionality s. pose proof (f_equal fst (EV s)) as E1. unfold keysOf, tValue in *. destruct t; auto. cbn [fst] in E1. rewrite E1. auto. }
  rewrite EK. assert (ER : rangeNode ordP f nrm occ (fst (reset F st k)) t = rangeNode ordP f nrm occ st t).
  { extensionality m. extensionality s. unfold rangeNode. rewrite EV. reflexivity. }
  rewrite ER. auto.
Qed.
End Table.

(** ** Hard learning, for every arithmetic *)
Section One.
Context {A : arith}.
Local Notation F := (F A).
Variables r N M : nat.
Variable net0 : network A.
Hypothesis HM : at_most M r net0.
Hypothesis Hbd : bounded (children net0) N.
Hypothesis Hr : r < N.
Hypothesis HL : leaves_childless net0.
Variables (ordN : nat -> (nat -> bool) -> list nat) (ordP : nat -> nat -> (Z -> option F) -> list (Z * F)).
Hypothesis HN : ranges_nodes N ordN.
Hypothesis HP : ranges_entries M ordP.
Variable rnd : nat -> nat -> nat -> nat.
Variable fuelT : nat.
Variable P : params A.
Hypothesis Hb : pbatch P = 1%Z.

Lemma hard_one_batch s I : KS r M net0 s ->
  hgdInstance ordP rnd fuelT (S N) r P s I =
  runBatch (hbgdInstance rnd fuelT (S N) r) (flushWith (applyFastHGD ordN ordP (peta P) (plambda P) 0 (pnorm P) (pbatch P)) 0) s [I].
Proof.
  intros (Ho & HK). unfold hgdInstance, runBatch, hbgdInstance. cbn [foldr_].
  destruct (storeInference (tnet s) fuelT r I 1 (tst s)) as [[st1 x1]| |] eqn:E1; auto. cbn [bind fst].
  destruct (deriveHard (tnet s) (rnd (tcnt s)) fuelT (S N) r st1 0 I) as [[st2 x2]| |] eqn:E2; auto. cbn [bind fst].
  destruct (hard_one r N M net0 HM Hbd Hr rnd fuelT (tnet s) [] s I st1 x1 st2 x2 Ho HK E1 E2) as (T & ET & HT). destruct (HT 0) as [(_ & HG & Hs & _) _].
  unfold flushWith. cbn [tnet tst tcnt]. rewrite Hb.
  rewrite (applyHGD_range r N M net0 Hbd Hr HL ordN ordP HN HP (peta P) (plambda P) 0 (pnorm P) 1 (tcnt s) (S (tcnt s)) st2 (tnet s) Ho Hs).
  unfold applyFastHGD. rewrite applyRange_reset by (try lia; apply fresh_wf; apply HG). reflexivity.
Qed.

Lemma hard_batch_of_one_l data :
  generativeHardBGD ordN ordP rnd fuelT (S N) r P data net0 = generativeHardGD ordP rnd fuelT (S N) r P data net0.
Proof.
  unfold generativeHardBGD, generativeHardGD. f_equal. unfold epochs. symmetry.
  apply foldr_eq with (K := KS r M net0); [| |apply KS_start].
  - intros _ s _ Hs. assert (H1 : (0 < pbatch P)%Z) by lia. rewrite (batchEpoch_runs _ H1 _ _ data (map (fun x => [x]) data) s).
    + rewrite foldr_single. apply foldr_eq with (K := KS r M net0); auto; [intros I a _ Ha; apply hard_one_batch; auto|].
      intros I a b _ Ha E. eapply hgd_step; eauto.
    + rewrite Hb. apply batches_one.
  - intros _ s s' _ Hs E. revert E. apply foldr_ind with (J := KS r M net0); auto. intros I a b _ Ha E. eapply hgd_step; eauto.
Qed.
End One.

(** ** Over the reals the gradient step is determined *)
Section Real.
Variables (N r : nat) (d : discipline).
Lemma derivatives_unique n c u i w : forall Ds Ds', Forall2 (fun I D => weight_derivative n I N r u i w D) c Ds ->
  Forall2 (fun I D => weight_derivative n I N r u i w D) c Ds' -> Ds = Ds'.
Proof.
  induction c as [|I c IH]; intros Ds Ds' H H'; inversion H; inversion H'; subst; auto. f_equal; auto. eapply uniqueness_limite; eauto.
Qed.
Lemma gradient_step_fun nrm eta lambda b c n n1 n2 : weights_nonneg n r ->
  gradient_step N r nrm eta lambda b c n n1 -> gradient_step N r nrm eta lambda b c n n2 -> n1 = n2.
Proof.
  intros HW (A1 & A2) (B1 & B2). extensionality u. destruct (classic (reach (children n) r u)) as [Hu|Hu]; [|rewrite A1, B1; auto].
  destruct (nk (n u)) as [W| |] eqn:EK; [|rewrite A1, B1; auto; right; congruence|rewrite A1, B1; auto; right; congruence].
  destruct (HW u W Hu EK) as (_ & ws & -> & _). destruct (A2 u ws Hu EK) as (w1 & L1 & V1 & ->). destruct (B2 u ws Hu EK) as (w2 & L2 & V2 & ->).
  assert (w1 = w2) as ->; auto. apply nth_error_ext. intros i. destruct (nth_error ws i) as [w|] eqn:Ew.
  - destruct (V1 i w Ew) as (D1 & F1 & ->). destruct (V2 i w Ew) as (D2 & F2 & ->). rewrite (derivatives_unique _ _ _ _ _ _ _ F1 F2). auto.
  - apply nth_error_None in Ew. rewrite !(proj2 (nth_error_None _ _)) by lia. auto.
Qed.

Lemma chain_fun {X S} (step : X -> S -> S -> Prop) l : (forall x a b c, step x a b -> step x a c -> b = c) ->
  forall a b c, chain step l a b -> chain step l a c -> b = c.
Proof.
  intros H. induction l as [|x l IH]; intros a b c Hb Hc; inversion Hb; inversion Hc; subst; auto.
  match goal with H1 : step x a ?y, H2 : step x a ?z |- _ => pose proof (H x a y z H1 H2); subst end. eauto.
Qed.

Variable M : nat.
Variable P : params XR.
Variable eta : R.
Hypothesis HE : peta P = Fin eta.
Hypothesis HLm : plambda P = Fin 0.
Hypothesis Heta : (0 <= eta)%R.
Hypothesis Hb : pbatch P = 1%Z.
Variable net0 : network XR.
Hypothesis HM : at_most M r net0.
Variables (ordN : nat -> (nat -> bool) -> list nat) (ordP : nat -> nat -> (Z -> option xreal) -> list (Z * xreal)).
Hypothesis HN : ranges_nodes N ordN.
Hypothesis HP : ranges_entries M ordP.

Lemma batch_of_one_l data : (forall I, In I data -> leaf_values net0 I r) -> state_ok N r d (pnorm P) net0 ->
  exists net', @generativeGD XR (2 * N + 1) (S N) r d P data net0 = Ok net' /\ @generativeBGD XR ordN ordP (2 * N + 1) (S N) r d P data net0 = Ok net'.
Proof.
  intros HV Hok. set (step := fun I a b => weights_nonneg a r /\ gradient_step N r (pnorm P) eta 0 1 [I] a b).
  assert (Hw : forall n, state_ok N r d (pnorm P) n -> weights_nonneg n r) by (intros n (H & _); apply H).
  assert (X1 : exists n1, @generativeGD XR (2 * N + 1) (S N) r d P data net0 = Ok n1 /\ chain step (concat (repeat data (Z.to_nat (piter P)))) net0 n1).
  { unfold generativeGD. destruct (chain_epochs P (foldr_ (@gdInstance XR (2 * N + 1) (S N) r d P) data) (@tnet XR)
      step (KG N r d P net0 [0; 1]%Z) data) with (s := @start XR 2 net0) as (s' & E & H1 & H2).
    - intros s Hs. apply chain_fold; auto. intros I s1 HI Hs1. destruct (gd_real N r d P eta HE Heta net0 s1 I Hs1 (HV I HI)) as (s2 & K1 & K2 & K3).
      exists s2. split; auto. split; auto. split; auto. apply Hw. apply Hs1.
    - destruct (@tickets_good XR 2) as (HG & _ & Hbl). split; [apply ow_refl|]. split; auto. split; auto. intros u l. apply Hbl.
    - rewrite E. cbn [bind]. exists (tnet s'). auto. }
  assert (X2 : exists n2, @generativeBGD XR ordN ordP (2 * N + 1) (S N) r d P data net0 = Ok n2 /\ chain step (concat (repeat data (Z.to_nat (piter P)))) net0 n2).
  { unfold generativeBGD. assert (Hb0 : (0 < pbatch P)%Z) by lia. assert (Hlam : (0 <= 0 < 1 / 2)%R) by lra.
    destruct (chain_epochs P (batchEpoch (pbatch P) (@bgdInstance XR (2 * N + 1) (S N) r d)
        (flushWith (@applyFastGD XR ordN ordP (peta P) (plambda P) 2 (pnorm P) (pbatch P)) 2) data) (@tnet XR)
      step (KA N r M d P net0) data) with (s := @start XR 3 net0) as (s' & E & H1 & H2).
    - intros s Hs. rewrite (batchEpoch_runs _ Hb0 _ _ data (map (fun x => [x]) data) s) by (rewrite Hb; apply batches_one). rewrite foldr_single.
      apply chain_fold; auto. intros I s1 HI Hs1.
      destruct (bgd_batch N r M d P eta 0 HE HLm Heta Hlam Hb0 net0 HM ordN ordP HN HP [I] s1) as (s2 & K1 & K2 & K3); auto; [discriminate|intros J [<-|[]]; auto|].
      exists s2. split; auto. split; auto. split; [apply Hw; apply Hs1|]. rewrite Hb in K2. exact K2.
    - destruct (@tickets_good XR 3) as (HG & _ & Hbl). split; [apply ow_refl|]. split; auto. split; auto. split; [intros u l; apply Hbl|].
      split; [intros u l; apply Hbl|apply sok_tickets].
    - rewrite E. cbn [bind]. exists (tnet s'). auto. }
  destruct X1 as (n1 & E1 & C1), X2 as (n2 & E2 & C2). exists n1. split; auto. rewrite E2. f_equal. symmetry.
  refine (chain_fun step _ _ net0 n1 n2 C1 C2). intros I a b c (S1 & S2) (_ & S3). eapply gradient_step_fun; eauto.
Qed.
End Real.
