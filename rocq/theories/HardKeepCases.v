From Coq Require Import Reals Lra Lia FunctionalExtensionality.
From Verif Require Import Base Res Arith LogMath LogSpec LogLemmas GraphSpec GraphLemmas Spn SpnSpec SpnLemmas Leaves ProbSpec ProbLemmas ProbCases ArgLemmas MapSpec MapLemmas MapCases
  Search Struct StructSpec StructLemmas Derive DeriveSpec DiffLemmas DeriveCases GradLemmas Hard HardSpec HardLemmas PipeLemmas
  Train TrainSpec TrainShape TrainSteps TrainBatch TrainHard TrainProps TrainCases GainCases HardGainSpec HardGainLemmas HardGainCases HardKeepLemmas.
Local Open Scope R_scope.

(** A sum with one child. *)
Definition onet : network XR := fun u => match u with 0%nat => mkNode (@KSum XR [Fin 1]) [1%nat] | _ => mkNode (KLeaf wl5) [] end.
Lemma onet_hard : hard_learnable onet 2 1 0.
Proof.
  split. { intros u c. unfold children. destruct u as [|u]; simpl; [intros [<-|[]]; lia|tauto]. }
  split; [lia|]. split. { intros u c Hc Hr. unfold children in Hc. destruct u as [|u]; simpl in Hc; [|tauto]. destruct Hc as [<-|[]]. apply reach_inv in Hr. destruct Hr as [Hr|(d & Hd & _)]; [discriminate|]. destruct Hd. }
  split. { apply (graded_siblings_ok _ (fun u => u)). intros u c. unfold children. destruct u as [|u]; simpl; intros H; intuition lia. }
  split. { intros u l. destruct u; simpl; [discriminate|auto]. }
  split. { intros u w. destruct u; simpl; discriminate. }
  split; [discriminate|]. split.
  { split; [lia|]. intros u Hu. split; [destruct u; simpl; lia|]. intros w. destruct u as [|u]; simpl; try discriminate. intros E. injection E as <-. simpl. lia. }
  intros u w _ EK. destruct u as [|u]; cbn in EK; try discriminate. injection EK as <-. exists [1]. split; auto. split; auto. split; [|cbn; lra]. intros x [<-|[]]; lra.
Qed.
Lemma wnet_reach5 : reach (children (wnet wl5)) 0 5.
Proof. apply reach_step with 2%nat; [cbn; auto|]. apply reach_step with 5%nat; [cbn; auto|]. apply reach_refl. Qed.
Lemma onet_answers I : In I [plain] -> leaves_answer onet I 0 /\ leaf_values onet I 0.
Proof.
  intros [<-|[]]. split; intros u l _ EK; (destruct u as [|u]; [discriminate|]); cbn in EK; injection EK as <-.
  - apply (plain_answer 5%nat wl5 wnet_reach5 eq_refl).
  - apply (plain_values 5%nat wl5 wnet_reach5 eq_refl).
Qed.

Section Overshoot.
Variables (eta lambda : R) (b : Z).
Hypothesis Heta : 0 <= eta.
Hypothesis Hb : (0 < b)%Z.
Hypothesis Hlam : 1 + eta / IZR b <= 2 * lambda.

Lemma overshoot_step n' : @hard_step XR 0 true (Fin eta) (Fin lambda) b [plain] onet n' -> n' 0%nat = mkNode (@KSum XR [NaN]) [1%nat].
Proof.
  intros (Ts & HT & _ & G). inversion HT as [|? T ? l0 (rnd & f & ET) HT0]; subst. inversion HT0; subst. clear HT HT0.
  pose proof onet_hard as (_ & _ & Ha & _). pose proof (trace_root onet rnd f 0 plain T [Fin 1] Ha eq_refl ET) as Hr.
  destruct (T 0%nat) as [j|] eqn:Ej; [|congruence]. clear Hr. destruct (proj2 (traceMAP_rec onet rnd f 0 plain T ET 0%nat j Ej)) as (c & Hc).
  assert (j = 0%nat) by (destruct j as [|[|j]]; [reflexivity|discriminate|destruct j; discriminate]). subst j.
  assert (Hch : chosen_edge onet T 0 0 (Z.of_nat 0)) by (split; [apply reach_refl|]; split; [eexists; reflexivity|]; exists 0%nat; auto).
  destruct (G 0%nat [Fin 1] T 0%nat eq_refl (or_introl eq_refl) Hch) as (W' & LW & -> & HW). destruct (HW 0%nat (Fin 1) eq_refl) as (k & Hk & Ek).
  inversion Hk as [|? ? k0 _ Hk0|? ? k0 Hno _]; subst; [inversion Hk0; subst|contradiction].
  destruct W' as [|x [|y W']]; try discriminate. cbn in Ek. assert (B : 0 < IZR b) by (apply IZR_lt; lia).
  destruct (Req_EM_T (1 * IZR b) 0); [lra|]. cbn in Ek. injection Ek as ->. cbn [onet nch]. f_equal. f_equal.
  set (z := 1 + eta * ((0 + 1) / (1 * IZR b)) + - (2 * lambda * 1)). assert (Hz : z <= 0) by (unfold z; replace (eta * ((0 + 1) / (1 * IZR b))) with (eta / IZR b) by (field; lra); lra).
  unfold normalize, minBelow0. cbn. destruct (Rlt_dec z 0) as [L|L].
  - destruct (Rlt_dec z 0); [|contradiction]. cbn. destruct (Req_EM_T (0 + (z + - z)) 0) as [_|K]; [|exfalso; apply K; lra]. unfold xsign. destruct (Rlt_dec 0 (z + - z)); [lra|]. destruct (Rlt_dec (z + - z) 0); [lra|]. reflexivity.
  - assert (E0 : z = 0) by lra. destruct (Rlt_dec 0 0); [lra|]. cbn. destruct (Req_EM_T (0 + z) 0) as [_|K]; [|exfalso; apply K; lra]. unfold xsign. destruct (Rlt_dec 0 z); [lra|]. destruct (Rlt_dec z 0); [lra|]. reflexivity.
Qed.
End Overshoot.

Lemma overshoot_batch eta lambda (P : params XR) ordN ordP rnd :
  0 <= eta -> peta P = Fin eta -> plambda P = Fin lambda -> pnorm P = true -> piter P = 1%Z -> (0 < pbatch P)%Z -> 1 + eta / IZR (pbatch P) <= 2 * lambda ->
  ranges_nodes 2 ordN -> ranges_entries 1 ordP -> (forall c i n, (0 < n)%nat -> (rnd c i n < n)%nat) ->
  exists net', @generativeHardBGD XR ordN ordP rnd 5 3 0 P [plain] onet = Ok net' /\ net' 0%nat = mkNode (@KSum XR [NaN]) [1%nat].
Proof.
  intros He HE HL Hn Hi Hb Hl HN HP Hr.
  destruct (batches_exist (Z.to_nat (pbatch P)) ltac:(lia) [plain]) as (cs & Hcs).
  assert (Ecs : cs = [[plain]]).
  { inversion Hcs as [|l H1 H2|c l cs' H1 H2 E]; subst; [reflexivity|]. destruct c as [|x [|y c]]; cbn in H1, E; [lia| |discriminate]. injection E as -> ->. inversion H2 as [|l H3 H4|c l cs2 H3 H4 E]; subst; [reflexivity|congruence|]. apply app_eq_nil in E. destruct E as [-> _]. cbn in H3. lia. }
  subst cs. unfold generativeHardBGD, epochs. rewrite Hi. change (Z.to_nat 1) with 1%nat. cbn [repeat foldr_].
  rewrite (batchEpoch_runs _ Hb _ _ [plain] [[plain]] _ Hcs). cbn [foldr_].
  destruct (batch_returns 2 1 0 eta lambda P HE HL Hn onet (BelowLemmas.learnable_below _ _ _ _ onet_hard) [plain] (fun I H => proj1 (onet_answers I H)) (fun I H => proj2 (onet_answers I H)) ordN ordP rnd HN HP Hr (@start XR 2 onet) [plain]) as (s' & E & St & _).
  - apply KS_start.
  - exact (BelowLemmas.learnable_below _ _ _ _ onet_hard).
  - apply incl_refl.
  - cbn [Nat.mul Nat.add] in E. rewrite E. cbn [bind]. eexists. split; [reflexivity|]. apply (overshoot_step eta lambda (pbatch P)); auto.
Qed.

Lemma overshoot_l : exists (net : network XR) N M r I, hard_learnable net N M r /\ leaves_answer net I r /\ leaf_values net I r /\
  forall (P : params XR) eta lambda ordN ordP rnd, 0 <= eta -> peta P = Fin eta -> plambda P = Fin lambda -> pnorm P = true -> piter P = 1%Z ->
    ranges_nodes N ordN -> ranges_entries M ordP -> (forall c i n, (0 < n)%nat -> (rnd c i n < n)%nat) ->
    (1 + eta <= 2 * lambda -> exists net', @generativeHardGD XR ordP rnd (2 * N + 1) (S N) r P [I] net = Ok net' /\ nk (net' r) = @KSum XR [NaN]) /\
    ((0 < pbatch P)%Z -> 1 + eta / IZR (pbatch P) <= 2 * lambda -> exists net', @generativeHardBGD XR ordN ordP rnd (2 * N + 1) (S N) r P [I] net = Ok net' /\ nk (net' r) = @KSum XR [NaN]).
Proof.
  exists onet, 2%nat, 1%nat, 0%nat, plain. split; [exact onet_hard|]. destruct (onet_answers plain (or_introl eq_refl)) as [H1 H2]. split; auto. split; auto.
  intros P eta lambda ordN ordP rnd He HE HL Hn Hi HN HP Hr. split.
  - intros Hl. set (P1 := mkParams (A:=XR) (pnorm P) (ptype P) (peta P) 1 (plambda P) (piter P)).
    destruct (overshoot_batch eta lambda P1 ordN ordP rnd He HE HL Hn Hi ltac:(reflexivity) ltac:(cbn; lra) HN HP Hr) as (net' & E & En).
    pose proof onet_hard as (Hb & Hr0 & _ & _ & HLc & _ & _ & HM & _).
    pose proof (@hard_batch_one_l XR onet 0 2 1 ordN ordP rnd 5 P1 [plain] HM Hb Hr0 HLc HN HP eq_refl) as E2. rewrite E2 in E. exists net'. split; [exact E|]. rewrite En. reflexivity.
  - intros Hb Hl. destruct (overshoot_batch eta lambda P ordN ordP rnd He HE HL Hn Hi Hb Hl HN HP Hr) as (net' & E & En). exists net'. split; auto. rewrite En. reflexivity.
Qed.

(** Default parameters: Eta 0.1, Lambda 0.01, in batches of 50 as in the Poon-Domingos learner. *)
Lemma default_small : 2 * (1/100) < 1 + (1/10) / IZR 50.
Proof. lra. Qed.
