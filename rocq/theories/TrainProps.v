(** The statements of PropTrain.v from the lemmas of the Train files. *)
From Coq Require Import Reals QArith Lra.
From Verif Require Import Base Res Arith LogMath LogSpec GraphSpec GraphLemmas Search Storer Spn SpnSpec SpnLemmas ProbSpec ProbCases StructSpec Struct Derive DeriveSpec Hard HardSpec SerialCases DeriveCases
  Train TrainSpec TrainShape TrainAll TrainDisc TrainRoot TrainGrad TrainSteps TrainBgd TrainHard TrainOne TrainDiscHard TrainGradD TrainCases TrainRuns.

Section Any.
Context {A : arith}.
Variables (net : network A) (r N M : nat).

Lemma only_weights_l ordN ordP rnd fuelT fuel (P : params A) d Y data :
  at_most M r net -> (forall u, reach (children net) r u -> (u < N)%nat) -> ranges_nodes N ordN -> ranges_entries M ordP ->
  (forall net', generativeGD fuelT fuel r d P data net = Ok net' \/ generativeHardGD ordP rnd fuelT fuel r P data net = Ok net' \/
     generativeBGD ordN ordP fuelT fuel r d P data net = Ok net' \/ generativeHardBGD ordN ordP rnd fuelT fuel r P data net = Ok net' \/
     generative ordN ordP rnd fuelT fuel r P data net = Ok net' -> only_weights r net net') /\
  (forall net' data', discriminativeGD fuelT fuel r P Y data net = Ok (net', data') \/ discriminativeHardGD ordN ordP rnd fuelT fuel r P Y data net = Ok (net', data') \/
     discriminativeBGD ordN ordP fuelT fuel r P Y data net = Ok (net', data') \/ discriminativeHardBGD ordN ordP rnd fuelT fuel r P Y data net = Ok (net', data') \/
     discriminative ordN ordP rnd fuelT fuel r P Y data net = Ok (net', data') -> only_weights r net net').
Proof.
  intros HM HB HN HP. split.
  - intros net' [H|[H|[H|[H|H]]]].
    + eapply (proj2 (generativeGD_agree r M net HM fuelT fuel P d data)); eauto.
    + eapply (proj2 (generativeHardGD_agree r M net HM ordP ordP HP HP rnd fuelT fuel P data)); eauto.
    + eapply (proj2 (generativeBGD_agree r N M net HM HB ordN ordN ordP ordP HN HN HP HP fuelT fuel P d data)); eauto.
    + eapply (proj2 (generativeHardBGD_agree r N M net HM HB ordN ordN ordP ordP HN HN HP HP rnd fuelT fuel P data)); eauto.
    + eapply (proj2 (generative_agree r N M net HM HB ordN ordN ordP ordP HN HN HP HP rnd fuelT fuel P data)); eauto.
  - intros net' data' [H|[H|[H|[H|H]]]].
    + exact (proj2 (discriminativeGD_agree r M net HM fuelT fuel P Y data) _ H).
    + exact (proj2 (discriminativeHardGD_agree r N M net HM HB ordN ordN ordP ordP HN HN HP HP rnd fuelT fuel P Y data) _ H).
    + exact (proj2 (discriminativeBGD_agree r N M net HM HB ordN ordN ordP ordP HN HN HP HP fuelT fuel P Y data) _ H).
    + exact (proj2 (discriminativeHardBGD_agree r N M net HM HB ordN ordN ordP ordP HN HN HP HP rnd fuelT fuel P Y data) _ H).
    + exact (proj2 (discriminative_agree r N M net HM HB ordN ordN ordP ordP HN HN HP HP rnd fuelT fuel P Y data) _ H).
Qed.

Lemma any_order_l ordN ordN' ordP ordP' rnd fuelT fuel (P : params A) d Y data :
  at_most M r net -> (forall u, reach (children net) r u -> (u < N)%nat) ->
  ranges_nodes N ordN -> ranges_nodes N ordN' -> ranges_entries M ordP -> ranges_entries M ordP' ->
  generativeHardGD ordP rnd fuelT fuel r P data net = generativeHardGD ordP' rnd fuelT fuel r P data net /\
  generativeBGD ordN ordP fuelT fuel r d P data net = generativeBGD ordN' ordP' fuelT fuel r d P data net /\
  generativeHardBGD ordN ordP rnd fuelT fuel r P data net = generativeHardBGD ordN' ordP' rnd fuelT fuel r P data net /\
  generative ordN ordP rnd fuelT fuel r P data net = generative ordN' ordP' rnd fuelT fuel r P data net /\
  discriminativeHardGD ordN ordP rnd fuelT fuel r P Y data net = discriminativeHardGD ordN' ordP' rnd fuelT fuel r P Y data net /\
  discriminativeBGD ordN ordP fuelT fuel r P Y data net = discriminativeBGD ordN' ordP' fuelT fuel r P Y data net /\
  discriminativeHardBGD ordN ordP rnd fuelT fuel r P Y data net = discriminativeHardBGD ordN' ordP' rnd fuelT fuel r P Y data net /\
  discriminative ordN ordP rnd fuelT fuel r P Y data net = discriminative ordN' ordP' rnd fuelT fuel r P Y data net.
Proof.
  intros HM HB HN HN' HP HP'. repeat split.
  - exact (proj1 (generativeHardGD_agree r M net HM ordP ordP' HP HP' rnd fuelT fuel P data)).
  - exact (proj1 (generativeBGD_agree r N M net HM HB ordN ordN' ordP ordP' HN HN' HP HP' fuelT fuel P d data)).
  - exact (proj1 (generativeHardBGD_agree r N M net HM HB ordN ordN' ordP ordP' HN HN' HP HP' rnd fuelT fuel P data)).
  - exact (proj1 (generative_agree r N M net HM HB ordN ordN' ordP ordP' HN HN' HP HP' rnd fuelT fuel P data)).
  - exact (proj1 (discriminativeHardGD_agree r N M net HM HB ordN ordN' ordP ordP' HN HN' HP HP' rnd fuelT fuel P Y data)).
  - exact (proj1 (discriminativeBGD_agree r N M net HM HB ordN ordN' ordP ordP' HN HN' HP HP' fuelT fuel P Y data)).
  - exact (proj1 (discriminativeHardBGD_agree r N M net HM HB ordN ordN' ordP ordP' HN HN' HP HP' rnd fuelT fuel P Y data)).
  - exact (proj1 (discriminative_agree r N M net HM HB ordN ordN' ordP ordP' HN HN' HP HP' rnd fuelT fuel P Y data)).
Qed.

Lemma hard_batch_one_l ordN ordP rnd fuelT (P : params A) data :
  at_most M r net -> bounded (children net) N -> (r < N)%nat -> leaves_childless net -> ranges_nodes N ordN -> ranges_entries M ordP ->
  pbatch P = 1%Z -> generativeHardBGD ordN ordP rnd fuelT (S N) r P data net = generativeHardGD ordP rnd fuelT (S N) r P data net.
Proof. intros. eapply hard_batch_of_one_l; eauto. Qed.

Lemma hard_gen_l ordN ordP rnd fuelT (P : params A) data :
  at_most M r net -> bounded (children net) N -> (r < N)%nat -> leaves_childless net -> ranges_nodes N ordN -> ranges_entries M ordP ->
  (forall net', generativeHardGD ordP rnd fuelT (S N) r P data net = Ok net' ->
     chain (fun I => hard_step r (pnorm P) (peta P) (plambda P) 1 [I]) (concat (repeat data (Z.to_nat (piter P)))) net net') /\
  (forall net', (0 < pbatch P)%Z -> generativeHardBGD ordN ordP rnd fuelT (S N) r P data net = Ok net' ->
     exists cs, batches (Z.to_nat (pbatch P)) data cs /\
       chain (hard_step r (pnorm P) (peta P) (plambda P) (pbatch P)) (concat (repeat cs (Z.to_nat (piter P)))) net net').
Proof. intros. split; intros; [eapply generativeHardGD_l; eauto|eapply generativeHardBGD_l; eauto]. Qed.

Lemma hard_disc_l ordN ordP rnd fuelT (P : params A) Y data :
  at_most M r net -> bounded (children net) N -> (r < N)%nat -> ranges_nodes N ordN -> ranges_entries M ordP ->
  NoDup Y -> (forall I, In I data -> forall v, In v Y -> I v <> None) ->
  (forall net' data', discriminativeHardGD ordN ordP rnd fuelT (S N) r P Y data net = Ok (net', data') -> data' = data /\
     chain (fun I => hard_disc_step r (pnorm P) (peta P) (plambda P) 1 Y [I]) (concat (repeat data (Z.to_nat (piter P)))) net net') /\
  (forall net' data', (0 < pbatch P)%Z -> discriminativeHardBGD ordN ordP rnd fuelT (S N) r P Y data net = Ok (net', data') -> data' = data /\
     exists cs, batches (Z.to_nat (pbatch P)) (concat (repeat data (Z.to_nat (piter P)))) cs /\
       chain (hard_disc_step r (pnorm P) (peta P) (plambda P) (pbatch P) Y) cs net net').
Proof.
  intros HM HB Hr HN HP HY HD. split.
  - intros net' data' E. split; [eapply dhgd_data; eauto|]. eapply (discriminativeHardGD_l r N M net HM HB Hr ordN ordP HN HP rnd fuelT P Y HY [0; 1]%Z); simpl; eauto.
  - intros net' data' Hb E. split; [eapply dhbgd_data; eauto|]. eapply (discriminativeHardBGD_l r N M net HM HB Hr ordN ordP HN HP rnd fuelT P Y HY [0; 1; 2]%Z); simpl; eauto.
Qed.

Lemma root_only_l ordN ordP fuelT fuel (P : params A) Y data :
  at_most M r net -> bounded (children net) N -> (r < N)%nat -> acyclic (children net) -> ranges_nodes N ordN -> ranges_entries M ordP ->
  forall net' data', discriminativeGD fuelT fuel r P Y data net = Ok (net', data') \/ discriminativeBGD ordN ordP fuelT fuel r P Y data net = Ok (net', data') ->
  forall x, x <> r -> net' x = net x.
Proof. intros HM HB Hr Ha HN HP net' data' [H|H]; [eapply discriminativeGD_root; eauto|eapply discriminativeBGD_root; eauto]. Qed.
End Any.

Lemma data_back_l {A : arith} (net : network A) r ordN ordP rnd fuelT fuel (P : params A) Y data net' data' :
  NoDup Y -> (forall I, In I data -> forall v, In v Y -> I v <> None) ->
  discriminativeGD fuelT fuel r P Y data net = Ok (net', data') \/ discriminativeHardGD ordN ordP rnd fuelT fuel r P Y data net = Ok (net', data') \/
  discriminativeBGD ordN ordP fuelT fuel r P Y data net = Ok (net', data') \/ discriminativeHardBGD ordN ordP rnd fuelT fuel r P Y data net = Ok (net', data') \/
  discriminative ordN ordP rnd fuelT fuel r P Y data net = Ok (net', data') -> data' = data.
Proof. intros HY HD [H|[H|[H|[H|H]]]]; eauto using dgd_data, dhgd_data, dbgd_data, dhbgd_data, discriminative_data. Qed.

Lemma orders_case_l : ranges_nodes 3 (ascN 3) /\ ranges_nodes 3 (descN 3) /\ ranges_entries (V := Q) 2 (ascP 2) /\ ranges_entries (V := Q) 2 (descP 2) /\
  ascN 3 0%nat (fun _ => true) <> descN 3 0%nat (fun _ => true) /\
  at_most 2 0 dnet /\ bounded (children dnet) 3 /\ leaves_childless dnet /\ acyclic (children dnet).
Proof.
  split; [apply ascN_ok|]. split; [apply descN_ok|]. split; [apply ascP_ok|]. split; [apply descP_ok|]. split; [discriminate|]. apply dnet_case.
Qed.

Lemma generative_gd_l (net : network XR) (N r : nat) d (P : params XR) (eta : R) data :
  peta P = Fin eta -> (0 <= eta)%R -> learnable net N r d -> (pnorm P = true -> weights_live net r) ->
  (forall I, In I data -> leaf_values net I r) ->
  exists net', @generativeGD XR (2 * N + 1) (S N) r d P data net = Ok net' /\
    chain (fun I => gradient_step N r (pnorm P) eta 0 1 [I]) (concat (repeat data (Z.to_nat (piter P)))) net net' /\
    weights_nonneg net' r /\ (pnorm P = true -> data <> [] -> (0 < piter P)%Z -> weights_normalised net' r).
Proof.
  intros HE He Hl Hw HV. destruct (generativeGD_real N r d P eta HE He net data HV (conj Hl Hw)) as (net' & E & C & Hok).
  exists net'. split; auto. split; auto. split; [apply Hok|]. intros HNm Hd Hi.
  destruct (gd_distributions N r d P eta HE He HNm Hi net data Hd HV Hl (Hw HNm)) as (n2 & E2 & _ & H). rewrite E in E2. injection E2 as <-. auto.
Qed.
Lemma generative_bgd_l (net : network XR) (N r M : nat) d (P : params XR) (eta lambda : R) ordN ordP data :
  peta P = Fin eta -> (0 <= eta)%R -> plambda P = Fin lambda -> (0 <= lambda < 1/2)%R -> (0 < pbatch P)%Z ->
  learnable net N r d -> (pnorm P = true -> weights_live net r) -> at_most M r net -> ranges_nodes N ordN -> ranges_entries M ordP ->
  (forall I, In I data -> leaf_values net I r) ->
  exists cs net', batches (Z.to_nat (pbatch P)) data cs /\ @generativeBGD XR ordN ordP (2 * N + 1) (S N) r d P data net = Ok net' /\
    chain (gradient_step N r (pnorm P) eta lambda (IZR (pbatch P))) (concat (repeat cs (Z.to_nat (piter P)))) net net' /\
    weights_nonneg net' r /\ (pnorm P = true -> data <> [] -> (0 < piter P)%Z -> weights_normalised net' r).
Proof.
  intros HE He HLm Hlm Hb Hl Hw HM HN HP HV.
  destruct (generativeBGD_real N r M d P eta lambda HE HLm He Hlm Hb net HM ordN ordP HN HP data HV (conj Hl Hw)) as (cs & net' & Hcs & E & C & Hok).
  exists cs, net'. split; auto. split; auto. split; auto. split; [apply Hok|]. intros HNm Hd Hi.
  destruct (bgd_distributions N r M d P eta lambda HE He HNm Hi net ordN ordP data Hd HV Hl (Hw HNm) HLm Hlm Hb HM HN HP) as (n2 & E2 & _ & H).
  rewrite E in E2. injection E2 as <-. auto.
Qed.
Lemma batch_one_l (net : network XR) (N r M : nat) d (P : params XR) (eta : R) ordN ordP data :
  peta P = Fin eta -> (0 <= eta)%R -> plambda P = Fin 0 -> pbatch P = 1%Z ->
  learnable net N r d -> (pnorm P = true -> weights_live net r) -> at_most M r net -> ranges_nodes N ordN -> ranges_entries M ordP ->
  (forall I, In I data -> leaf_values net I r) ->
  exists net', @generativeGD XR (2 * N + 1) (S N) r d P data net = Ok net' /\ @generativeBGD XR ordN ordP (2 * N + 1) (S N) r d P data net = Ok net'.
Proof. intros HE He HLm Hb Hl Hw HM HN HP HV. apply (batch_of_one_l N r d M P eta HE HLm He Hb net HM ordN ordP HN HP data HV). split; auto. Qed.

Lemma train_case_l : learnable (wnet wl5) 6 0 UseQueue /\ weights_live (wnet wl5) 0 /\ at_most 2 0 (wnet wl5) /\
  leaf_values (wnet wl5) seen 0 /\ leaf_values (wnet wl5) (fun _ => None) 0 /\ seen 0%Z = Some 0%Z /\
  lval (wnet wl5) seen (fun _ => None) 6 0 = (7/30)%R /\ lval (wnet wl5) (without [0%Z] seen) (fun _ => None) 6 0 = 1%R.
Proof.
  split; [apply wnet_learnable|]. split; [apply wnet_live|]. split; [apply wnet_most|]. split; [apply seen_values|]. split; [apply wnet_leaf_values|].
  split; [reflexivity|]. split; [apply seen_total|]. rewrite unseen. apply unseen_total.
Qed.

Lemma dgd_partial_l (net : network XR) (N r : nat) (P : params XR) (eta lambda : R) (Y : list Z) (I : varset) (ws : list R) :
  learnable net N r UseQueue -> peta P = Fin eta -> plambda P = Fin lambda -> piter P = 1%Z -> NoDup Y -> (forall v, In v Y -> I v <> None) ->
  leaf_values net I r -> leaf_values net (without Y I) r -> (0 < lval net I (fun _ => None) N r)%R -> (0 < lval net (without Y I) (fun _ => None) N r)%R ->
  nk (net r) = @KSum XR (map Fin ws) ->
  exists net' ws', @discriminativeGD XR (2 * N + 1) (S N) r P Y [I] net = Ok (net', [I]) /\ length ws' = length ws /\
    net' r = mkNode (@KSum XR (if pnorm P then @normalize XR (map Fin ws') else map Fin ws')) (nch (net r)) /\
    (forall x, x <> r -> net' x = net x) /\
    (forall w, nth_error ws 0 = Some w -> exists w', nth_error ws' 0 = Some w' /\ conditional_update net I (without Y I) N r r 0 eta lambda w w') /\
    (forall i w, (0 < i)%nat -> nth_error ws i = Some w -> exists D E, weight_derivative net I N r r i w D /\ weight_derivative net (without Y I) N r r i w E /\
       nth_error ws' i = Some (w + eta * (D - E) - 2 * lambda * w)%R).
Proof.
  intros Hl HE HLm Hi HY HI HV HV' HS HZ EK.
  destruct (dgd_one_l N r net Hl P eta lambda HE HLm Hi Y HY I ws HI HV HV' EK HS HZ) as (net' & ws' & E & L & E1 & E2 & Hw).
  exists net', ws'. split; auto. split; auto. split; auto. split; auto. split.
  - intros w Hw0. destruct (Hw 0%nat w Hw0) as (D & Q & K1 & K2 & K3). eexists. split; [exact K3|]. exists D, Q. auto.
  - intros i w Hi0 Hw0. destruct (Hw i w Hw0) as (D & Q & K1 & K2 & K3). exists D, Q. split; auto. split; auto. destruct i; [lia|]. exact K3.
Qed.
