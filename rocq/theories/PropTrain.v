(** C78-C85: weight learning. *)
From Coq Require Import Reals QArith.
From Verif Require Import Base Res Arith LogSpec GraphSpec Search Storer Spn SpnSpec ProbSpec ProbCases Struct StructSpec DeriveSpec Hard HardSpec SerialCases DeriveCases
  Train TrainSpec TrainAll TrainDisc TrainRoot TrainGrad TrainSteps TrainBgd TrainHard TrainOne TrainDiscHard TrainGradD TrainCases TrainRuns TrainProps.

(** C78, for every arithmetic: learning changes weights of sums below the root and nothing else. *)
Theorem trainers_change_only_weights :
  forall (A : arith) (net : network A) (r N M : nat) ordN ordP rnd fuelT fuel (P : params A) d Y data,
  at_most M r net -> (forall u, reach (children net) r u -> (u < N)%nat) -> ranges_nodes N ordN -> ranges_entries M ordP ->
  (forall net', generativeGD fuelT fuel r d P data net = Ok net' \/ generativeHardGD ordP rnd fuelT fuel r P data net = Ok net' \/
     generativeBGD ordN ordP fuelT fuel r d P data net = Ok net' \/ generativeHardBGD ordN ordP rnd fuelT fuel r P data net = Ok net' \/
     generative ordN ordP rnd fuelT fuel r P data net = Ok net' -> only_weights r net net') /\
  (forall net' data', discriminativeGD fuelT fuel r P Y data net = Ok (net', data') \/ discriminativeHardGD ordN ordP rnd fuelT fuel r P Y data net = Ok (net', data') \/
     discriminativeBGD ordN ordP fuelT fuel r P Y data net = Ok (net', data') \/ discriminativeHardBGD ordN ordP rnd fuelT fuel r P Y data net = Ok (net', data') \/
     discriminative ordN ordP rnd fuelT fuel r P Y data net = Ok (net', data') -> only_weights r net net').
Proof. exact @only_weights_l. Qed.
Print Assumptions trainers_change_only_weights.

(** C79, for every arithmetic: the order in which Go ranges over the tables and their maps does not matter,
    whether the run returns or panics. *)
Theorem trainers_any_range_order :
  forall (A : arith) (net : network A) (r N M : nat) ordN ordN' ordP ordP' rnd fuelT fuel (P : params A) d Y data,
  at_most M r net -> (forall u, reach (children net) r u -> (u < N)%nat) ->
  ranges_nodes N ordN -> ranges_nodes N ordN' -> ranges_entries M ordP -> ranges_entries M ordP' ->
  generativeHardGD ordP rnd fuelT fuel r P data net = generativeHardGD ordP' rnd fuelT fuel r P data net /\
  generativeBGD ordN ordP fuelT fuel r d P data net = generativeBGD ordN' ordP' fuelT fuel r d P data net /\
  generativeHardBGD ordN ordP rnd fuelT fuel r P data net = generativeHardBGD ordN' ordP' rnd fuelT fuel r P data net /\
  generative ordN ordP rnd fuelT fuel r P data net = generative ordN' ordP' rnd fuelT fuel r P data net /\
  discriminativeHardGD ordN ordP rnd fuelT fuel r P Y data net = discriminativeHardGD ordN' ordP' rnd fuelT fuel r P Y data net /\
  discriminativeBGD ordN ordP fuelT fuel r P Y data net = discriminativeBGD ordN' ordP' fuelT fuel r P Y data net /\
  discriminativeHardBGD ordN ordP rnd fuelT fuel r P Y data net = discriminativeHardBGD ordN' ordP' rnd fuelT fuel r P Y data net /\
  discriminative ordN ordP rnd fuelT fuel r P Y data net = discriminative ordN' ordP' rnd fuelT fuel r P Y data net.
Proof. exact @any_order_l. Qed.
Print Assumptions trainers_any_range_order.

Example train_orders : ranges_nodes 3 (ascN 3) /\ ranges_nodes 3 (descN 3) /\ ranges_entries (V := Q) 2 (ascP 2) /\ ranges_entries (V := Q) 2 (descP 2) /\
  ascN 3 0%nat (fun _ => true) <> descN 3 0%nat (fun _ => true) /\
  at_most 2 0 dnet /\ bounded (children dnet) 3 /\ leaves_childless dnet /\ acyclic (children dnet).
Proof. exact orders_case_l. Qed.

(** C80: GenerativeGD is one gradient step per instance and epoch, in order; with normalisation the sums end as distributions. *)
Theorem generative_gd_steps :
  forall (net : network XR) (N r : nat) d (P : params XR) (eta : R) data,
  peta P = Fin eta -> (0 <= eta)%R -> learnable net N r d -> (pnorm P = true -> weights_live net r) ->
  (forall I, In I data -> leaf_values net I r) ->
  exists net', @generativeGD XR (2 * N + 1) (S N) r d P data net = Ok net' /\
    chain (fun I => gradient_step N r (pnorm P) eta 0 1 [I]) (concat (repeat data (Z.to_nat (piter P)))) net net' /\
    weights_nonneg net' r /\ (pnorm P = true -> data <> [] -> (0 < piter P)%Z -> weights_normalised net' r).
Proof. exact generative_gd_l. Qed.
Print Assumptions generative_gd_steps.

(** C81: GenerativeBGD is one gradient step per batch. *)
Theorem generative_bgd_steps :
  forall (net : network XR) (N r M : nat) d (P : params XR) (eta lambda : R) ordN ordP data,
  peta P = Fin eta -> (0 <= eta)%R -> plambda P = Fin lambda -> (0 <= lambda < 1/2)%R -> (0 < pbatch P)%Z ->
  learnable net N r d -> (pnorm P = true -> weights_live net r) -> at_most M r net -> ranges_nodes N ordN -> ranges_entries M ordP ->
  (forall I, In I data -> leaf_values net I r) ->
  exists cs net', batches (Z.to_nat (pbatch P)) data cs /\ @generativeBGD XR ordN ordP (2 * N + 1) (S N) r d P data net = Ok net' /\
    chain (gradient_step N r (pnorm P) eta lambda (IZR (pbatch P))) (concat (repeat cs (Z.to_nat (piter P)))) net net' /\
    weights_nonneg net' r /\ (pnorm P = true -> data <> [] -> (0 < piter P)%Z -> weights_normalised net' r).
Proof. exact generative_bgd_l. Qed.
Print Assumptions generative_bgd_steps.

Example train_case : learnable (wnet wl5) 6 0 UseQueue /\ weights_live (wnet wl5) 0 /\ at_most 2 0 (wnet wl5) /\
  leaf_values (wnet wl5) seen 0 /\ leaf_values (wnet wl5) (fun _ => None) 0 /\ seen 0%Z = Some 0%Z /\
  lval (wnet wl5) seen (fun _ => None) 6 0 = (7/30)%R /\ lval (wnet wl5) (without [0%Z] seen) (fun _ => None) 6 0 = 1%R.
Proof. exact train_case_l. Qed.

(** C82: a batch size of one is online learning. Refuted for GenerativeGD: it ignores Lambda. *)
Theorem batch_of_one_refuted :
  exists (net : network XR) (N r M : nat) (P : params XR) (lambda : R) (data : list varset)
    (ordN : nat -> (nat -> bool) -> list nat) (ordP : nat -> nat -> (Z -> option xreal) -> list (Z * xreal)) net1 net2,
  learnable net N r UseQueue /\ at_most M r net /\ ranges_nodes N ordN /\ ranges_entries M ordP /\ (forall I, In I data -> leaf_values net I r) /\
  pbatch P = 1%Z /\ pnorm P = false /\ plambda P = Fin lambda /\ (0 < lambda < 1/2)%R /\
  @generativeGD XR (2 * N + 1) (S N) r UseQueue P data net = Ok net1 /\ @generativeBGD XR ordN ordP (2 * N + 1) (S N) r UseQueue P data net = Ok net2 /\
  nk (net1 r) = nk (net r) /\ nk (net2 r) <> nk (net1 r).
Proof. exact lambda_ignored_l. Qed.
Print Assumptions batch_of_one_refuted.

(** C82 for Lambda = 0. *)
Theorem batch_of_one_partial :
  forall (net : network XR) (N r M : nat) d (P : params XR) (eta : R) ordN ordP data,
  peta P = Fin eta -> (0 <= eta)%R -> plambda P = Fin 0 -> pbatch P = 1%Z ->
  learnable net N r d -> (pnorm P = true -> weights_live net r) -> at_most M r net -> ranges_nodes N ordN -> ranges_entries M ordP ->
  (forall I, In I data -> leaf_values net I r) ->
  exists net', @generativeGD XR (2 * N + 1) (S N) r d P data net = Ok net' /\ @generativeBGD XR ordN ordP (2 * N + 1) (S N) r d P data net = Ok net'.
Proof. exact batch_one_l. Qed.
Print Assumptions batch_of_one_partial.

(** C82 for hard learning: any arithmetic, any Lambda, panics included. *)
Theorem hard_batch_of_one :
  forall (A : arith) (net : network A) (r N M : nat) ordN ordP rnd fuelT (P : params A) data,
  at_most M r net -> bounded (children net) N -> (r < N)%nat -> leaves_childless net -> ranges_nodes N ordN -> ranges_entries M ordP ->
  pbatch P = 1%Z ->
  generativeHardBGD ordN ordP rnd fuelT (S N) r P data net = generativeHardGD ordP rnd fuelT (S N) r P data net.
Proof. exact @hard_batch_one_l. Qed.
Print Assumptions hard_batch_of_one.

(** C83, for every arithmetic: the hard generative learners count the edges selected by TraceMAP. *)
Theorem hard_generative_steps :
  forall (A : arith) (net : network A) (r N M : nat) ordN ordP rnd fuelT (P : params A) data,
  at_most M r net -> bounded (children net) N -> (r < N)%nat -> leaves_childless net -> ranges_nodes N ordN -> ranges_entries M ordP ->
  (forall net', generativeHardGD ordP rnd fuelT (S N) r P data net = Ok net' ->
     chain (fun I => hard_step r (pnorm P) (peta P) (plambda P) 1 [I]) (concat (repeat data (Z.to_nat (piter P)))) net net') /\
  (forall net', (0 < pbatch P)%Z -> generativeHardBGD ordN ordP rnd fuelT (S N) r P data net = Ok net' ->
     exists cs, batches (Z.to_nat (pbatch P)) data cs /\
       chain (hard_step r (pnorm P) (peta P) (plambda P) (pbatch P)) (concat (repeat cs (Z.to_nat (piter P)))) net net').
Proof. exact @hard_gen_l. Qed.
Print Assumptions hard_generative_steps.

(** C84, for every arithmetic: the hard discriminative learners; batches run on over the epochs. *)
Theorem hard_discriminative_steps :
  forall (A : arith) (net : network A) (r N M : nat) ordN ordP rnd fuelT (P : params A) Y data,
  at_most M r net -> bounded (children net) N -> (r < N)%nat -> ranges_nodes N ordN -> ranges_entries M ordP ->
  NoDup Y -> (forall I, In I data -> forall v, In v Y -> I v <> None) ->
  (forall net' data', discriminativeHardGD ordN ordP rnd fuelT (S N) r P Y data net = Ok (net', data') -> data' = data /\
     chain (fun I => hard_disc_step r (pnorm P) (peta P) (plambda P) 1 Y [I]) (concat (repeat data (Z.to_nat (piter P)))) net net') /\
  (forall net' data', (0 < pbatch P)%Z -> discriminativeHardBGD ordN ordP rnd fuelT (S N) r P Y data net = Ok (net', data') -> data' = data /\
     exists cs, batches (Z.to_nat (pbatch P)) (concat (repeat data (Z.to_nat (piter P)))) cs /\
       chain (hard_disc_step r (pnorm P) (peta P) (plambda P) (pbatch P) Y) cs net net').
Proof. exact @hard_disc_l. Qed.
Print Assumptions hard_discriminative_steps.

(** Runs of the four hard learners over the rationals. *)
Example hard_runs :
  (exists net', generativeHardGD (ascP 2) rnd0 7 4 0 hP [see0; see1] dnet = Ok net' /\ weightsAt net' 0 = [17 # 8; 25 # 24]) /\
  (exists net', generativeHardBGD (ascN 3) (ascP 2) rnd0 7 4 0 hP [see0; see1; see1] dnet = Ok net' /\ weightsAt net' 0 = [9 # 8; 577 # 816]) /\
  (exists net' data', discriminativeHardGD (ascN 3) (ascP 2) rnd0 7 4 0 hP [0%Z] [see0; see1] dnet = Ok (net', data') /\ weightsAt net' 0 = [17 # 8; -7 # 24]) /\
  (exists net' data', discriminativeHardBGD (ascN 3) (ascP 2) rnd0 7 4 0 hP [0%Z] [see0; see0; see1] dnet = Ok (net', data') /\ weightsAt net' 0 = [17 # 8; -7 # 24]).
Proof. exact (conj hard_gd_run (conj hard_bgd_run (conj hard_dgd_run hard_dbgd_run))). Qed.

(** C85: DiscriminativeGD follows the gradient of log S(Y|X). Refuted for the weights after the first. *)
Theorem discriminative_gradient_refuted :
  exists (net : network XR) (N r : nat) (P : params XR) (eta lambda : R) (Y : list Z) (I : varset) (ws : list R) net' ws' i w,
  learnable net N r UseQueue /\ peta P = Fin eta /\ plambda P = Fin lambda /\ pnorm P = false /\ piter P = 1%Z /\ NoDup Y /\ (forall v, In v Y -> I v <> None) /\
  leaf_values net I r /\ leaf_values net (without Y I) r /\ (0 < lval net I (fun _ => None) N r)%R /\ (0 < lval net (without Y I) (fun _ => None) N r)%R /\
  nk (net r) = @KSum XR (map Fin ws) /\ @discriminativeGD XR (2 * N + 1) (S N) r P Y [I] net = Ok (net', [I]) /\
  nk (net' r) = @KSum XR (map Fin ws') /\ nth_error ws i = Some w /\
  forall w', nth_error ws' i = Some w' -> ~ conditional_update net I (without Y I) N r r i eta lambda w w'.
Proof. exact dgd_gradient_refuted_l. Qed.
Print Assumptions discriminative_gradient_refuted.

(** C85: what one step does. Weight 0 of the root follows the gradient; the derivatives for the other weights
    are not divided by the values of the network; other nodes stay. *)
Theorem discriminative_gradient_partial :
  forall (net : network XR) (N r : nat) (P : params XR) (eta lambda : R) (Y : list Z) (I : varset) (ws : list R),
  learnable net N r UseQueue -> peta P = Fin eta -> plambda P = Fin lambda -> piter P = 1%Z -> NoDup Y -> (forall v, In v Y -> I v <> None) ->
  leaf_values net I r -> leaf_values net (without Y I) r -> (0 < lval net I (fun _ => None) N r)%R -> (0 < lval net (without Y I) (fun _ => None) N r)%R ->
  nk (net r) = @KSum XR (map Fin ws) ->
  exists net' ws', @discriminativeGD XR (2 * N + 1) (S N) r P Y [I] net = Ok (net', [I]) /\ length ws' = length ws /\
    net' r = mkNode (@KSum XR (if pnorm P then @normalize XR (map Fin ws') else map Fin ws')) (nch (net r)) /\
    (forall x, x <> r -> net' x = net x) /\
    (forall w, nth_error ws 0 = Some w -> exists w', nth_error ws' 0 = Some w' /\ conditional_update net I (without Y I) N r r 0 eta lambda w w') /\
    (forall i w, (0 < i)%nat -> nth_error ws i = Some w -> exists D E, weight_derivative net I N r r i w D /\ weight_derivative net (without Y I) N r r i w E /\
       nth_error ws' i = Some (w + eta * (D - E) - 2 * lambda * w)%R).
Proof. exact dgd_partial_l. Qed.
Print Assumptions discriminative_gradient_partial.

(** C30, for every arithmetic, data set and number of iterations: the trainers change the root only. *)
Theorem discriminative_trainers_root_only :
  forall (A : arith) (net : network A) (r N M : nat) ordN ordP fuelT fuel (P : params A) Y data,
  at_most M r net -> bounded (children net) N -> (r < N)%nat -> acyclic (children net) -> ranges_nodes N ordN -> ranges_entries M ordP ->
  forall net' data', discriminativeGD fuelT fuel r P Y data net = Ok (net', data') \/ discriminativeBGD ordN ordP fuelT fuel r P Y data net = Ok (net', data') ->
  forall x, x <> r -> net' x = net x.
Proof. exact @root_only_l. Qed.
Print Assumptions discriminative_trainers_root_only.

(** C31: the discriminative learners give the data set back. *)
Theorem discriminative_restores_data :
  forall (A : arith) (net : network A) r ordN ordP rnd fuelT fuel (P : params A) Y data net' data',
  NoDup Y -> (forall I, In I data -> forall v, In v Y -> I v <> None) ->
  discriminativeGD fuelT fuel r P Y data net = Ok (net', data') \/ discriminativeHardGD ordN ordP rnd fuelT fuel r P Y data net = Ok (net', data') \/
  discriminativeBGD ordN ordP fuelT fuel r P Y data net = Ok (net', data') \/ discriminativeHardBGD ordN ordP rnd fuelT fuel r P Y data net = Ok (net', data') \/
  discriminative ordN ordP rnd fuelT fuel r P Y data net = Ok (net', data') -> data' = data.
Proof. exact @data_back_l. Qed.
Print Assumptions discriminative_restores_data.
