(** C85 and C89: the choice of the learner, and a batch of the discriminative learner. *)
From Coq Require Import Reals QArith.
From Verif Require Import Base Res Arith LogSpec GraphSpec Search Storer Spn SpnSpec ProbSpec ProbCases Struct StructSpec DeriveSpec Hard HardSpec SerialCases DeriveCases
  Train TrainSpec TrainCases TrainRuns TrainProps TrainPickSpec TrainPick.

(** C89, for every arithmetic: the hard keys run the hard learners, in batches when BatchSize > 1. *)
Theorem hard_keys_run_hard_learners :
  forall (A : arith) (net : network A) (r N M : nat) ordN ordP rnd fuelT (P : params A) Y data,
  hard_type (ptype P) -> at_most M r net -> bounded (children net) N -> (r < N)%nat -> leaves_childless net -> ranges_nodes N ordN -> ranges_entries M ordP ->
  NoDup Y -> (forall I, In I data -> forall v, In v Y -> I v <> None) ->
  (forall net', generative ordN ordP rnd fuelT (S N) r P data net = Ok net' ->
     (pbatch P <= 1)%Z /\ chain (fun I => hard_step r (pnorm P) (peta P) (plambda P) 1 [I]) (concat (repeat data (Z.to_nat (piter P)))) net net' \/
     (1 < pbatch P)%Z /\ exists cs, batches (Z.to_nat (pbatch P)) data cs /\
       chain (hard_step r (pnorm P) (peta P) (plambda P) (pbatch P)) (concat (repeat cs (Z.to_nat (piter P)))) net net') /\
  (forall net' data', discriminative ordN ordP rnd fuelT (S N) r P Y data net = Ok (net', data') -> data' = data /\
     ((pbatch P <= 1)%Z /\ chain (fun I => hard_disc_step r (pnorm P) (peta P) (plambda P) 1 Y [I]) (concat (repeat data (Z.to_nat (piter P)))) net net' \/
      (1 < pbatch P)%Z /\ exists cs, batches (Z.to_nat (pbatch P)) (concat (repeat data (Z.to_nat (piter P)))) cs /\
        chain (hard_disc_step r (pnorm P) (peta P) (plambda P) (pbatch P) Y) cs net net')).
Proof. exact @hard_pick_l. Qed.
Print Assumptions hard_keys_run_hard_learners.

(** C89: the soft keys run the gradient learners; without batches Lambda is not used. *)
Theorem soft_keys_run_gradient_learners :
  forall (net : network XR) (N r M : nat) ordN ordP rnd (P : params XR) (eta lambda : R) data,
  soft_type (ptype P) -> peta P = Fin eta -> (0 <= eta)%R -> plambda P = Fin lambda -> (0 <= lambda < 1/2)%R ->
  learnable net N r UseQueue -> (pnorm P = true -> weights_live net r) -> at_most M r net -> ranges_nodes N ordN -> ranges_entries M ordP ->
  (forall I, In I data -> leaf_values net I r) ->
  exists net', @generative XR ordN ordP rnd (2 * N + 1) (S N) r P data net = Ok net' /\
    ((pbatch P <= 1)%Z /\ chain (fun I => gradient_step N r (pnorm P) eta 0 1 [I]) (concat (repeat data (Z.to_nat (piter P)))) net net' \/
     (1 < pbatch P)%Z /\ exists cs, batches (Z.to_nat (pbatch P)) data cs /\
       chain (gradient_step N r (pnorm P) eta lambda (IZR (pbatch P))) (concat (repeat cs (Z.to_nat (piter P)))) net net').
Proof. exact soft_pick_l. Qed.
Print Assumptions soft_keys_run_gradient_learners.

(** C89, for every arithmetic: with a key of expectation-maximization the learners run gradient descent. *)
Theorem em_keys_run_gradient_descent :
  forall (A : arith) (net : network A) r ordN ordP rnd fuelT fuel (P : params A) Y data,
  (ptype P = 0 \/ ptype P = 1)%Z ->
  generative ordN ordP rnd fuelT fuel r (keyed P (em_key (ptype P))) data net = generative ordN ordP rnd fuelT fuel r P data net /\
  discriminative ordN ordP rnd fuelT fuel r (keyed P (em_key (ptype P))) Y data net = discriminative ordN ordP rnd fuelT fuel r P Y data net.
Proof. exact @em_is_gd_l. Qed.
Print Assumptions em_keys_run_gradient_descent.

(** C89: expectation-maximization has no learning rate. Refuted: with the key HardEM the result depends on Eta. *)
Theorem em_without_rate_refuted :
  exists (P P' : params QA) (net : network QA) (r N M : nat) ordN ordP rnd fuelT data net1 net2 u,
  ptype P = 2%Z /\ P' = rated P (peta P') /\ at_most M r net /\ bounded (children net) N /\ (r < N)%nat /\ leaves_childless net /\ ranges_nodes N ordN /\ ranges_entries M ordP /\
  generative ordN ordP rnd fuelT (S N) r P data net = Ok net1 /\ generative ordN ordP rnd fuelT (S N) r P' data net = Ok net2 /\ nk (net1 u) <> nk (net2 u).
Proof. exact em_eta_l. Qed.
Print Assumptions em_without_rate_refuted.

(** C85: one batch of the discriminative gradient learner. *)
Theorem discriminative_batch_partial :
  forall (net : network XR) (N r M : nat) ordN ordP rnd (P : params XR) (eta lambda : R) Y data ws,
  soft_type (ptype P) -> (1 < pbatch P)%Z -> learnable net N r UseQueue -> at_most M r net -> peta P = Fin eta -> plambda P = Fin lambda -> NoDup Y ->
  nk (net r) = @KSum XR (map Fin ws) -> ranges_nodes N ordN -> ranges_entries M ordP ->
  piter P = 1%Z -> data <> [] -> (Z.of_nat (length data) <= pbatch P)%Z ->
  (forall I, In I data -> (forall v, In v Y -> I v <> None) /\ leaf_values net I r /\ leaf_values net (without Y I) r /\
     (0 < lval net I (fun _ => None) N r)%R /\ (0 < lval net (without Y I) (fun _ => None) N r)%R) ->
  exists net' ws', @discriminative XR ordN ordP rnd (2 * N + 1) (S N) r P Y data net = Ok (net', data) /\ length ws' = length ws /\
    net' r = mkNode (@KSum XR (if pnorm P then @normalize XR (map Fin ws') else map Fin ws')) (nch (net r)) /\
    (forall x, x <> r -> net' x = net x) /\
    forall i w, nth_error ws i = Some w -> exists Gs, Forall2 (batch_term net N r Y i w) data Gs /\
      nth_error ws' i = Some (w + eta * Rsum Gs / IZR (pbatch P) - 2 * lambda * w)%R.
Proof. exact soft_disc_pick_l. Qed.
Print Assumptions discriminative_batch_partial.

(** The hypotheses are met by a network of C27, one variable being the query. *)
Example pick_case : let P := @mkParams XR true 1 (Fin (/10)) 2 (Fin (/100)) 1 in
  soft_type (ptype P) /\ learnable (wnet wl5) 6 0 UseQueue /\ at_most 2 0 (wnet wl5) /\ ranges_nodes 6 (ascN 6) /\ ranges_entries (V := xreal) 2 (ascP 2) /\
  (exists ws, nk (wnet wl5 0%nat) = @KSum XR (map Fin ws)) /\
  forall I, In I [seen; seen] -> (forall v, In v [0%Z] -> I v <> None) /\ leaf_values (wnet wl5) I 0 /\ leaf_values (wnet wl5) (without [0%Z] I) 0 /\
     (0 < lval (wnet wl5) I (fun _ => None) 6 0)%R /\ (0 < lval (wnet wl5) (without [0%Z] I) (fun _ => None) 6 0)%R.
Proof. exact pick_case_l. Qed.
