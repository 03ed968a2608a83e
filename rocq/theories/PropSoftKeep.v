(** C126: soft learning with normalisation. *)
From Coq Require Import Reals.
From Verif Require Import Base Res Arith LogSpec GraphSpec Spn SpnSpec ProbSpec ProbCases DeriveSpec Search Train TrainSpec TrainCases HardGainSpec HardGainCases HardKeepSpec BelowLemmas SoftKeepLemmas SoftKeepCases.
Local Open Scope R_scope.

(** C126: soft learning from any data, with either collection and on a network of any shape without cycles, comes to
    an end and leaves every sum with positive weights summing to one; in batches as long as Lambda is below one half.
    Missing for the full statement: larger Lambda in batches, for which it is false (soft_training_distribution_refuted). *)
Theorem soft_training_distribution_partial :
  forall (net : network XR) N M r d eta lambda (P : params XR) data ordN ordP,
  0 <= eta -> peta P = Fin eta -> plambda P = Fin lambda -> pnorm P = true ->
  hard_learnable_below net N M r -> (forall I, In I data -> leaf_values net I r) ->
  ranges_nodes N ordN -> ranges_entries M ordP ->
  (exists net', @generativeGD XR (2 * N + 1) (S N) r d P data net = Ok net' /\ only_weights r net net' /\ hard_learnable_below net' N M r) /\
  ((0 < pbatch P)%Z -> 2 * lambda < 1 ->
    exists net', @generativeBGD XR ordN ordP (2 * N + 1) (S N) r d P data net = Ok net' /\ only_weights r net net' /\ hard_learnable_below net' N M r).
Proof. exact soft_keeps_l. Qed.
Print Assumptions soft_training_distribution_partial.

Example soft_training_distribution_case : hard_learnable_below (wnet wl5) 6 2 0 /\ leaf_values (wnet wl5) plain 0 /\
  ranges_nodes 6 (ascN 6) /\ @ranges_entries xreal 2 (ascP 2).
Proof. exact (conj (learnable_below _ _ _ _ wnet_hard) (conj plain_values (conj (ascN_ok 6) (ascP_ok 2)))). Qed.

(** C126: the bound on Lambda is exact. *)
Theorem soft_training_distribution_refuted : exists (net : network XR) N M r I, hard_learnable net N M r /\ leaf_values net I r /\
  forall d (P : params XR) eta lambda ordN ordP, 0 <= eta -> peta P = Fin eta -> plambda P = Fin lambda -> pnorm P = true -> piter P = 1%Z ->
    ranges_nodes N ordN -> ranges_entries M ordP -> (0 < pbatch P)%Z -> 1 <= 2 * lambda ->
    exists net', @generativeBGD XR ordN ordP (2 * N + 1) (S N) r d P [I] net = Ok net' /\ nk (net' r) = @KSum XR [NaN].
Proof. exact soft_overshoot_l. Qed.
Print Assumptions soft_training_distribution_refuted.
