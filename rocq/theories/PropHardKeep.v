(** C123: hard learning with normalisation. *)
From Coq Require Import Reals.
From Verif Require Import Base Res Arith LogSpec GraphSpec Spn SpnSpec ProbSpec ProbCases MapSpec DeriveSpec Train TrainSpec TrainCases HardGainSpec HardGainCases HardKeepSpec BelowLemmas HardKeepLemmas HardKeepCases.
Local Open Scope R_scope.

(** C123: as long as Lambda is not too large for the learning rate, hard learning from any data comes to an end
    and leaves every sum with positive weights summing to one.  Missing for the full statement: larger Lambda,
    for which it is false (hard_training_distribution_refuted). *)
Theorem hard_training_distribution_partial :
  forall (net : network XR) N M r eta lambda (P : params XR) data ordN ordP rnd,
  0 <= eta -> peta P = Fin eta -> plambda P = Fin lambda -> pnorm P = true ->
  hard_learnable_below net N M r -> (forall I, In I data -> leaves_answer net I r /\ leaf_values net I r) ->
  ranges_nodes N ordN -> ranges_entries M ordP -> (forall c i n, (0 < n)%nat -> (rnd c i n < n)%nat) ->
  (2 * lambda < 1 + eta ->
    exists net', @generativeHardGD XR ordP rnd (2 * N + 1) (S N) r P data net = Ok net' /\ only_weights r net net' /\ hard_learnable_below net' N M r) /\
  ((0 < pbatch P)%Z -> 2 * lambda < 1 + eta / IZR (pbatch P) ->
    exists net', @generativeHardBGD XR ordN ordP rnd (2 * N + 1) (S N) r P data net = Ok net' /\ only_weights r net net' /\ hard_learnable_below net' N M r).
Proof. exact hard_keeps_l. Qed.
Print Assumptions hard_training_distribution_partial.

Example hard_training_distribution_case : hard_learnable_below (wnet wl5) 6 2 0 /\ leaves_answer (wnet wl5) plain 0 /\ leaf_values (wnet wl5) plain 0 /\
  ranges_nodes 6 (ascN 6) /\ @ranges_entries xreal 2 (ascP 2) /\ 2 * (1/100) < 1 + (1/10) / IZR 50.
Proof. exact (conj (learnable_below _ _ _ _ wnet_hard) (conj plain_answer (conj plain_values (conj (ascN_ok 6) (conj (ascP_ok 2) default_small))))). Qed.

(** C123: the bound on Lambda is exact. *)
Theorem hard_training_distribution_refuted : exists (net : network XR) N M r I, hard_learnable net N M r /\ leaves_answer net I r /\ leaf_values net I r /\
  forall (P : params XR) eta lambda ordN ordP rnd, 0 <= eta -> peta P = Fin eta -> plambda P = Fin lambda -> pnorm P = true -> piter P = 1%Z ->
    ranges_nodes N ordN -> ranges_entries M ordP -> (forall c i n, (0 < n)%nat -> (rnd c i n < n)%nat) ->
    (1 + eta <= 2 * lambda -> exists net', @generativeHardGD XR ordP rnd (2 * N + 1) (S N) r P [I] net = Ok net' /\ nk (net' r) = @KSum XR [NaN]) /\
    ((0 < pbatch P)%Z -> 1 + eta / IZR (pbatch P) <= 2 * lambda -> exists net', @generativeHardBGD XR ordN ordP rnd (2 * N + 1) (S N) r P [I] net = Ok net' /\ nk (net' r) = @KSum XR [NaN]).
Proof. exact overshoot_l. Qed.
Print Assumptions hard_training_distribution_refuted.
