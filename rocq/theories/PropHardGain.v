From Coq Require Import Reals.
From Verif Require Import Base Res Arith LogSpec GraphSpec Spn SpnSpec Leaves ProbSpec ProbCases MapSpec DeriveSpec Train TrainSpec TrainCases HardGainSpec HardGainLemmas HardGainCases.
Local Open Scope R_scope.

(** C119: hard learning from one instance never lowers the value of its best explanation. *)
Theorem hard_training_raises : forall (N M r : nat) (eta lambda : R), 0 < eta -> 0 <= 2 * lambda <= eta ->
  forall (I : varset) (P : params XR), peta P = Fin eta -> plambda P = Fin lambda -> pnorm P = true ->
  forall net : network XR, hard_learnable net N M r -> leaves_answer net I r -> leaf_values net I r ->
  forall ordP rnd, ranges_entries M ordP -> (forall c i n, (0 < n)%nat -> (rnd c i n < n)%nat) ->
  exists net' m m', @generativeHardGD XR ordP rnd (2 * N + 1) (S N) r P [I] net = Ok net' /\ only_weights r net net' /\ hard_learnable net' N M r /\
    max_ net N I r = Ok (xln m) /\ max_ net' N I r = Ok (xln m') /\ 0 <= m <= m'.
Proof. exact hard_training_l. Qed.
Print Assumptions hard_training_raises.

Example hard_training_case : hard_learnable (wnet wl5) 6 2 0 /\ leaves_answer (wnet wl5) plain 0 /\ leaf_values (wnet wl5) plain 0 /\ @ranges_entries xreal 2 (ascP 2).
Proof. exact (conj wnet_hard (conj plain_answer (conj plain_values (ascP_ok 2)))). Qed.

(** C120: hard learning from one instance should make it more likely.  Refuted: a valid network and an
    instance whose probability falls, for every learning rate and number of iterations. *)
Theorem hard_likelihood_refuted : exists (net : network XR) N M r (card : Z -> nat) (I : varset),
  hard_learnable net N M r /\ complete net r /\ decomposable net r /\ multinomial_leaves net card r /\ evidence_ok card I /\
  forall (P : params XR) eta lambda ordP rnd, peta P = Fin eta -> plambda P = Fin lambda -> 0 < eta -> 0 <= 2 * lambda < eta -> pnorm P = true -> (0 < piter P)%Z ->
    ranges_entries M ordP -> (forall c i n, (0 < n)%nat -> (rnd c i n < n)%nat) ->
  exists net' p p', @generativeHardGD XR ordP rnd (2 * N + 1) (S N) r P [I] net = Ok net' /\
    value net N I r = Ok (xln p) /\ value net' N I r = Ok (xln p') /\ 0 < p' < p.
Proof. exact hard_likelihood_l. Qed.
Print Assumptions hard_likelihood_refuted.

(** It holds where no two children of a sum can both have produced the instance. *)
Theorem selective_training_partial : forall (N M r : nat) (eta lambda : R), 0 < eta -> 0 <= 2 * lambda <= eta ->
  forall (I : varset) (P : params XR), peta P = Fin eta -> plambda P = Fin lambda -> pnorm P = true ->
  forall net : network XR, hard_learnable net N M r -> leaves_answer net I r -> leaf_values net I r ->
  forall ordP rnd, ranges_entries M ordP -> (forall c i n, (0 < n)%nat -> (rnd c i n < n)%nat) ->
  leaves_decided net I r -> one_explanation net N I r ->
  exists net' p p', @generativeHardGD XR ordP rnd (2 * N + 1) (S N) r P [I] net = Ok net' /\
    value net N I r = Ok (xln p) /\ value net' N I r = Ok (xln p') /\ 0 <= p <= p'.
Proof. exact selective_training_l. Qed.
Print Assumptions selective_training_partial.

Example selective_training_case : let net := wnet (@indLeaf XR 0 1) in
  hard_learnable net 6 2 0 /\ leaf_values net plain 0 /\ leaves_answer net plain 0 /\ leaves_decided net plain 0 /\ one_explanation net 6 plain 0.
Proof. exact selective_case. Qed.
