(** C125: what LearnGD of the Dennis-Ventura learner returns. *)
From Coq Require Import Reals.
From Verif Require Import Base Res Arith LogSpec GraphSpec Spn GoMap DataSpec Dennis DennisSpec PoonSpec PoonLearnSpec ProbSpec MissingSpec Train TrainSpec HardGainSpec
  DennisCases MissingCases DennisLearn DennisLearnLemmas DennisLearnCases.
Local Open Scope R_scope.

(** C125: when the Gaussians of all variables have a positive deviation, normalisation is asked for,
    and Lambda is not too large (for hard learning 1 + Eta/BatchSize over two, for soft learning in batches one half,
    for soft learning of single instances there is no bound, since Lambda is not read), LearnGD returns a complete and decomposable
    network over the scope whose sums have positive weights summing to one. Every instance, complete or not, has a
    positive density; without any variable it is one; and a missing variable is summed out, as precisely as the
    densities of the Gaussians of that variable add up to one.
    Missing for the full statement: constant variables (C122), and larger Lambda (C123, C126). *)
Theorem dennis_learned_partial : forall ord ordC km kmD db (par : Z -> nat -> F XR * F XR) logProb trunc round rnd fuel D sc k m g t n (P : params XR) eta lambda,
  visits_all ord -> (forall c C, Permutation (ordC c C) C) -> two_clusters km -> good_views kmD db n D k ->
  (forall i, (0 <= rnd i < 10)%Z) -> (0 < m)%nat -> (0 < g)%nat ->
  NoDup (keys sc) -> (2 <= length sc)%nat -> (forall x, member sc x -> (0 <= x < Z.of_nat n)%Z) -> (length sc < fuel)%nat ->
  (forall v i, member sc v -> exists mu s, par v i = (Fin mu, Fin s) /\ 0 < s) -> log_density logProb ->
  peta P = Fin eta -> 0 <= eta -> plambda P = Fin lambda -> pnorm P = true ->
  ((Z.rem (ptype P) 2 = 0)%Z -> 2 * lambda < 1 + eta / IZR (Z.max 1 (pbatch P))) ->
  ((Z.rem (ptype P) 2 <> 0)%Z -> (1 < pbatch P)%Z -> 2 * lambda < 1) ->
  exists net0 z N0, @Dennis.structure XR ord ordC km kmD db par logProb trunc round rnd fuel D sc k m g t = Ok (net0, z) /\
  forall N M ordN ordP rndT, (N0 <= N)%nat -> at_most M z net0 -> ranges_nodes N ordN -> ranges_entries M ordP ->
  (forall c i n, (0 < n)%nat -> (rndT c i n < n)%nat) ->
  exists net, @learnGD XR ord ordC km kmD db par logProb trunc round rnd fuel ordN ordP rndT (2 * N + 1) (S N) D sc k m g t P = Ok (net, z) /\
  (forall x, in_scope net z x <-> member sc x) /\ complete net z /\ decomposable net z /\ weights_live1 net z /\
  (forall I, exists y, value net N I z = Ok (Fin y)) /\
  (forall I, (forall x, member sc x -> I x = None) -> value net N I z = Ok (Fin 0)) /\
  (forall J x lo hi vs, member sc x ->
    (forall i, lo <= Rsum (map (fun v => lin (logProb (fst (par x i)) (snd (par x i)) (Fin (IZR v)))) vs) <= hi) ->
    exists p q, value net N (observe J x None) z = Ok (xln p) /\ 0 <= p /\
      (forall v, In v vs -> value net N (observe J x (Some v)) z = Ok (xln (q v)) /\ 0 <= q v) /\
      lo * p <= Rsum (map q vs) <= hi * p).
Proof. exact dennis_learned_l. Qed.
Print Assumptions dennis_learned_partial.

(** One row of three variables, two sums per region, two Gaussians per variable; hard learning, then soft learning in batches. *)
Example dennis_learned_case : forall P, P = hardP \/ P = softP -> exists N M net z, learned3 P N M = Ok (net, z) /\ (forall x, in_scope net z x <-> member sc3 x) /\
  value net N (fun _ => None) z = Ok (Fin 0) /\ exists y, value net N (get row1) z = Ok (Fin y).
Proof. exact dennis_learned_case_l. Qed.
