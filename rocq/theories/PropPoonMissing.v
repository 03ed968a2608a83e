(** C124: what LearnGD of the Poon-Domingos learner returns. *)
From Coq Require Import Reals.
From Verif Require Import Base Res Arith LogSpec GraphSpec Spn Build Poon PoonSpec PoonLearn PoonLearnSpec PoonLearnCases ProbSpec Train TrainSpec TrainCases HardGainSpec
  MissingSpec PoonMissing PoonMissingCases.
Local Open Scope Z_scope.

(** C124: with one sum per region, two or more Gaussians per pixel, a resolution above 1 and a Lambda that is not
    too large, LearnGD returns a network over the pixels of the image whose sums have positive weights summing to
    one. Every image, complete or not, has a positive density; without any pixel it is one; and a missing pixel is
    summed out, as precisely as the densities of the Gaussians of that pixel add up to one.
    Missing for the full statement: the other parameters, for which LearnGD panics (C87), leaves pixels out (C86)
    or makes weights that are no numbers (C123). *)
Theorem poon_learned_partial : forall w h logProb trunc round rnd data g r eta lambda,
  0 < w -> 0 < h -> codes_fit w h -> draws rnd -> log_density logProb -> 2 <= r -> (r | w) -> (r | h) -> (2 <= g)%nat -> data <> [] ->
  (0 <= eta)%R -> (2 * lambda < 1 + eta / 50)%R ->
  exists H z, @structure XR w h logProb trunc round rnd data 1 g r = Ok (H, z) /\
  forall N M ordN ordP rndT iter, (length H <= N)%nat -> at_most M z (netOf H) -> ranges_nodes N ordN -> ranges_entries M ordP ->
  (forall c i n, (0 < n)%nat -> (rndT c i n < n)%nat) ->
  exists net, @learnGD XR w h logProb trunc round rnd ordN ordP rndT data 1 g r (Fin eta) (Fin lambda) iter (2 * N + 1) (S N) = Ok (net, z) /\
  image_network w h net z /\ weights_live1 net z /\
  (forall I, exists y, value net N I z = Ok (Fin y)) /\
  (forall I, (forall p, 0 <= p < w * h -> I p = None) -> value net N I z = Ok (Fin 0)) /\
  (forall J x lo hi vs, 0 <= x < w * h ->
    (forall i mu sd, (i < g)%nat -> @unitPar XR data g x i = (Fin mu, Fin sd) -> (0 < sd)%R ->
       (lo <= Rsum (map (fun v => lin (logProb (Fin mu) (Fin sd) (Fin (IZR v)))) vs) <= hi)%R) ->
    exists p q, value net N (observe J x None) z = Ok (xln p) /\ (0 <= p)%R /\
      (forall v, In v vs -> value net N (observe J x (Some v)) z = Ok (xln (q v)) /\ (0 <= q v)%R) /\
      (lo * p <= Rsum (map q vs) <= hi * p)%R).
Proof. exact poon_learned_l. Qed.
Print Assumptions poon_learned_partial.

(** Images of 4 by 2 pixels, two of them, five iterations. *)
Example poon_learned_case : exists N M net z, @learnGD XR 4 2 normalLog (fun _ => 0) (fun _ => 0) lastOf (ascN N) (ascP M) (fun _ _ _ => 0%nat)
    [shade 0; shade 3] 1 2 2 (Fin (1/10)) (Fin (1/100)) 5 (2 * N + 1) (S N) = Ok (net, z) /\
  image_network 4 2 net z /\ value net N (fun _ => None) z = Ok (Fin 0).
Proof. exact learned_case. Qed.
