From Coq Require Import Reals.
From Verif Require Import Base Res Arith LogSpec GraphSpec Search Spn SpnSpec Leaves ProbSpec ProbCases Derive DeriveSpec Train TrainSpec TrainCases GainSpec GainLemmas GainCases.
Local Open Scope R_scope.

(** C118: learning from an instance should make it more likely.  Refuted: a valid network of a
    mixture of two products and an instance whose probability falls for every learning rate, every
    number of iterations, with and without normalisation (without it, relative to the total). *)
Theorem training_likelihood_refuted : exists (net : network XR) N r (card : Z -> nat) (I : varset),
  learnable net N r UseQueue /\ weights_normalised net r /\ complete net r /\ decomposable net r /\ multinomial_leaves net card r /\ evidence_ok card I /\
  forall (P : params XR) eta, peta P = Fin eta -> 0 < eta -> (0 < piter P)%Z ->
  exists net' p p' z, @generativeGD XR (2 * N + 1) (S N) r UseQueue P [I] net = Ok net' /\
    value net N I r = Ok (xln p) /\ value net N (fun _ => None) r = Ok (xln 1) /\
    value net' N I r = Ok (xln p') /\ value net' N (fun _ => None) r = Ok (xln z) /\ 0 < z /\ (pnorm P = true -> z = 1) /\ p' / z < p.
Proof. exact likelihood_falls_l. Qed.
Print Assumptions training_likelihood_refuted.

(** What training does to a mixture of products, for one instance: its probability moves towards the
    mean of the values of the components weighted with themselves, never past it. *)
Theorem mixture_training_partial : forall (net : network XR) (N r : nat) d (P : params XR) (eta : R) I ws g,
  peta P = Fin eta -> 0 <= eta -> learnable net N r d -> leaf_values net I r -> mixture_of net N r I ws g -> Rsum ws = 1 ->
  exists net' ws', @generativeGD XR (2 * N + 1) (S N) r d P [I] net = Ok net' /\ nk (net' r) = @KSum XR (map Fin ws') /\ length ws' = length ws /\ 0 < Rsum ws' /\
    (pnorm P = true -> Rsum ws' = 1) /\
    (forall J gJ, leaf_values net J r -> mixture_of net N r J ws gJ -> value net N J r = Ok (xln (dot gJ ws)) /\ value net' N J r = Ok (xln (dot gJ ws'))) /\
    dot g ws' / Rsum ws' - self_mean g = (dot g ws - self_mean g) / (if pnorm P then (1 + eta * Rsum g) ^ Z.to_nat (piter P) else 1 + INR (Z.to_nat (piter P)) * (eta * Rsum g)).
Proof. exact mixture_training_l. Qed.
Print Assumptions mixture_training_partial.

(** Without normalisation the values of all states grow, in every network. *)
Theorem training_values_grow : forall (net : network XR) (N r : nat) d (P : params XR) (eta : R) data,
  peta P = Fin eta -> 0 <= eta -> learnable net N r d -> pnorm P = false -> (forall I, In I data -> leaf_values net I r) ->
  exists net', @generativeGD XR (2 * N + 1) (S N) r d P data net = Ok net' /\
    forall J, leaf_values net J r -> exists p p', value net N J r = Ok (xln p) /\ value net' N J r = Ok (xln p') /\ 0 <= p <= p'.
Proof. exact training_grows_l. Qed.
Print Assumptions training_values_grow.

Example gain_case : learnable (wnet wl5) 6 0 UseQueue /\ leaf_values (wnet wl5) drawn 0 /\ mixture_of (wnet wl5) 6 0 drawn [/4; 3/4] [1/3; 2/5].
Proof. exact (conj wnet_learnable (conj drawn_values drawn_mixture)). Qed.
