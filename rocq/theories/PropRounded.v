From Coq Require Import QArith Reals.
From Verif Require Import Base Res Arith LogSpec GraphSpec Spn ProbSpec Codec Serial SerialSpec RoundedSpec RoundedLemmas RoundedCases.
Local Open Scope R_scope.

(** C116: numbers are saved with six decimals.  When the positive parameters of a network are at
    least [lo], the loaded network answers every question within a factor of (1 - eta)^m and
    (1 + eta)^m, where eta is half a unit of the sixth decimal (and the error of reading a decimal)
    relative to [lo], and m the number of parameters that a term multiplies.  In particular exactly
    the impossible states are impossible.  Missing for the full statement: smaller parameters, and
    that the loaded answers are those of a distribution (refuted below), and networks where a child
    is reachable from a later sibling (C32). *)
Theorem saved_answers_close_partial : forall exact near del lo (logProb : F XR -> F XR -> F XR -> F XR) (trunc round : F XR -> Z) cont ch N r m,
  reads_rationals exact near del -> (forall mu sigma x, logval (logProb mu sigma x)) ->
  0 < lo -> (5 / 10000000 + del) / lo < 1 ->
  bounded ch N -> (r < N)%nat -> (Z.of_nat N < 2 ^ 32)%Z -> (forall u, reach ch r u -> ints_ok (cont u)) ->
  acyclic ch -> siblings_ok ch -> parameters_above exact lo cont ch r -> counts_parameters cont ch r m ->
  exists msg h r', marshal exact cont ch (2 * N + 1) r = Ok msg /\ unmarshal near msg = Ok (h, Some r') /\
    forall net', describes (kind_of logProb trunc round) h net' -> forall I, within_categories cont ch r I ->
    exists p p', value (network_of (kind_of logProb trunc round) cont ch) N I r = Ok (xln p) /\
      value net' N I r' = Ok (xln p') /\ 0 <= p /\
      (1 - (5 / 10000000 + del) / lo) ^ m r * p <= p' <= (1 + (5 / 10000000 + del) / lo) ^ m r * p.
Proof. exact saved_close_l. Qed.
Print Assumptions saved_answers_close_partial.

Example saved_answers_case : reads_rationals (table_exact thirds) real_near 0 /\
  bounded (star_ch 3) 4 /\ acyclic (star_ch 3) /\ siblings_ok (star_ch 3) /\
  parameters_above (table_exact thirds) (1 / 3) (star_cont thirds) (star_ch 3) 0 /\
  counts_parameters (star_cont thirds) (star_ch 3) 0 one_each /\ within_categories (star_cont thirds) (star_ch 3) 0 state0.
Proof. exact (conj (table_reads thirds) (conj (star_bounded 3) (conj (star_acyclic 3) (conj (star_siblings 3) (conj thirds_above (conj thirds_counts thirds_within)))))). Qed.

(** A network with three weights of a third: no evidence has probability one before, and 0.999999
    after it was saved and loaded. *)
Theorem saved_distribution_refuted : forall logProb trunc round, let K := kind_of (A := XR) logProb trunc round in
  exists exact near cont ch N r, reads_rationals exact near 0 /\ bounded ch N /\ (r < N)%nat /\ acyclic ch /\ siblings_ok ch /\
  (forall u, reach ch r u -> ints_ok (cont u)) /\
  weights_nonneg (network_of K cont ch) r /\ weights_normalised (network_of K cont ch) r /\
  exists msg h r', marshal exact cont ch (2 * N + 1) r = Ok msg /\ unmarshal near msg = Ok (h, Some r') /\
    forall net', describes K h net' ->
      value (network_of K cont ch) N no_evidence r = Ok (Fin 0) /\
      value net' N no_evidence r' = Ok (Fin (ln (999999 / 1000000))).
Proof. exact thirds_refuted_l. Qed.
Print Assumptions saved_distribution_refuted.

(** A state of probability one in ten million becomes impossible. *)
Theorem saved_possible_refuted : forall logProb trunc round, let K := kind_of (A := XR) logProb trunc round in
  exists exact near cont ch N r I, reads_rationals exact near 0 /\ bounded ch N /\ (r < N)%nat /\ acyclic ch /\ siblings_ok ch /\
  (forall u, reach ch r u -> ints_ok (cont u)) /\
  weights_nonneg (network_of K cont ch) r /\ weights_normalised (network_of K cont ch) r /\
  exists msg h r', marshal exact cont ch (2 * N + 1) r = Ok msg /\ unmarshal near msg = Ok (h, Some r') /\
    forall net', describes K h net' ->
      value (network_of K cont ch) N I r = Ok (Fin (ln (1 / 10000000))) /\ value net' N I r' = Ok NInf.
Proof. exact tiny_refuted_l. Qed.
Print Assumptions saved_possible_refuted.
