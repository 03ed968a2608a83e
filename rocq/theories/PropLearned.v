From Coq Require Import Reals.
From Verif Require Import Base Res Arith LogMath Spn ProbSpec Build GoMap Gens GensSpec GensCases LearnedSpec LearnedCases.
Local Open Scope nat_scope.

(** C115: the Value of what gens.Learn returns is that of the marginals of a distribution in which
    no state is impossible; for two or more variables so are the answers of spn.Inference.  Missing for the full statement: scopes of a
    single variable, for which it is false (learned_distribution_refuted). *)
Theorem learned_distribution_partial :
  forall ordS ordD km rnd chi2 toInt logProb trunc round ufuel fuel k mp pval eps Sc D card,
  @admissible XR ordS ordD rnd toInt -> (0 < k)%Z -> uses_all_labels k km -> learnable Sc D -> card_of Sc card ->
  length Sc * length Sc < ufuel -> length D * length D + 2 * length D + 2 <= ufuel ->
  length Sc + length D < fuel ->
  exists t, @learn XR ordS ordD km rnd chi2 toInt logProb trunc round ufuel k mp pval eps fuel Sc D = Ok t /\
    answers_as_distribution Sc card (valued t) /\ (2 <= length Sc -> answers_as_distribution Sc card (asked t)).
Proof. exact learned_l. Qed.
Print Assumptions learned_distribution_partial.

(** So does what the concurrent variant returns, whatever the order in which its tasks finish. *)
Theorem learned_concurrently_partial :
  forall ordS ordD km rnd chi2 toInt logProb trunc round ufuel fuel k mp pval eps Sc D card,
  @admissible XR ordS ordD rnd toInt -> (0 < k)%Z -> uses_all_labels k km -> learnable Sc D -> card_of Sc card ->
  length Sc * length Sc < ufuel -> length D * length D + 2 * length D + 2 <= ufuel ->
  forall sched t, length Sc + length D <= fuel ->
  @learn XR ordS ordD km rnd chi2 toInt logProb trunc round ufuel k mp pval eps (S fuel) Sc D = Ok t ->
  Permutation sched (seq 0 (arity t)) ->
  exists t', @learnConcurrent XR ordS ordD km rnd chi2 toInt logProb trunc round ufuel k mp pval eps fuel sched Sc D = Ok t' /\
    answers_as_distribution Sc card (valued t') /\ (2 <= length Sc -> answers_as_distribution Sc card (asked t')).
Proof. exact learned_concurrent_l. Qed.
Print Assumptions learned_concurrently_partial.

(** Over a single variable the network is one leaf, and every question about it is answered with
    the logarithm of one. *)
Theorem learned_single_variable :
  forall ordS ordD km rnd chi2 toInt logProb trunc round ufuel fuel k mp pval eps Sc D card,
  @admissible XR ordS ordD rnd toInt -> (0 < k)%Z -> uses_all_labels k km -> learnable Sc D -> card_of Sc card ->
  length Sc * length Sc < ufuel -> length D * length D + 2 * length D + 2 <= ufuel ->
  forall x v, Sc = [(x, v)] -> (2 <= v_cat v)%Z -> length Sc + length D < fuel ->
  exists t, @learn XR ordS ordD km rnd chi2 toInt logProb trunc round ufuel k mp pval eps fuel Sc D = Ok t /\
    (forall I, asked t I = Ok (Fin 0)) /\ ~ answers_as_distribution Sc card (asked t).
Proof. exact learned_single. Qed.
Print Assumptions learned_single_variable.

Theorem learned_distribution_refuted :
  exists ordS ordD km rnd chi2 toInt logProb trunc round ufuel fuel k mp pval eps Sc D card,
  @admissible XR ordS ordD rnd toInt /\ (0 < k)%Z /\ uses_all_labels k km /\ learnable Sc D /\ card_of Sc card /\
  length Sc + length D < fuel /\ length Sc * length Sc < ufuel /\ length D * length D + 2 * length D + 2 <= ufuel /\
  exists t, @learn XR ordS ordD km rnd chi2 toInt logProb trunc round ufuel k mp pval eps fuel Sc D = Ok t /\
    (forall I, asked t I = Ok (Fin 0)) /\ ~ answers_as_distribution Sc card (asked t).
Proof. exact learned_refuted_l. Qed.
Print Assumptions learned_distribution_refuted.

(** Four rows over two variables, clustered alternately, with maps ranged over backwards. *)
Example learned_case : @admissible XR oS oD first xInt /\ @uses_all_labels (list (F XR)) 2 alternate /\ learnable sc2 rows4 /\ card_of sc2 card2 /\ length sc2 = 2.
Proof. exact (conj admissible_x (conj alternate_x (conj learnable_4 (conj card2_ok eq_refl)))). Qed.
