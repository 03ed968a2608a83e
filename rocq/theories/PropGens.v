(** C53: the learner of Gens and Domingos. *)
From Coq Require Import QArith Reals.
From Verif Require Import Base Res Arith Spn Build GoMap DataSpec DennisSpec Gens GensSpec GensLemmas GensCases SerialCases.
Local Open Scope nat_scope.

(** C53, k-means, categorical leaves: learning returns, and what it returns is valid. *)
Theorem gens_valid :
  forall (A : arith) ordS ordD km rnd chi2 (toInt : F A -> Z) logProb trunc round ufuel fuel k mp pval eps Sc D,
  admissible ordS ordD rnd toInt -> (0 < k)%Z -> uses_all_labels k km -> learnable Sc D ->
  length Sc + length D < fuel -> length Sc * length Sc < ufuel -> length D * length D + 2 * length D + 2 <= ufuel ->
  exists t, learn ordS ordD km rnd chi2 toInt logProb trunc round ufuel k mp pval eps fuel Sc D = Ok t /\ valid_over Sc t.
Proof. exact @learn_l. Qed.
Print Assumptions gens_valid.

Example gens_case : @admissible QA oS oD first qInt /\ @uses_all_labels (list (F QA)) 2 alternate /\ learnable sc2 rows4 /\
  exists t, @learn QA oS oD alternate first dependent qInt (fun _ _ _ => 0%Q) (fun _ => 0%Z) (fun _ => 0%Z) 100 2 1 (1 # 2)%Q 1%Q 7 sc2 rows4 = Ok t /\
    arity t = 2 /\ shape t = [[2]; [2]]%Z.
Proof. exact (conj admissible_q (conj alternate_all (conj learnable_4 qlearn_4))). Qed.

(** C53, Gaussian leaves. *)
Theorem gens_gauss_valid :
  forall (A : arith) ordS ordD km rnd chi2 (toInt : F A -> Z) logProb trunc round ufuel fuel k mp pval eps Sc D g,
  admissible ordS ordD rnd toInt -> (0 < k)%Z -> uses_all_labels k km -> learnable Sc D -> (0 < g)%Z ->
  length Sc + length D < fuel -> length Sc * length Sc < ufuel -> length D * length D + 2 * length D + 2 <= ufuel ->
  exists t, learnGauss ordS ordD km rnd chi2 toInt logProb trunc round ufuel k mp pval eps fuel g Sc D = Ok t /\ valid_over Sc t.
Proof. exact @learnGauss_l. Qed.
Print Assumptions gens_gauss_valid.

(** C53, DBSCAN: valid, or a panic ... *)
Theorem gens_dbscan_partial :
  forall (A : arith) ordS ordD km rnd chi2 (toInt : F A -> Z) logProb trunc round ufuel fuel k mp pval eps Sc D,
  admissible ordS ordD rnd toInt -> (k <= 0)%Z -> learnable Sc D ->
  length Sc + length D < fuel -> length Sc * length Sc < ufuel -> length D * length D + 2 * length D + 2 <= ufuel ->
  (exists t, learn ordS ordD km rnd chi2 toInt logProb trunc round ufuel k mp pval eps fuel Sc D = Ok t /\ valid_over Sc t) \/
  learn ordS ordD km rnd chi2 toInt logProb trunc round ufuel k mp pval eps fuel Sc D = Panic.
Proof. exact @learn_dbscan. Qed.
Print Assumptions gens_dbscan_partial.

(** ... and it does panic, on two rows. *)
Theorem gens_dbscan_refuted :
  exists (A : arith) ordS ordD km rnd chi2 (toInt : F A -> Z) logProb trunc round ufuel mp pval eps Sc D fuel,
  admissible ordS ordD rnd toInt /\ learnable Sc D /\
  length Sc + length D < fuel /\ length Sc * length Sc < ufuel /\ length D * length D + 2 * length D + 2 <= ufuel /\
  learn ordS ordD km rnd chi2 toInt logProb trunc round ufuel 0 mp pval eps fuel Sc D = Panic.
Proof. exact dbscan_panics_l. Qed.
Print Assumptions gens_dbscan_refuted.

(** C53: if k-means may leave a cluster empty, learning need not end. *)
Theorem gens_terminates_refuted :
  exists (A : arith) ordS ordD km rnd chi2 (toInt : F A -> Z) logProb trunc round ufuel k mp pval eps Sc D,
  admissible ordS ordD rnd toInt /\ learnable Sc D /\ (0 < k)%Z /\
  (forall p M, exists G, km p M = Ok G /\ length G = length M /\ forall g, In g G -> (0 <= g < k)%Z) /\
  forall fuel, learn ordS ordD km rnd chi2 toInt logProb trunc round ufuel k mp pval eps fuel Sc D = Fuel.
Proof. exact endless_l. Qed.
Print Assumptions gens_terminates_refuted.

(** C53: shares are weights that are positive and sum to one. *)
Theorem gens_weights : forall net z, share_weights (A := XR) net z -> proper_weights net z.
Proof. exact shares_proper. Qed.
Print Assumptions gens_weights.

(** C53: whatever the order in which the tasks finish, the concurrent variants return the network
    of the sequential ones with the children of the root in another order. *)
Theorem gens_concurrent :
  forall (A : arith) ordS ordD km rnd chi2 (toInt : F A -> Z) logProb trunc round ufuel fuel k mp pval eps Sc D t sched,
  admissible ordS ordD rnd toInt -> (0 < k)%Z -> uses_all_labels k km -> learnable Sc D ->
  length Sc + length D <= fuel -> length Sc * length Sc < ufuel -> length D * length D + 2 * length D + 2 <= ufuel ->
  learn ordS ordD km rnd chi2 toInt logProb trunc round ufuel k mp pval eps (S fuel) Sc D = Ok t ->
  Permutation sched (seq 0 (arity t)) ->
  exists t', learnConcurrent ordS ordD km rnd chi2 toInt logProb trunc round ufuel k mp pval eps fuel sched Sc D = Ok t' /\
    reordered t t' /\ valid_over Sc t'.
Proof. exact @concurrent_valid. Qed.
Print Assumptions gens_concurrent.

Theorem gens_gauss_concurrent :
  forall (A : arith) ordS ordD km rnd chi2 (toInt : F A -> Z) logProb trunc round ufuel fuel k mp pval eps Sc D g t sched,
  admissible ordS ordD rnd toInt -> (0 < k)%Z -> uses_all_labels k km -> learnable Sc D -> (0 < g)%Z ->
  length Sc + length D <= fuel -> length Sc * length Sc < ufuel -> length D * length D + 2 * length D + 2 <= ufuel ->
  learnGauss ordS ordD km rnd chi2 toInt logProb trunc round ufuel k mp pval eps (S fuel) g Sc D = Ok t ->
  Permutation sched (seq 0 (arity t)) ->
  exists t', learnGaussConcurrent ordS ordD km rnd chi2 toInt logProb trunc round ufuel k mp pval eps fuel g sched Sc D = Ok t' /\
    reordered t t' /\ valid_over Sc t'.
Proof. exact @concurrent_gauss_valid. Qed.
Print Assumptions gens_gauss_concurrent.

Example gens_swapped : Permutation [1; 0] (seq 0 2) /\
  exists t, @learnConcurrent QA oS oD alternate first dependent qInt (fun _ _ _ => 0%Q) (fun _ => 0%Z) (fun _ => 0%Z) 100 2 1 (1 # 2)%Q 1%Q 6 [1; 0] sc2 rows4 = Ok t /\ arity t = 2.
Proof. exact (conj (perm_swap 0 1 []) qlearn_swap). Qed.
