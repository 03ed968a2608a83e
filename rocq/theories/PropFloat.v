From Coq Require Import Reals.
From Verif Require Import Base Res Arith LogSpec GraphSpec Spn SpnSpec FloatSpec FloatLemmas FloatNet FloatCases.
Local Open Scope R_scope.

(** C117: whatever the rounding of the machine's numbers, as long as every operation is within [eps]
    of the exact one, evaluation answers within the error that the structure of the network
    accumulates, and answers that a state is impossible exactly when it is. *)
Theorem value_rounding : forall (A : arith) (real : F A -> xreal) eps M B X (net : network A) (net' : network XR) N r I E,
  rounding A real eps M -> 0 <= eps -> bounded (children net) N -> (r < N)%nat -> acyclic (children net) ->
  exact_counterpart real net net' r I E -> error_bound net r eps E -> in_range net net' N r I eps M B X E ->
  exists x y, value net N I r = Ok x /\ value net' N I r = Ok y /\ within (E r) (real x) y.
Proof. exact @value_rounding_l. Qed.
Print Assumptions value_rounding.

(** The same for the evaluation with storage. *)
Theorem inference_rounding : forall (A : arith) (real : F A -> xreal) eps M B X (net : network A) (net' : network XR) N r I E,
  rounding A real eps M -> 0 <= eps -> bounded (children net) N -> (r < N)%nat -> acyclic (children net) ->
  siblings_ok (children net) -> leaves_childless net -> leaves_childless net' -> nch (net r) <> [] ->
  exact_counterpart real net net' r I E -> error_bound net r eps E -> in_range net net' N r I eps M B X E ->
  exists x y, inference net (2 * N + 1) r I = Ok x /\ inference net' (2 * N + 1) r I = Ok y /\ within (E r) (real x) y.
Proof. exact @inference_rounding_l. Qed.
Print Assumptions inference_rounding.

(** Numbers rounded down to thousandths; a product of a mixture and an indicator is known to 22
    thousandths. *)
Example rounding_case : rounding thousandths whole (1 / 1000) 20 /\
  fadd (Fin (1 / 3) : F thousandths) (Fin (1 / 3)) = Fin (666 / 1000) /\
  bounded (children rounded_net) 5 /\ acyclic (children rounded_net) /\ siblings_ok (children rounded_net) /\
  leaves_childless rounded_net /\ leaves_childless exact_net /\
  exact_counterpart whole rounded_net exact_net 0 seen mix_error /\ error_bound rounded_net 0 (1 / 1000) mix_error /\
  in_range rounded_net exact_net 5 0 seen (1 / 1000) 20 3 (1 / 2) mix_error.
Proof.
  exact (conj (thousandths_rounding 20) (conj thousandths_rounds (conj mix_bounded (conj mix_acyclic (conj mix_siblings
    (conj (mix_leaves _ _ _) (conj (mix_leaves _ _ _) (conj mix_counterpart (conj mix_bound mix_range))))))))).
Qed.
