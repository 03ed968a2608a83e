(** C129: evidence on variables that a network does not have. *)
From Coq Require Import Reals.
From Verif Require Import Base Res Arith LogSpec GraphSpec Spn SpnSpec Leaves ProbSpec ProbCases LocalSpec LocalLemmas LocalCases.

(** C129: for every arithmetic, every network (valid or not, even with cycles) and every random choice, what
    inference and the searches for a maximal state return and store depends only on the values of the variables below the root. *)
Theorem answers_depend_on_scope :
  forall (A : arith) (net : network A) (logProb : F A -> F A -> F A -> F A) (trunc round : F A -> Z) (r : nat) (I J : varset),
  (forall u l, reach (children net) r u -> nk (net u) = KLeaf l -> gospn_leaf logProb trunc round l) -> same_evidence net r I J ->
  forall fuel, value net fuel I r = value net fuel J r /\ max_ net fuel I r = max_ net fuel J r /\ argMax net fuel I r = argMax net fuel J r /\
    inference net fuel r I = inference net fuel r J /\
    (forall tk st, storeInference net fuel r I tk st = storeInference net fuel r J tk st) /\
    (forall rnd tk st, storeMAP net rnd fuel r I tk st = storeMAP net rnd fuel r J tk st) /\
    (forall rnd, traceMAP net rnd fuel r I = traceMAP net rnd fuel r J).
Proof. exact local_l. Qed.
Print Assumptions answers_depend_on_scope.

Example local_case :
  forall (logProb : xreal -> xreal -> xreal -> xreal) (trunc round : xreal -> Z),
  let net := wnet (@gaussLeaf XR logProb trunc round 0 (Fin 2) (Fin 1)) in
  let I := setvar (fun _ => None) 1 2 in let J := setvar I 9 7 in
  (forall u l, reach (children net) 0 u -> nk (net u) = KLeaf l -> @gospn_leaf XR logProb trunc round l) /\ same_evidence net 0 I J /\ I 9%Z <> J 9%Z.
Proof. exact local_case_l. Qed.
