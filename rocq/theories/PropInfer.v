(** C15-C17: dynamic programming inference. *)
From Coq Require Import Reals.
From Verif Require Import Base Res Arith LogSpec GraphSpec Topo Storer Spn SpnSpec SpnLemmas InferLemmas.

(** C15: false for networks sharing a node between a parent and one of its other children. *)
Theorem inference_equals_value_refuted :
  exists (net : network XR) (N r : nat) (I : varset),
    bounded (children net) N /\ r < N /\ acyclic (children net) /\
    leaves_childless net /\ sums_nonempty net /\
    value net N I r = Ok (xln (/4)) /\ inference net (2 * N + 1) r I = Ok (xln (/2)).
Proof. exact inference_refuted_l. Qed.
Print Assumptions inference_equals_value_refuted.

(** C15, for every arithmetic, bit for bit, including which calls panic: equal when no child is
    reachable from a later sibling (in particular on trees and layered networks, see
    layered_networks_siblings_ok and trees_siblings_ok). *)
Theorem inference_equals_value_partial :
  forall (A : arith) (net : network A) (N r : nat) (I : varset),
    bounded (children net) N -> r < N -> acyclic (children net) -> siblings_ok (children net) ->
    leaves_childless net -> nch (net r) <> [] ->
    inference net (2 * N + 1) r I = value net N I r /\ value net N I r <> Fuel.
Proof. exact @inference_value_l. Qed.
Print Assumptions inference_equals_value_partial.

(** The recursive evaluation does not depend on the fuel. *)
Theorem value_is_well_defined :
  forall (A : arith) (net : network A) (N r : nat) (I : varset),
    bounded (children net) N -> r < N -> acyclic (children net) ->
    forall fuel, N <= fuel -> value net fuel I r = value net N I r /\ value net fuel I r <> Fuel.
Proof. exact @value_fuel_l. Qed.
Print Assumptions value_is_well_defined.

(** C16 *)
Theorem store_inference_stores_values :
  forall (A : arith) (net : network A) (N r : nat) (I : varset) (tk : Z) (st : storer (F A)) ops,
  run_state (ustep (F A) (fz 0)) (newStorer (F A)) ops = Some st ->
  bounded (children net) N -> r < N -> acyclic (children net) -> siblings_ok (children net) ->
  leaves_childless net -> sums_nonempty net -> nch (net r) <> [] ->
  ((0 <= tk)%Z -> snd (table (F A) st tk) = true) ->
  (value net N I r = Panic /\ storeInference net (2 * N + 1) r I tk st = Panic) \/
  exists st' tk', storeInference net (2 * N + 1) r I tk st = Ok (st', (Some r, tk')) /\
    tk' = (if (tk <? 0)%Z then tickets (F A) st else tk) /\
    (forall u, reach (children net) r u ->
       exists v, value net N I u = Ok v /\ sSingle (F A) (fz 0) st' tk' u = (v, true)) /\
    (forall k x l, k <> tk' -> sEntry (F A) (fz 0) st' k x l = sEntry (F A) (fz 0) st k x l) /\
    (forall x l, (0 <= tk)%Z -> (l <> 0%Z \/ ~ reach (children net) r x) ->
       sEntry (F A) (fz 0) st' tk' x l = sEntry (F A) (fz 0) st tk' x l).
Proof. exact @storeInference_l. Qed.
Print Assumptions store_inference_stores_values.

(** C17 *)
Theorem inferenceY_is_override :
  forall (A : arith) (net : network A) (fuel r : nat) (I : varset) (Y y : Z),
  (forall u l, nk (net u) = KLeaf l -> univariate l) ->
  inferenceY net fuel r I Y y = inference net fuel r (setvar I Y y).
Proof. exact @inferenceY_l. Qed.
Print Assumptions inferenceY_is_override.

(** A layered network with a shared leaf satisfying all hypotheses: sum over two products
    sharing their leaves. *)
Example infer_case :
  bounded (children ex_net) 5 /\ acyclic (children ex_net) /\ siblings_ok (children ex_net) /\
  leaves_childless ex_net /\ sums_nonempty ex_net /\ nch (ex_net 0) <> [] /\
  (forall u l, nk (ex_net u) = KLeaf l -> univariate l) /\
  inference ex_net 11 0 (setvar (setvar (fun _ => None) 0 1) 1 0) = Ok 10%Z /\
  inferenceY ex_net 11 0 (setvar (fun _ => None) 0 1) 1 0 = Ok 10%Z.
Proof. exact ex_net_case. Qed.
