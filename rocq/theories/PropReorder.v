(** C130: the order in which children are added. *)
From Coq Require Import Reals.
From Verif Require Import Base Res Arith LogSpec GraphSpec Spn SpnSpec Leaves ProbSpec ProbCases ReorderSpec ReorderLemmas ReorderCases.

(** C130: adding the children of sums (with their weights) and products in another order changes neither the value
    nor the maximum of a network, valid or not, in real arithmetic. *)
Theorem child_order_irrelevant :
  forall (net net' : network XR) (card : Z -> nat) (N r : nat) (I : varset),
  reordered net net' -> bounded (children net) N -> (r < N)%nat -> acyclic (children net) ->
  weights_nonneg net r -> discrete_leaves net card r -> evidence_ok card I ->
  exists a c, value net N I r = Ok a /\ value net' N I r = Ok a /\ max_ net N I r = Ok c /\ max_ net' N I r = Ok c.
Proof. exact reorder_l. Qed.
Print Assumptions child_order_irrelevant.

Example reorder_case :
  let net := wnet (@indLeaf XR 0 1) in let I := setvar (fun _ => None) 1 2 in
  reordered net (wnet_swapped (@indLeaf XR 0 1)) /\
  bounded (children net) 6 /\ acyclic (children net) /\ weights_nonneg net 0 /\ discrete_leaves net wcard 0 /\ evidence_ok wcard I.
Proof. exact reorder_case_l. Qed.
