(** C127: conditional probabilities. *)
From Coq Require Import Reals.
From Verif Require Import Base Res Arith LogSpec GraphSpec Spn SpnSpec Leaves ProbSpec ProbCases CondSpec CondLemmas CondCases.
Local Open Scope R_scope.

(** C127: setting more variables never raises Value or Max, whether the network is valid or not. *)
Theorem evidence_monotone :
  forall (net : network XR) (card : Z -> nat) (N r : nat) (I J : varset),
  bounded (children net) N -> (r < N)%nat -> acyclic (children net) ->
  weights_nonneg net r -> discrete_leaves net card r ->
  evidence_ok card I -> evidence_ok card J -> extends I J ->
  exists a b c d, value net N I r = Ok a /\ value net N J r = Ok b /\ xge a b = true /\
    max_ net N I r = Ok c /\ max_ net N J r = Ok d /\ xge c d = true.
Proof. exact evidence_mono_l. Qed.
Print Assumptions evidence_monotone.

(** C127: the best explanation of the evidence is never more likely than the evidence. *)
Theorem max_below_value :
  forall (net : network XR) (card : Z -> nat) (N r : nat) (I : varset),
  bounded (children net) N -> (r < N)%nat -> acyclic (children net) ->
  weights_nonneg net r -> discrete_leaves net card r -> evidence_ok card I ->
  exists a c, value net N I r = Ok a /\ max_ net N I r = Ok c /\ xge a c = true.
Proof. exact max_below_value_l. Qed.
Print Assumptions max_below_value.

(** C127: in a valid network the differences of log-values with and without [x] are the logarithms of a
    distribution over the values of [x]; the weights need not be normalised. *)
Theorem conditional_distribution :
  forall (net : network XR) (card : Z -> nat) (N r : nat) (I : varset) (x : Z) (y : R),
  bounded (children net) N -> (r < N)%nat -> acyclic (children net) ->
  weights_nonneg net r -> discrete_leaves net card r -> complete net r -> decomposable net r ->
  evidence_ok card I -> I x = None -> in_scope net r x -> value net N I r = Ok (Fin y) ->
  exists c : nat -> R, (forall v, (v < card x)%nat -> 0 <= c v <= 1 /\
      exists z, value net N (also I x (Z.of_nat v)) r = Ok z /\ xexp (xsub z (Fin y)) = Fin (c v)) /\
    Rsum (map c (seq 0 (card x))) = 1.
Proof. exact conditional_l. Qed.
Print Assumptions conditional_distribution.

(** A network with a shared leaf and an indicator: variable 1 is set to 2, then variable 0 to 1 as well. *)
Example cond_case :
  let net := wnet (@indLeaf XR 0 1) in let I := setvar (fun _ => None) 1 2 in
  bounded (children net) 6 /\ acyclic (children net) /\ weights_nonneg net 0 /\ discrete_leaves net wcard 0 /\ complete net 0 /\ decomposable net 0 /\
  evidence_ok wcard I /\ evidence_ok wcard (also I 0 1) /\ extends I (also I 0 1) /\ I 0%Z = None /\ in_scope net 0 0%Z /\
  exists y, value net 6 I 0 = Ok (Fin y).
Proof. exact cond_case_l. Qed.
