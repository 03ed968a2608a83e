(** Networks that hard learning accepts, whatever the nodes that cannot be reached look like. *)
From Coq Require Import Reals.
From Verif Require Import Base Res Arith GraphSpec Spn SpnSpec PoonSpec PoonLearnSpec TrainSpec HardGainSpec.

(** No child of a node below [r] is below a later child of the same node (unless it was a child already). *)
Definition siblings_below (ch : graph) (r : nat) : Prop :=
  forall p l1 a l2 v l3, reach ch r p -> ch p = l1 ++ a :: l2 ++ v :: l3 -> ~ In v (l1 ++ a :: l2) -> ~ reach ch v a.

(** Like [hard_learnable], asking nothing of nodes that [r] does not reach. *)
Definition hard_learnable_below (net : network XR) (N M r : nat) : Prop :=
  bounded (children net) N /\ r < N /\ acyclic_from (children net) r /\ siblings_below (children net) r /\
  leaves_childless net /\ no_empty_sums net r /\ nch (net r) <> [] /\ at_most M r net /\ weights_live1 net r.
