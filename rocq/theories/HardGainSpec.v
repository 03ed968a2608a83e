(** Networks that hard learning can work on. *)
From Coq Require Import Reals.
From Verif Require Import Base Res Arith LogSpec GraphSpec Spn SpnSpec ProbSpec TrainSpec.
Local Open Scope R_scope.

(** Every sum below [r] has one positive weight for each child, and they sum to one. *)
Definition weights_live1 (net : network XR) (r : nat) : Prop :=
  forall u w, reach (children net) r u -> nk (net u) = KSum w ->
    exists ws, w = map Fin ws /\ length ws = length (nch (net u)) /\ (forall x, In x ws -> 0 < x) /\ Rsum ws = 1.

(** A network without cycles below the sum or product [r], no node with more than [M] children. *)
Definition hard_learnable (net : network XR) (N M r : nat) : Prop :=
  bounded (children net) N /\ (r < N)%nat /\ acyclic (children net) /\ siblings_ok (children net) /\
  leaves_childless net /\ sums_nonempty net /\ nch (net r) <> [] /\ at_most M r net /\ weights_live1 net r.

(** Of two children of a sum at most one can have produced [I]. *)
Definition one_explanation (net : network XR) (N : nat) (I : varset) (r : nat) : Prop :=
  forall u w i j c c', reach (children net) r u -> nk (net u) = KSum w -> i <> j ->
    nth_error (nch (net u)) i = Some c -> nth_error (nch (net u)) j = Some c' ->
    value net N I c = Ok NInf \/ value net N I c' = Ok NInf.

(** The leaves have nothing left to choose. *)
Definition leaves_decided (net : network XR) (I : varset) (r : nat) : Prop :=
  forall u l, reach (children net) r u -> nk (net u) = KLeaf l -> lmax l I = lvalue l I.
