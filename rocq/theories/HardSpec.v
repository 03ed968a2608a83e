(** What DeriveHard and Sc should do. *)
From Verif Require Import Base Arith GraphSpec Spn ProbSpec MapSpec.

Section HardSpec.
Context {A : arith}.
Variable net : network A.

(** Position [l] of [x] is a sum edge of the tree selected by [T] from [r]. *)
Definition chosen_edge (T : nat -> option nat) (r x : nat) (l : Z) : Prop :=
  reach (followed net T) r x /\ (exists w, nk (net x) = KSum w) /\ exists i, T x = Some i /\ l = Z.of_nat i.

(** [s] lists the variables of the leaves below [u]. *)
Definition scope_list (u : nat) (s : list Z) : Prop := forall x, In x s <-> in_scope net u x.

(** The scopes held in the nodes below [r] are right, and the sum nodes have one. *)
Definition scopes_held (c : nat -> option (list Z)) (r : nat) : Prop :=
  forall u, reach (children net) r u ->
    (forall s, c u = Some s -> scope_list u s) /\
    (forall w, nk (net u) = KSum w -> c u <> None).
End HardSpec.
