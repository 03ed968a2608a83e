(** Mean and variance of a distribution on 0 .. n-1. *)
From Coq Require Import Reals.
From Verif Require Import Base LogSpec.
Local Open Scope R_scope.

Definition expectation (ps : list R) (f : R -> R) : R :=
  Rsum (map (fun i => nth i ps 0 * f (INR i)) (seq 0 (length ps))).
Definition dist_mean (ps : list R) : R := expectation ps (fun x => x).
Definition dist_stddev (ps : list R) : R :=
  sqrt (expectation ps (fun x => (x - dist_mean ps) * (x - dist_mean ps))).

(** [i] is the position of a maximum of [ps]. *)
Definition is_mode (ps : list R) (i : nat) : Prop :=
  (i < length ps)%nat /\ forall p, In p ps -> p <= nth i ps 0.
