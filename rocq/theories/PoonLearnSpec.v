(** What the Poon-Domingos learner should return. *)
From Coq Require Import Reals.
From Verif Require Import Base Res Arith GraphSpec Spn SpnSpec ProbSpec PoonSpec.
Local Open Scope Z_scope.

(** Every sum below [z] has one weight per child, each equal to 1. *)
Definition unit_weights {A : arith} (net : network A) (z : nat) : Prop :=
  forall u ws, reach (children net) z u -> nk (net u) = KSum ws -> length ws = length (nch (net u)) /\ Forall (eq (fz 1)) ws.

(** A network over exactly the pixels of a [w] by [h] image: complete, decomposable, without cycles. *)
Definition image_network {A : arith} (w h : Z) (net : network A) (z : nat) : Prop :=
  (forall p, in_scope net z p <-> 0 <= p < w * h) /\ complete net z /\ decomposable net z /\ acyclic_from (children net) z.

(** Sums below [z] have children. *)
Definition no_empty_sums {A : arith} (net : network A) (z : nat) : Prop :=
  forall u ws, reach (children net) z u -> nk (net u) = KSum ws -> nch (net u) <> [].

(** A log-density with mean, deviation and point: finite for a positive deviation, NaN for NaN parameters. *)
Definition log_density (f : xreal -> xreal -> xreal -> xreal) : Prop :=
  (forall mu sd x, (0 < sd)%R -> exists y, f (Fin mu) (Fin sd) (Fin x) = Fin y) /\
  (forall x, f NaN NaN x = NaN).

(** rand.Intn. *)
Definition draws (rnd : nat -> nat -> nat) : Prop := forall c n, (0 < n)%nat -> (rnd c n < n)%nat.
