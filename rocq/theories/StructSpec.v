(** What the structural functions should compute. *)
From Coq Require Import Reals.
From Verif Require Import Base LogSpec GraphSpec.

(** [x] is in the scope of a childless node below [u]. *)
Definition below (ch : graph) (sc : nat -> list Z) (u : nat) (x : Z) : Prop :=
  exists v, reach ch u v /\ ch v = [] /\ In x (sc v).

(** [h] is the length of the longest downward path from [u]. *)
Definition longest (ch : graph) (u h : nat) : Prop :=
  (exists v, path_len ch u v h) /\ forall v n, path_len ch u v n -> n <= h.

(** All the paths from [r] to a node have the same length: trees and layered networks. *)
Definition uniform_depth (ch : graph) (r : nat) : Prop :=
  forall u n m, path_len ch r u n -> path_len ch r u m -> n = m.

(** [qs] is a distribution ordered like [ws]. *)
Definition normalised_like (ws qs : list R) : Prop :=
  length qs = length ws /\ (forall q, In q qs -> (0 <= q)%R) /\ Rsum qs = 1%R /\
  forall i j wi wj qi qj, nth_error ws i = Some wi -> nth_error ws j = Some wj ->
    nth_error qs i = Some qi -> nth_error qs j = Some qj -> ((wi <= wj)%R <-> (qi <= qj)%R).
