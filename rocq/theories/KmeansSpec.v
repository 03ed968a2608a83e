(** What k-means should return. *)
From Coq Require Import Permutation.
From Verif Require Import Base Res Arith.
Local Open Scope Z_scope.

(** The rows of a matrix with their numbers. *)
Definition numbered {T} (D : list T) : list (Z * T) := combine (map Z.of_nat (seq 0 (length D))) D.

(** [k] clusters that hold every row exactly once, under its number. *)
Definition splits {T} (k : nat) (D : list T) (C : list (list (Z * T))) : Prop :=
  length C = k /\ Permutation (concat C) (numbered D).

(** The mean of the rows of a cluster, added up in order; zero for an empty cluster. *)
Definition vadd {A : arith} (v w : list (F A)) : list (F A) := map (fun xy => fadd (fst xy) (snd xy)) (combine v w).
Definition total {A : arith} (n : nat) (cl : list (Z * list (F A))) : list (F A) :=
  fold_left (fun v e => vadd v (snd e)) cl (repeat (fz 0) n).
Definition centroid {A : arith} (n : nat) (cl : list (Z * list (F A))) : list (F A) :=
  match cl with
  | [] => repeat (fz 0) n
  | _ => map (fun x => fdiv x (fz (Z.of_nat (length cl)))) (total n cl)
  end.

(** No row is nearer to the centroid of another cluster than to that of its own. *)
Definition near_centroids {A : arith} (n : nat) (metric : list (F A) -> list (F A) -> res (F A)) (C : list (list (Z * list (F A)))) : Prop :=
  forall c c' cl cl' i row d d', nth_error C c = Some cl -> In (i, row) cl -> nth_error C c' = Some cl' ->
    metric row (centroid n cl) = Ok d -> metric row (centroid n cl') = Ok d' -> fgt d d' = false.

(** > is a strict order, as on float64. *)
Definition strict_order {T} (gt : T -> T -> bool) : Prop :=
  (forall x, gt x x = false) /\ forall x y z, gt x y = true -> gt y z = true -> gt x z = true.

(** Adding zero and dividing by one change nothing. *)
Definition unit_laws (A : arith) : Prop := forall x : F A, fdiv (fadd (fz 0) x) (fz 1) = x.

(** PartitionPoints of the external package labels every point with a cluster. *)
Definition labels {A : arith} (km : list (list (F A)) -> Z -> res (list Z)) (k : nat) (D : list (list (F A))) (C : list Z) : Prop :=
  km D (Z.of_nat k) = Ok C /\ length C = length D /\ forall i c, nth_error C i = Some c -> 0 <= c < Z.of_nat k.
