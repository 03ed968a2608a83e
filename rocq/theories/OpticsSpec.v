(** What OPTICS should do. *)
From Verif Require Import Base Arith ClusterSpec.
Local Open Scope Z_scope.

(** The Euclidean distance of integer rows, as floating point computes it. *)
Definition distance {A : arith} (p q : list Z) : F A :=
  fsqrt (fold_left (fun s xy => let l := fz (fst xy - snd xy) in fadd s (fmul l l)) (combine p q) (fz 0)).

(** The rows other than row [i] at most [eps] away from it. *)
Definition neighbours {A : arith} (eps : F A) (data : list (list Z)) (i : nat) : list nat :=
  filter (fun j => negb (Nat.eqb i j) && fge eps (distance (nth i data []) (nth j data []))) (seq 0 (length data)).

(** A core point: at least [mp] neighbours. *)
Definition core_point {A : arith} (eps : F A) (mp : Z) (data : list (list Z)) (i : nat) : Prop :=
  (i < length data)%nat /\ mp <= Z.of_nat (length (neighbours eps data i)).

(** A sorting algorithm looks at every element of a slice with more than one. *)
Definition looks_at_all {T} (compared : list T -> list (nat * nat)) : Prop :=
  forall l i, (2 <= length l)%nat -> (i < length l)%nat ->
    exists c, In c (compared l) /\ (fst c = i \/ snd c = i).

(** [inf] behaves as math.Inf(1) next to [eps]. *)
Definition infinite {A : arith} (inf eps : F A) : Prop :=
  feq inf inf = true /\ (fgt inf eps = true -> fge eps inf = false).
