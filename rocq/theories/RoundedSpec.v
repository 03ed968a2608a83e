(** How far the answers of a loaded network may be from those of the saved one. *)
From Coq Require Import QArith Qreals Reals.
From Verif Require Import Base Res Arith LogSpec GraphSpec Spn Leaves Codec SerialSpec.
Local Open Scope R_scope.

(** Floating-point numbers are rational, and a decimal is read as a number within [del] of it, zero as zero. *)
Definition reads_rationals (exact : F XR -> num) (near : num -> F XR) (del : R) : Prop :=
  (forall w q, exact w = Val q -> w = Fin (Q2R q)) /\
  (forall d, exists x, near (Val (sixth d)) = Fin x /\ Rabs (x - Q2R (sixth d)) <= del) /\
  near (Val (sixth 0)) = Fin 0.

(** A parameter that is zero or at least [lo]. *)
Definition zero_or_above (exact : F XR -> num) (lo : R) (w : F XR) : Prop :=
  exists q, exact w = Val q /\ (Q2R q = 0 \/ lo <= Q2R q).

(** Sums have children and a weight for each; all weights and probabilities are zero or at least [lo]. *)
Definition parameters_above (exact : F XR -> num) (lo : R) (cont : nat -> content XR) (ch : graph) (r : nat) : Prop :=
  forall u, reach ch r u ->
  match cont u with
  | CSum w => ch u <> [] /\ length w = length (ch u) /\ Forall (zero_or_above exact lo) w
  | CMulti m => Forall (zero_or_above exact lo) (m_pr m)
  | _ => True
  end.

(** [m u] is at least the number of parameters that any term of the polynomial of node [u] multiplies. *)
Definition counts_parameters (cont : nat -> content XR) (ch : graph) (r : nat) (m : nat -> nat) : Prop :=
  forall u, reach ch r u ->
  match cont u with
  | CSum _ => forall c, In c (ch u) -> (1 + m c <= m u)%nat
  | CProd => (fold_right Nat.add 0 (map m (ch u)) <= m u)%nat
  | CMulti _ => (1 <= m u)%nat
  | _ => True
  end.

(** The values of the evidence are categories of the multinomials. *)
Definition within_categories (cont : nat -> content XR) (ch : graph) (r : nat) (I : varset) : Prop :=
  forall u m v, reach ch r u -> cont u = CMulti m -> I (m_varid m) = Some v -> (0 <= v < Z.of_nat (length (m_pr m)))%Z.
