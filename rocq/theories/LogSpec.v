(** Linear-space meaning of log-space values. *)
From Coq Require Import Reals.
From Verif Require Import Base Arith.
Local Open Scope R_scope.

(** The number whose logarithm is [x]: exp(-inf) = 0. *)
Definition lin (x : xreal) : R := match x with Fin r => exp r | _ => 0 end.

(** The logarithm of a non-negative number: ln 0 = -inf. *)
Definition xln (x : R) : xreal := if Rlt_dec 0 x then Fin (ln x) else NInf.

Fixpoint Rsum (l : list R) : R := match l with [] => 0 | x :: t => x + Rsum t end.
Fixpoint Rprod (l : list R) : R := match l with [] => 1 | x :: t => x * Rprod t end.

(** A log-space number: a real or -inf. *)
Definition logval (x : xreal) : Prop := match x with Fin _ | NInf => True | _ => False end.

(** Sum of signed terms sign_i * exp(v_i). *)
Fixpoint signed_sum (v : list xreal) (s : list Z) : R :=
  match v, s with
  | x :: v', z :: s' => IZR z * lin x + signed_sum v' s'
  | _, _ => 0
  end.

(** Signs accepted by LogSumLog. *)
Definition signok (s : Z) : Prop := (s = -1 \/ s = 0 \/ s = 1)%Z.
