(** The chi-square distribution with an even number of degrees of freedom, independently of the
    code. *)
From Coq Require Import Reals.
From Verif Require Import Base Arith.
Local Open Scope R_scope.

(** Pr(X^2 > cv) for 2k degrees of freedom: e^(-cv/2) * sum_{j<k} (cv/2)^j / j!. *)
Definition survival (k : nat) (cv : R) : R :=
  exp (- (cv / 2)) * sum_f_R0 (fun j => (cv / 2) ^ j / INR (fact j)) (k - 1).

(** math.Gamma at the positive integers. *)
Definition gamma_ok (gam : xreal -> xreal) : Prop := forall k : nat, gam (Fin (INR (S k))) = Fin (INR (fact k)).

(** math.Abs and math.IsNaN. *)
Definition xabs (x : xreal) : xreal := match x with Fin r => Fin (Rabs r) | PInf | NInf => PInf | NaN => NaN end.
Definition xisnan (x : xreal) : bool := match x with NaN => true | _ => false end.
