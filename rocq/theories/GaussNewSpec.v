(** What the constructors of Gaussian leaves promise, independently of the code. *)
From Coq Require Import Reals.
From Verif Require Import Base Arith LogSpec.
Local Open Scope R_scope.

(** Mean and standard deviation of a sample of real numbers. *)
Definition mean_of (l : list R) : R := Rsum l / INR (length l).
Definition sd_of (l : list R) : R :=
  sqrt (Rsum (map (fun x => (x - mean_of l) * (x - mean_of l)) l) / INR (length l)).

(** A category no other category outnumbers. *)
Definition mode_of (counts : list Z) (m : nat) : Prop :=
  exists k, nth_error counts m = Some k /\ forall n, In n counts -> (n <= k)%Z.

(** sum_i w_i * x_i. *)
Fixpoint dot (w x : list R) : R :=
  match w, x with a :: w', b :: x' => a * b + dot w' x' | _, _ => 0 end.

(** The maximum likelihood fit to a weighted sample. *)
Definition weighted_mean (x w : list R) : R := dot w x / Rsum w.
Definition weighted_sd (x w : list R) : R :=
  sqrt (dot w (map (fun v => (v - weighted_mean x w) * (v - weighted_mean x w)) x) / Rsum w).
Definition fits_weighted (fit : list xreal -> list xreal -> xreal * xreal) : Prop :=
  forall x w : list R, length x = length w -> (forall r, In r w -> 0 <= r) -> 0 < Rsum w ->
  fit (map Fin x) (map Fin w) = (Fin (weighted_mean x w), Fin (weighted_sd x w)).

(** Exact arithmetic, except that exponentials too small for float64 are zero: math.Exp(x) is 0
    for every x below -745.14. *)
Definition UR : arith :=
  mkArith xreal (@fz XR) NInf xadd xsub xmul xdiv xlog (@flog1p XR)
          (fun x => match x with Fin r => if Rlt_dec r (-746) then Fin 0 else Fin (exp r) | _ => xexp x end)
          xsqrt xgt xge xeq xisinf.
