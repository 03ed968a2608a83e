(** The chi-square distribution with any number of degrees of freedom, independently of the code: the
    function on the positive numbers that starts from 0, has density C * x^(df/2-1) * e^(-x/2) and tends
    to 1. *)
From Coq Require Import Reals.
From Verif Require Import Base.
Local Open Scope R_scope.

Definition small (f : R -> R) : Prop := forall e, 0 < e -> exists d, 0 < d /\ forall x, 0 < x < d -> Rabs (f x) < e.
Definition from_zero (f : R -> R) : Prop := f 0 = 0 /\ small f.
Definition tends (f : R -> R) (l : R) : Prop := forall e, 0 < e -> exists b, forall x, b < x -> Rabs (f x - l) < e.

(** The lower incomplete gamma function of s, and the gamma function. *)
Definition lower_gamma (s : R) (G : R -> R) : Prop :=
  from_zero G /\ forall x, 0 < x -> derivable_pt_lim G x (Rpower x (s - 1) * exp (- x)).
Definition is_gamma (s g : R) : Prop := exists G, lower_gamma s G /\ tends G g.

(** The distribution function. *)
Definition chi_cdf (df : Z) (F : R -> R) : Prop :=
  from_zero F /\ tends F 1 /\
  exists C, forall x, 0 < x -> derivable_pt_lim F x (C * (Rpower x (IZR df / 2 - 1) * exp (- (x / 2)))).
