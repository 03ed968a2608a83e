(** What the choice of learner and a discriminative batch step should be. *)
From Coq Require Import Reals.
From Verif Require Import Base Arith LogSpec Spn ProbSpec Struct DeriveSpec Train TrainSpec.

(** The keys of learn/parameters/parameters.go:8-13. *)
Definition hard_type (t : Z) : Prop := t = 0%Z \/ t = 2%Z.
Definition soft_type (t : Z) : Prop := t = 1%Z \/ t = 3%Z.
(** The same parameters, expectation-maximization instead of gradient descent; learn/parameters/parameters.go:8-13. *)
Definition em_key (t : Z) : Z := (t + 2)%Z.

(** [P] with another key, and with another learning rate. *)
Definition keyed {A : arith} (P : params A) (t : Z) : params A := mkParams (pnorm P) t (peta P) (pbatch P) (plambda P) (piter P).
Definition rated {A : arith} (P : params A) (e : F A) : params A := mkParams (pnorm P) (ptype P) e (pbatch P) (plambda P) (piter P).

(** The term of one instance for weight [i] of the root: the derivative of log S(Y|X) for the first weight,
    the difference of the derivatives of S for the others. *)
Definition batch_term (net : network XR) (N r : nat) (Y : list Z) (i : nat) (w : R) (I : varset) (G : R) : Prop :=
  exists D E, weight_derivative net I N r r i w D /\ weight_derivative net (without Y I) N r r i w E /\
    G = (match i with
         | O => D / lval net I (fun _ => None) N r - E / lval net (without Y I) (fun _ => None) N r
         | _ => D - E
         end)%R.
