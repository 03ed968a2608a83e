(** When the independence tests should answer what, independently of the code. *)
From Coq Require Import Reals.
From Verif Require Import Base Res Arith Indep IndepSpec ChiAllSpec.
Local Open Scope Z_scope.

(** gonum's distribution function, exact for at least one degree of freedom. *)
Definition exact_cdf (chi2 : xreal -> Z -> xreal) : Prop :=
  forall df, 1 <= df -> exists F, chi_cdf df F /\ forall x, (0 <= x)%R -> chi2 (Fin x) df = Fin (F x).

(** In the rows seen, the values a of the first and b of the second variable occur together exactly as often
    as if they had nothing to do with each other. *)
Definition unrelated_at (xs ys : list Z) (a b : Z) : Prop :=
  howmany (fun ab => (fst ab =? a) && (snd ab =? b)) (combine xs ys) * Z.of_nat (length xs) = howmany (Z.eqb a) xs * howmany (Z.eqb b) ys.

(** The same rows c times. *)
Definition again {T} (c : nat) (l : list T) : list T := concat (repeat l c).
Definition again_data (c : nat) (data : list vardata) : list vardata :=
  map (fun d => mkVD (vd_id d) (vd_cat d) (again c (vd_data d))) data.

(** Two variables that have something to do with each other in the rows seen. *)
Definition related (data : list vardata) (u v : Z) : Prop :=
  exists d e a b, In d data /\ In e data /\ vd_id d = u /\ vd_id e = v /\ 0 <= a < vd_cat d /\ 0 <= b < vd_cat e /\
    ~ unrelated_at (vd_data d) (vd_data e) a b.
