(** Arithmetic with rounding errors, and how far they may carry. *)
From Coq Require Import Reals.
From Verif Require Import Base Res Arith LogSpec GraphSpec Spn.
Local Open Scope R_scope.

(** Two logarithms of probabilities that differ by at most [e]; impossible only together. *)
Definition within (e : R) (x y : xreal) : Prop :=
  match x, y with NInf, NInf => True | Fin a, Fin b => Rabs (a - b) <= e | _, _ => False end.

(** The operations that evaluation uses are within [eps] of the exact ones on numbers up to [M],
    -inf is treated exactly and comparisons are exact. [real] is the number a float stands for.
    For float64, [eps] is one unit in the last place of numbers of size 2 M; a result of the
    exponential that underflows is within [eps] of the exact one. *)
Record rounding (A : arith) (real : F A -> xreal) (eps M : R) : Prop := {
  ra_zero : real (fz 0) = Fin 0;
  ra_add : forall x y a b, real x = Fin a -> real y = Fin b -> Rabs a <= M -> Rabs b <= M ->
    within eps (real (fadd x y)) (Fin (a + b));
  ra_add_inf : forall x y, (real x = NInf /\ logval (real y)) \/ (logval (real x) /\ real y = NInf) -> real (fadd x y) = NInf;
  ra_sub : forall x y a b, real x = Fin a -> real y = Fin b -> Rabs a <= M -> Rabs b <= M ->
    within eps (real (fsub x y)) (Fin (a - b));
  ra_sub_inf : forall x y b, real x = NInf -> real y = Fin b -> real (fsub x y) = NInf;
  ra_log : forall x a, real x = Fin a -> 0 < a <= M -> within eps (real (flog x)) (Fin (ln a));
  ra_log_zero : forall x, real x = Fin 0 -> real (flog x) = NInf;
  ra_exp : forall x a, real x = Fin a -> a <= 1 -> within eps (real (fexp x)) (Fin (exp a));
  ra_exp_inf : forall x, real x = NInf -> real (fexp x) = Fin 0;
  ra_gt : forall x y, logval (real x) -> logval (real y) ->
    fgt x y = match real x, real y with Fin a, Fin b => if Rlt_dec b a then true else false | Fin _, _ => true | _, _ => false end;
  ra_inf : forall x, logval (real x) -> fisinf x = match real x with NInf => true | _ => false end }.

Section Networks.
Context {A : arith}.
Variable real : F A -> xreal.

(** [net'] is the network [net] with exact numbers: the same nodes, children and weights (between 0
    and 1) below [r]; leaves whose values at [I] differ by at most [E]. *)
Definition exact_counterpart (net : network A) (net' : network XR) (r : nat) (I : varset) (E : nat -> R) : Prop :=
  (forall u, nch (net' u) = nch (net u)) /\
  forall u, reach (children net) r u ->
  match nk (net u), nk (net' u) with
  | KSum w, KSum w' => nch (net u) <> [] /\ length w = length (nch (net u)) /\ map real w = w' /\
                       exists ws, w' = map Fin ws /\ forall x, In x ws -> 0 <= x <= 1
  | KProd, KProd => True
  | KLeaf l, KLeaf l' => exists x y, lvalue l I = Some x /\ lvalue l' I = Some y /\ logval y /\ within (E u) (real x) y
  | _, _ => False
  end.

(** [E u] grows by at least what evaluation adds at [u]: the largest error of a child and 8 n + 4
    roundings for a sum of n children, the errors of all children and n roundings for a product. *)
Definition error_bound (net : network A) (r : nat) (eps : R) (E : nat -> R) : Prop :=
  forall u, reach (children net) r u -> 0 <= E u /\
  match nk (net u) with
  | KSum _ => forall c, In c (nch (net u)) -> E c + (8 * INR (length (nch (net u))) + 4) * eps <= E u
  | KProd => Rsum (map E (nch (net u))) + INR (length (nch (net u))) * eps <= E u
  | KLeaf _ => True
  end.

(** The numbers stay in the range where [eps] bounds the errors: exact finite values, logarithms of
    weights and errors are at most [B] and [X]. *)
Definition in_range (net : network A) (net' : network XR) (N r : nat) (I : varset) (eps M B X : R) (E : nat -> R) : Prop :=
  0 <= B /\ (forall u b, reach (children net) r u -> value net' N I u = Ok (Fin b) -> Rabs b <= B) /\
  (forall u ws x, reach (children net) r u -> nk (net' u) = @KSum XR (map Fin ws) -> In x ws -> 0 < x -> Rabs (ln x) <= B) /\
  (forall u, reach (children net) r u -> E u <= X) /\
  (forall u, reach (children net) r u -> (INR (length (nch (net u))) + 2) * (B + X + 1) <= M /\ INR (length (nch (net u))) * eps <= 1 / 8).
End Networks.
