(** float64 arithmetic.

    [arith] is an arbitrary interpretation of the operations gospn applies to float64 values.
    Theorems quantified over it hold bit for bit for IEEE arithmetic with any math library.

    [XR] is the interpretation by extended reals: real numbers, the two infinities and NaN, with
    the IEEE and package math rules for special values, but exact (no rounding, overflow or
    signed zeros; a division of a non-zero number by zero gives the infinity of the dividend's
    sign). *)
From Coq Require Import Reals.
From Verif Require Import Base.

Record arith := mkArith {
  F : Type;
  fz : Z -> F;              (* float64(int) and integer literals *)
  fninf : F;                (* math.Inf(-1) *)
  fadd : F -> F -> F; fsub : F -> F -> F; fmul : F -> F -> F; fdiv : F -> F -> F;
  flog : F -> F; flog1p : F -> F; fexp : F -> F; fsqrt : F -> F;
  fgt : F -> F -> bool;     (* a > b *)
  fge : F -> F -> bool;     (* a >= b *)
  feq : F -> F -> bool;     (* a == b *)
  fisinf : F -> bool        (* math.IsInf(a, 0) *)
}.
Arguments fz {a}. Arguments fninf {a}. Arguments fadd {a}. Arguments fsub {a}.
Arguments fmul {a}. Arguments fdiv {a}. Arguments flog {a}. Arguments flog1p {a}.
Arguments fexp {a}. Arguments fsqrt {a}. Arguments fgt {a}. Arguments fge {a}.
Arguments feq {a}. Arguments fisinf {a}.

Local Open Scope R_scope.

Inductive xreal := Fin (r : R) | PInf | NInf | NaN.

Definition xadd (x y : xreal) : xreal :=
  match x, y with
  | NaN, _ | _, NaN => NaN
  | Fin a, Fin b => Fin (a + b)
  | PInf, NInf | NInf, PInf => NaN
  | PInf, _ | _, PInf => PInf
  | NInf, _ | _, NInf => NInf
  end.

Definition xneg (x : xreal) : xreal :=
  match x with Fin a => Fin (- a) | PInf => NInf | NInf => PInf | NaN => NaN end.

Definition xsub (x y : xreal) : xreal := xadd x (xneg y).

(** An infinity times/over something of the given sign. *)
Definition xsign (a : R) (pos neg zero : xreal) : xreal :=
  if Rlt_dec 0 a then pos else if Rlt_dec a 0 then neg else zero.

Definition xmul (x y : xreal) : xreal :=
  match x, y with
  | NaN, _ | _, NaN => NaN
  | Fin a, Fin b => Fin (a * b)
  | Fin a, PInf | PInf, Fin a => xsign a PInf NInf NaN
  | Fin a, NInf | NInf, Fin a => xsign a NInf PInf NaN
  | PInf, PInf | NInf, NInf => PInf
  | PInf, NInf | NInf, PInf => NInf
  end.

Definition xdiv (x y : xreal) : xreal :=
  match x, y with
  | NaN, _ | _, NaN => NaN
  | Fin a, Fin b => if Req_EM_T b 0 then xsign a PInf NInf NaN else Fin (a / b)
  | Fin _, _ => Fin 0
  | PInf, Fin b => if Rlt_dec b 0 then NInf else PInf
  | NInf, Fin b => if Rlt_dec b 0 then PInf else NInf
  | _, _ => NaN
  end.

Definition xlog (x : xreal) : xreal :=
  match x with
  | NaN | NInf => NaN
  | PInf => PInf
  | Fin a => if Rlt_dec 0 a then Fin (ln a) else if Rlt_dec a 0 then NaN else NInf
  end.

Definition xexp (x : xreal) : xreal :=
  match x with NaN => NaN | PInf => PInf | NInf => Fin 0 | Fin a => Fin (exp a) end.

Definition xsqrt (x : xreal) : xreal :=
  match x with
  | NaN | NInf => NaN
  | PInf => PInf
  | Fin a => if Rlt_dec a 0 then NaN else Fin (sqrt a)
  end.

Definition xgt (x y : xreal) : bool :=
  match x, y with
  | NaN, _ | _, NaN => false
  | Fin a, Fin b => if Rlt_dec b a then true else false
  | PInf, PInf => false
  | PInf, _ => true
  | _, PInf => false
  | NInf, _ => false
  | Fin _, NInf => true
  end.

Definition xeq (x y : xreal) : bool :=
  match x, y with
  | Fin a, Fin b => if Req_EM_T a b then true else false
  | PInf, PInf | NInf, NInf => true
  | _, _ => false
  end.

Definition xge (x y : xreal) : bool := orb (xgt x y) (xeq x y).

Definition xisinf (x : xreal) : bool := match x with PInf | NInf => true | _ => false end.

Definition XR : arith :=
  mkArith xreal (fun z => Fin (IZR z)) NInf xadd xsub xmul xdiv
          xlog (fun x => xlog (xadd (Fin 1) x)) xexp xsqrt xgt xge xeq xisinf.
