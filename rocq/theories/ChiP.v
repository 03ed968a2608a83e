(** Model of the p-value functions of /repo/utils/indep/chisq.go:19-132 (lgamma, ugamma,
    Chisquare, Chisqr). The two incomplete gamma functions call each other; [d] bounds the depth of
    the calls and [fuel] the rounds of the series, both giving Fuel when exceeded. *)
From Verif Require Import Base Res Arith.
Local Open Scope Z_scope.

Section ChiP.
Context {A : arith}.
Local Notation F := (F A).

(** math.Gamma, the first result of math.Lgamma, math.Abs, math.NaN() and math.IsNaN: not part of
    gospn. *)
Variables (gam lgam abs : F -> F) (nan : F) (isnan : F -> bool).

(** utils/indep/chisq.go:19. *)
Definition eps : F := fdiv (fz 1) (fz 1000000000000).

(** The literal 1.1 of utils/indep/chisq.go:30 and 59. *)
Definition oneTenth : F := fdiv (fz 11) (fz 10).

(** utils/indep/chisq.go:49-53; r++ is r+1. *)
Fixpoint series (fuel : nat) (x r c pws : F) : res F :=
  if fgt (fdiv c pws) eps then
    match fuel with
    | O => Fuel
    | S k => let r' := fadd r (fz 1) in let c' := fmul c (fdiv x r') in series k x r' c' (fadd pws c')
    end
  else Ok pws.

(** utils/indep/chisq.go:37-54. *)
Definition lowerSum (fuel : nat) (x s : F) (regularized : bool) : res F :=
  let e := fsub (fmul s (flog x)) x in
  let ft := fexp (if regularized then fsub e (lgam s) else e) in
  pws <- series fuel x s (fz 1) (fz 1);
  Ok (fdiv (fmul pws ft) s).

(** utils/indep/chisq.go:71-82: the rounds left are [n], the next one is round [i]. *)
Fixpoint fraction (n : nat) (i : Z) (x s f C D : F) : F :=
  match n with
  | O => f
  | S k =>
      let a := fmul (fz i) (fsub s (fz i)) in
      let b := fsub (fadd (fadd (fz (2 * i)) (fz 1)) x) s in
      let D' := fdiv (fz 1) (fadd b (fmul a D)) in
      let C' := fadd b (fdiv a C) in
      let chg := fmul C' D' in
      let f' := fmul f chg in
      if fgt eps (abs (fsub chg (fz 1))) then f' else fraction k (i + 1) x s f' C' D'
  end.

(** utils/indep/chisq.go:66-88. *)
Definition upperFrac (x s : F) (regularized : bool) : F :=
  let f0 := fsub (fadd (fz 1) x) s in
  let f := fraction (Z.to_nat 9999) 1 x s f0 f0 (fz 0) in
  let e := fsub (fmul s (flog x)) x in
  fexp (fsub (if regularized then fsub e (lgam s) else e) (flog f)).

(** utils/indep/chisq.go:22-55 and 58-88. *)
Fixpoint lgamma (d fuel : nat) (x s : F) (regularized : bool) : res F :=
  match d with
  | O => Fuel
  | S d =>
      if feq x (fz 0) then Ok (fz 0) else
      if (fgt (fz 0) x || fge (fz 0) s)%bool then Ok nan else
      if (fgt x oneTenth && fgt x s)%bool then
        u <- ugamma d fuel x s regularized;
        Ok (if regularized then fsub (fz 1) u else fsub (gam s) u)
      else lowerSum fuel x s regularized
  end
with ugamma (d fuel : nat) (x s : F) (regularized : bool) : res F :=
  match d with
  | O => Fuel
  | S d =>
      if (fge oneTenth x || fge s x)%bool then
        l <- lgamma d fuel x s regularized;
        Ok (if regularized then fsub (fz 1) l else fsub (gam s) l)
      else Ok (upperFrac x s regularized)
  end.

(** utils/indep/chisq.go:96-127; -x is taken as 0-x. *)
Definition chisquare (d fuel : nat) (df : Z) (cv : F) : res F :=
  if (fgt (fz 0) cv || (df <? 1))%bool then Ok (fz 0) else
  let k := fdiv (fz df) (fz 2) in
  let x := fdiv cv (fz 2) in
  if df =? 2 then Ok (fexp (fsub (fz 0) x)) else
  pval <- lgamma d fuel x k false;
  if (isnan pval || fisinf pval || fge (fdiv (fz 1) (fz 100000000)) pval)%bool
  then Ok (fdiv (fz 1) (fz 100000000000000))
  else Ok (fsub (fz 1) (fdiv pval (gam k))).

(** utils/indep/chisq.go:130-132. *)
Definition chisqr (d fuel : nat) (df : Z) (cv : F) : res F :=
  l <- lgamma d fuel (fdiv (fz df) (fz 2)) (fdiv cv (fz 2)) false;
  Ok (fdiv l (gam (fdiv (fz df) (fz 2)))).
End ChiP.
