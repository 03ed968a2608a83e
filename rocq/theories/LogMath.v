(** Model of /repo/utils/log.go over an arbitrary arithmetic. LogZero is math.Inf(-1) (line 14)
    and is assumed never reassigned. *)
From Verif Require Import Base Res Arith.

Section LogMath.
Context {A : arith}.
Local Notation F := (F A).

(** utils/log.go:111-127. a[0] of an empty slice panics. *)
Definition logSumExp (a : list F) : res F :=
  max0 <- idx a 0;
  let max := fold_left (fun m v => if fgt v m then v else m) a max0 in
  if fisinf max then Ok max
  else Ok (fadd (flog (fold_left (fun l v => fadd l (fexp (fsub v max))) a (fz 0))) max).

(** utils/log.go:130-144. *)
Definition logSumExpPair (l r : F) : F :=
  let (max, min) := if fge l r then (l, r) else (r, l) in
  if fisinf max then max
  else if fisinf min then max
  else fadd (flog (fadd (fz 1) (fexp (fsub min max)))) max.

(** utils/log.go:19-40. [s] is indexed in lockstep with [v] (s[i] panics if shorter). *)
Definition logSumLog (v : list F) (s : list Z) : res (F * Z) :=
  st <- foldi (fun i (st : F * Z * Z) vi =>
          let '(max, imax, simax) := st in
          si <- idx s i;
          Ok (if andb (negb (si =? 0)%Z) (fgt vi max) then (vi, Z.of_nat i, si) else st))
        v (fninf, (-1)%Z, 1%Z);
  let '(p, imax, simax) := st in
  if (imax =? -1)%Z then Ok (fz 0, 0%Z)
  else
    r <- foldi (fun i r vi =>
          si <- idx s i;
          Ok (if andb (negb (Z.of_nat i =? imax)%Z) (negb (si =? 0)%Z)
              then fadd r (fmul (fmul (fexp (fsub vi p)) (fz si)) (fz simax)) else r))
         v (fz 0);
    if fgt (fz (-1)) r then Ok (fadd p (flog (fsub (fz (-1)) r)), (- simax)%Z)
    else Ok (fadd p (flog1p r), simax).

(** utils/log.go:45-61. *)
Definition logSum (p : list F) : F :=
  let pi := fold_left (fun pi x => let lp := flog x in if fgt lp pi then lp else pi) p fninf in
  let lg := fold_left (fun lg x => fadd lg (fexp (fsub (flog x) pi))) p (fz 0) in
  fadd pi (flog lg).

(** utils/log.go:66-75. *)
Fixpoint logProd_from (lg : F) (p : list F) : F :=
  match p with
  | [] => lg
  | v :: t => if feq v fninf then v else logProd_from (fadd lg (flog v)) t
  end.
Definition logProd (p : list F) : F := logProd_from (fz 0) p.

(** utils/log.go:82-84. *)
Definition antiLog (l : F) : F := fexp l.

(** utils/log.go:88-90. *)
Definition logSumPair (p1 p2 : F) : F := fadd (flog p1) (flog (fadd (fz 1) (fdiv p2 p1))).

(** utils/log.go:99-108. The slice is edited in place: element [i] is exchanged with the last
    one and the slice shortened. [k] counts down the iterations, i = k - 1. *)
Fixpoint trim_loop (k : nat) (a : list F) (c : F) : res (list F) :=
  match k with
  | O => Ok a
  | S i =>
      ai <- idx a i;
      if feq ai c then
        let n := length a - 1 in
        an <- idx a n;
        trim_loop i (firstn n (set_nth i an (set_nth n ai a))) c
      else trim_loop i a c
  end.
Definition trim (a : list F) (c : F) : res (list F) := trim_loop (length a) a c.
End LogMath.
