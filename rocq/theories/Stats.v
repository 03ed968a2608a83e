(** Model of /repo/utils/stats.go. Integer sums are Z (no wrap around). *)
From Verif Require Import Base Res Arith.
Local Open Scope Z_scope.

Section Stats.
Context {A : arith}.
Local Notation F := (F A).

(** The total of a histogram: utils/stats.go:12-14, 25-27, 44-46. *)
Definition total (c : list Z) : Z := fold_left Z.add c 0.

(** utils/stats.go:9-19. The accumulator carries the loop index. *)
Definition histMean (c : list Z) : F :=
  snd (fold_left (fun (st : Z * F) ci => (fst st + 1, fadd (snd st) (fmul (fdiv (fz ci) (fz (total c))) (fz (fst st))))) c (0, fz 0)).

(** utils/stats.go:31-35, 50-54. *)
Definition histVar (c : list Z) (m : F) : F :=
  snd (fold_left (fun (st : Z * F) ci =>
         let d := fsub (fz (fst st)) m in
         (fst st + 1, fadd (snd st) (fmul (fmul (fdiv (fz ci) (fz (total c))) d) d))) c (0, fz 0)).

(** utils/stats.go:22-37: the mean is computed as in Mean. *)
Definition histStdDev (c : list Z) : F := fsqrt (histVar c (histMean c)).

(** utils/stats.go:40-56. *)
Definition histMuSigma (c : list Z) : F * F := let m := histMean c in (m, fsqrt (histVar c m)).

(** utils/stats.go:62-68. floats.Round(x, 0) of gonum is floor(x + 1/2) for x > 0; k/m is taken
    exactly (exact for lengths below 2^52). Division by m = 0 panics, make with m < 0 panics. *)
Definition blockLen (k m : Z) : Z := if k / m <=? 1 then 1 else (2 * k + m) / (2 * m).

(** utils/stats.go:75-78: X[j] for i*l <= j < min(q, k). *)
Definition blockOf (X : list Z) (lo q : nat) : res (list Z) :=
  foldr_ (fun Q j => x <- idx X j; Ok (Q ++ [x])) (seq lo (Nat.min q (length X) - lo)) [].

(** utils/stats.go:79-92. 0.5 is 1/2. *)
Definition blockStats (Q : list Z) : F * F * F :=
  let n := fz (Z.of_nat (length Q)) in
  let mu := fdiv (fold_left (fun s x => fadd s (fz x)) Q (fz 0)) n in
  let v := fold_left (fun s x => let d := fsub (fz x) mu in fadd s (fmul d d)) Q (fz 0) in
  let sigma := fsqrt (fdiv v n) in
  (mu, if feq sigma (fz 0) then fdiv (fz 1) (fz 2) else sigma, n).

(** utils/stats.go:61-96. *)
Definition partitionQuantiles (X : list Z) (m : Z) : res (list (F * F * F)) :=
  if m <=? 0 then Panic else
  let k := length X in
  let l := Z.to_nat (blockLen (Z.of_nat k) m) in
  let M := Z.to_nat m in
  mapi (fun i _ =>
          let q := if Nat.eqb i (M - 1) then k else ((i + 1) * l)%nat in
          Q <- blockOf X (i * l) q; Ok (blockStats Q)) (repeat tt M).
End Stats.
