(** Model of the constructors of /repo/spn/gaussian.go and of Sum.ComputeHard (spn/sum.go:60-78).
    A Gaussian is given by the mean and the standard deviation handed to distuv.Normal; the node
    also carries the variable, which the constructors store unchanged. Integer sums are Z (no wrap
    around). *)
From Verif Require Import Base Res Arith.
Local Open Scope Z_scope.

Section GaussNew.
Context {A : arith}.
Local Notation F := (F A).

(** Normal.Fit of gonum (distuv), which sets mean and standard deviation from a weighted sample:
    not part of gospn. *)
Variable fit : list F -> list F -> F * F.

(** spn/gaussian.go:26-28. *)
Definition newGaussianParams (mu sigma : F) : F * F := (mu, sigma).

(** spn/gaussian.go:31-48. *)
Definition newGaussianRaw (vals : list F) : F * F :=
  let n := fz (Z.of_nat (length vals)) in
  let mean := fdiv (fold_left fadd vals (fz 0)) n in
  let sd := fold_left (fun s v => let d := fsub v mean in fadd s (fmul d d)) vals (fz 0) in
  (mean, fsqrt (fdiv sd n)).

(** spn/gaussian.go:56-58, 80-82. *)
Definition countAll (counts : list Z) : Z := fold_left (fun n c => n + c) counts 0.

(** spn/gaussian.go:60-62, 84-86. The accumulator carries the loop index. *)
Definition countMean (counts : list Z) : F :=
  snd (fold_left (fun (st : Z * F) c =>
         (fst st + 1, fadd (snd st) (fmul (fdiv (fz c) (fz (countAll counts))) (fz (fst st))))) counts (0, fz 0)).

(** spn/gaussian.go:64-67; in the second constructor 90-97 the same terms. *)
Definition countSq (counts : list Z) (mean : F) : F :=
  snd (fold_left (fun (st : Z * F) c =>
         let d := fsub (fz (fst st)) mean in
         (fst st + 1, fadd (snd st) (fmul (fmul (fdiv (fz c) (fz (countAll counts))) d) d))) counts (0, fz 0)).

(** spn/gaussian.go:51-72. *)
Definition newGaussian (counts : list Z) : F * F :=
  let mean := countMean counts in (mean, fsqrt (countSq counts mean)).

(** spn/gaussian.go:75-101. The largest count is looked for in max (88-93), which is not used
    again; the variable mode is declared (76) and never assigned. *)
Definition newGaussianMode (counts : list Z) : F * F :=
  let mode := fz 0 in
  let max := fold_left (fun (m : F) c => if fgt (fz c) m then fz c else m) counts fninf in
  let mean := countMean counts in (mode, fsqrt (countSq counts mean)).

(** spn/gaussian.go:104-112. *)
Definition newGaussianFit (counts : list F) : F * F :=
  fit (map (fun i => fz (Z.of_nat i)) (seq 0 (length counts))) counts.

(** The search for the largest weight: spn/sum.go:63-69, over the children; None is imax < 0.
    Reading a weight beyond the list panics. *)
Definition hardMax (w : list F) (nch : nat) : res (option F) :=
  foldi (fun i (best : option F) _ =>
           wi <- idx w i;
           Ok (match best with
               | None => Some wi
               | Some m => if fgt wi m then Some wi else Some m
               end)) (repeat tt nch) None.

(** spn/sum.go:62-78, with LogZero = -inf. *)
Definition computeHard (w : list F) (nch : nat) (cv : list F) (scount : F) : res F :=
  best <- hardMax w nch;
  match best with
  | None => Ok fninf
  | Some max =>
      v <- foldi (fun i v c => wi <- idx w i; Ok (fadd v (fmul wi (fexp (fsub c max))))) cv (fz 0);
      Ok (fadd (flog (fdiv v scount)) max)
  end.
End GaussNew.
