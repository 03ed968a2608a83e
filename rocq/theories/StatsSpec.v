(** Sample statistics, independently of the code. *)
From Coq Require Import Reals.
From Verif Require Import Base LogSpec.
Local Open Scope R_scope.

Definition sample_mean (l : list Z) : R := Rsum (map IZR l) / INR (length l).
Definition sample_sd (l : list Z) : R :=
  sqrt (Rsum (map (fun x => (IZR x - sample_mean l) * (IZR x - sample_mean l)) l) / INR (length l)).

(** The sample a histogram stands for: value i repeated c_i times. *)
Fixpoint sample_from (i : Z) (c : list Z) : list Z :=
  match c with [] => [] | n :: t => repeat i (Z.to_nat n) ++ sample_from (i + 1) t end.
Definition sample_of (c : list Z) : list Z := sample_from 0 c.

(** Consecutive blocks, l values each, the last taking the rest. *)
Definition consecutive {T} (blocks : list (list T)) (X : list T) : Prop := concat blocks = X.
