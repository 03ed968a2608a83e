From Coq Require Import Reals.
From Verif Require Import Base Res Arith ChiP ChiPSpec ChiAllSpec ChiPCases ChiAllCases ChiAllExist.
Local Open Scope R_scope.

(** C108, for odd degrees of freedom as well, where Chisquare uses the series: 1 - F, F being the
    distribution function, up to (df/2+1) * 1e-12, or 1e-14 where F times math.Gamma(df/2) is at most 1e-8.
    math.Gamma is taken as exact at df/2. Missing: the continued fraction (larger statistics) for odd
    degrees of freedom, and rounding. *)
Theorem chisquare_series_partial :
  forall gam lgam nan (df : Z) (cv : R) (F : R -> R) (g : R), (1 <= df)%Z -> df <> 2%Z -> 0 < cv -> cv <= IZR df \/ cv <= 22 / 10 ->
  chi_cdf df F -> is_gamma (IZR df / 2) g -> gam (Fin (IZR df / 2)) = Fin g ->
  exists f0, forall fuel, (f0 <= fuel)%nat -> exists v, @chisquare XR gam lgam xabs nan xisnan 2 fuel df (Fin cv) = Ok (Fin v) /\
    (F cv * g <= 1 / 100000000 -> v = 1 / 100000000000000) /\
    ((1 + (IZR df / 2 + 1) / 1000000000000) / 100000000 < F cv * g -> 1 - F cv <= v <= 1 - F cv + (IZR df / 2 + 1) / 1000000000000).
Proof. exact chi_all_l. Qed.
Print Assumptions chisquare_series_partial.

(** Its hypotheses can be met for every number of degrees of freedom: the distribution function and the
    gamma function exist, and there is only one of the first. *)
Theorem chi_square_defined : forall df, (1 <= df)%Z ->
  (exists F, chi_cdf df F) /\ (exists g, is_gamma (IZR df / 2) g) /\
  (forall F H, chi_cdf df F -> chi_cdf df H -> forall x, 0 <= x -> F x = H x).
Proof. exact chi_defined_l. Qed.
Print Assumptions chi_square_defined.

(** The closed form used for even degrees of freedom is the same distribution. *)
Theorem survival_is_cdf : forall k F, (1 <= k)%nat -> chi_cdf (2 * Z.of_nat k) F -> forall cv, 0 <= cv -> survival k cv = 1 - F cv.
Proof. exact survival_cdf_u. Qed.
Print Assumptions survival_is_cdf.

Example chisquare_series_case : exists F g, (1 <= 3)%Z /\ 3%Z <> 2%Z /\ 0 < 3 /\ 3 <= IZR 3 /\ chi_cdf 3 F /\ is_gamma (IZR 3 / 2) g /\
  (1 + (IZR 3 / 2 + 1) / 1000000000000) / 100000000 < F 3 * g.
Proof. exact chi_case_l. Qed.
