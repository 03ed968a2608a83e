From Coq Require Import Reals.
From Verif Require Import Base Res Arith ChiP ChiPSpec ChiPLemmas ChiPCases.

(** C108: Chisquare is to be the p-value Pr(X^2 > cv). At cv = 0 and 4 degrees of freedom that is 1; the
    function answers 1e-14, whatever math.Gamma is. *)
Theorem chisquare_pvalue_refuted : exists df cv, (0 <= cv)%R /\ forall gam lgam nan fuel, survival 2 cv = 1%R /\
  @chisquare XR gam lgam xabs nan xisnan 2 fuel df (Fin cv) = Ok (Fin (1 / 100000000000000)%R) /\ df = 4%Z.
Proof. exact chi_refuted_l. Qed.
Print Assumptions chisquare_pvalue_refuted.

(** C108: so it is for every small statistic: the p-value is nearly one, the answer nearly zero. *)
Theorem chisquare_small_statistic :
  forall gam lgam nan (k : nat) (cv : R), gamma_ok gam -> 2 <= k -> (0 <= cv <= 2 * INR k)%R ->
  ((1 - survival k cv) * INR (fact (k - 1)) <= 1 / 100000000)%R ->
  (99999999 / 100000000 <= survival k cv)%R /\
  exists f0, forall fuel, f0 <= fuel ->
    @chisquare XR gam lgam xabs nan xisnan 2 fuel (2 * Z.of_nat k) (Fin cv) = Ok (Fin (1 / 100000000000000)%R).
Proof. exact chi_small_l. Qed.
Print Assumptions chisquare_small_statistic.

Example chisquare_small_case : gamma_ok xgam /\ ((1 - survival 2 0) * INR (fact (2 - 1)) <= 1 / 100000000)%R.
Proof. split; [exact xgam_ok|]. rewrite survival_zero by lia. simpl. Lra.lra. Qed.

(** C108, everything else for even degrees of freedom: two of them exactly. *)
Theorem chisquare_two :
  forall gam lgam nan d fuel (cv : R), (0 <= cv)%R ->
  @chisquare XR gam lgam xabs nan xisnan d fuel 2 (Fin cv) = Ok (Fin (survival 1 cv)).
Proof. exact chi_two_l. Qed.
Print Assumptions chisquare_two.

(** C108: and 4 to 19998 of them up to df/2 * 1e-12, by the series as well as by the continued fraction,
    unless the p-value is within 2e-8 of one. Odd degrees of freedom are in
    PropChiAll.v. Missing: rounding. *)
Theorem chisquare_pvalue_partial :
  forall gam lgam nan, gamma_ok gam -> forall (k : nat) (cv : R), 2 <= k -> (Z.of_nat k <= 9999)%Z -> (0 < cv)%R ->
  (2 / 100000000 <= 1 - survival k cv)%R ->
  exists f0, forall fuel, f0 <= fuel -> exists v,
    @chisquare XR gam lgam xabs nan xisnan 2 fuel (2 * Z.of_nat k) (Fin cv) = Ok (Fin v) /\
    (Rabs (v - survival k cv) <= INR k / 1000000000000)%R.
Proof. exact chi_right_l. Qed.
Print Assumptions chisquare_pvalue_partial.

Example chisquare_pvalue_case : gamma_ok xgam /\ (2 / 100000000 <= 1 - survival 2 2)%R.
Proof. exact (conj xgam_ok survival_case). Qed.

(** C108: the incomplete gamma functions call each other at most once and their series ends, for all
    arguments, infinities and NaN included. *)
Theorem incomplete_gamma_ends :
  forall gam lgam abs nan (x s : xreal) (reg : bool), exists f0, forall fuel d, f0 <= fuel -> 2 <= d ->
  (exists v, @lgamma XR gam lgam abs nan d fuel x s reg = Ok v) /\
  (exists v, @ugamma XR gam lgam abs nan d fuel x s reg = Ok v).
Proof. exact gamma_ends_l. Qed.
Print Assumptions incomplete_gamma_ends.

(** C108: Chisqr swaps the arguments of the gamma function, so at 0, where the distribution function is 0,
    it is NaN. *)
Theorem chisqr_refuted : exists df, forall gam lgam fuel,
  (1 - survival 1 0 = 0)%R /\ df = 2%Z /\ @chisqr XR gam lgam xabs NaN 2 fuel df (Fin 0%R) = Ok NaN.
Proof. exact chisqr_refuted_l. Qed.
Print Assumptions chisqr_refuted.
