From Coq Require Import Reals.
From Verif Require Import Base Res Arith LogSpec StatsSpec GaussNew GaussNewSpec GaussNewLemmas.

(** C106: from values, the Gaussian has their mean and standard deviation; without values both are NaN. *)
Theorem gaussian_of_values :
  (forall l : list R, l <> [] -> @newGaussianRaw XR (map Fin l) = (Fin (mean_of l), Fin (sd_of l))) /\
  @newGaussianRaw XR [] = (NaN, NaN).
Proof. exact (conj raw_l raw_empty_l). Qed.
Print Assumptions gaussian_of_values.

(** C106: from counts, the same as from the values counted. *)
Theorem gaussian_of_counts :
  forall c : list Z, (forall n, In n c -> (0 <= n)%Z) -> (exists n, In n c /\ (0 < n)%Z) ->
  @newGaussian XR c = (Fin (mean_of (map IZR (sample_of c))), Fin (sd_of (map IZR (sample_of c)))) /\
  @newGaussian XR c = @newGaussianRaw XR (map (fun z => Fin (IZR z)) (sample_of c)).
Proof. exact counts_l. Qed.
Print Assumptions gaussian_of_counts.

(** C106: and the same as the maximum likelihood fit NewGaussianFit asks for. *)
Theorem gaussian_of_fit :
  forall (fit : list xreal -> list xreal -> xreal * xreal) (c : list Z), fits_weighted fit ->
  (forall n, In n c -> (0 <= n)%Z) -> (exists n, In n c /\ (0 < n)%Z) ->
  @newGaussianFit XR fit (map (fun n => Fin (IZR n)) c) = @newGaussian XR c.
Proof. exact fit_l. Qed.
Print Assumptions gaussian_of_fit.

Example gaussian_case : (forall n, In n [2; 0; 1]%Z -> (0 <= n)%Z) /\ (exists n, In n [2; 0; 1]%Z /\ (0 < n)%Z) /\ sample_of [2; 0; 1]%Z = [0; 0; 2]%Z.
Proof. split; [simpl; intuition lia|]. split; [exists 2%Z; simpl; intuition lia|reflexivity]. Qed.

Example gaussian_fit_case : exists fit, fits_weighted fit.
Proof.
  exists (fun x w => let r := map (fun v => match v with Fin a => a | _ => 0%R end) in
          (Fin (weighted_mean (r x) (r w)), Fin (weighted_sd (r x) (r w)))).
  intros x w _ _ _. cbv zeta. rewrite !map_map, !map_id. reflexivity.
Qed.

(** C106: NewGaussianMode is to centre the Gaussian on the mode; here category 2 is the only mode and the centre is 0. *)
Theorem gaussian_mode_refuted : exists c, (forall n, In n c -> (0 <= n)%Z) /\ (exists n, In n c /\ (0 < n)%Z) /\
  mode_of c 2 /\ (forall m, mode_of c m -> m = 2) /\ fst (@newGaussianMode XR c) = Fin 0%R.
Proof. exact mode_refuted_l. Qed.
Print Assumptions gaussian_mode_refuted.

(** C106: it is right exactly when category 0 is a mode. *)
Theorem gaussian_mode_partial :
  forall c : list Z, (forall n, In n c -> (0 <= n)%Z) -> (exists n, In n c /\ (0 < n)%Z) ->
  (exists m, mode_of c m /\ fst (@newGaussianMode XR c) = Fin (INR m)) <-> mode_of c 0.
Proof. exact mode_iff_l. Qed.
Print Assumptions gaussian_mode_partial.

Example gaussian_mode_case : mode_of [4; 1; 4]%Z 0.
Proof. exists 4%Z. split; auto. simpl. intuition lia. Qed.

(** C107: ComputeHard is the logarithm of the weighted sum over scount, minus infinity if that is zero. *)
Theorem hard_sum_value :
  forall (w : list R) (nch : nat) (cv : list xreal) (scount : R), 0 < nch <= length w -> length cv <= length w ->
  (forall x, In x w -> (0 <= x)%R) -> (forall x, In x cv -> logval x) -> (0 < scount)%R ->
  @computeHard XR (map Fin w) nch cv (Fin scount) = Ok (xln (dot w (map lin cv) / scount)).
Proof. exact computeHard_l. Qed.
Print Assumptions hard_sum_value.

(** C107: a sum without children has value zero. *)
Theorem hard_sum_childless :
  forall (A : arith) (w cv : list (F A)) (scount : F A), computeHard w 0 cv scount = Ok fninf.
Proof. exact computeHard_childless_l. Qed.
Print Assumptions hard_sum_childless.

Example hard_sum_case : @computeHard XR (map Fin [3; 1]%R) 2 [Fin (ln 2); NInf] (Fin 4) = Ok (Fin (ln (3 / 2))).
Proof. exact computeHard_case_l. Qed.

(** C107: the exponentials are shifted by the largest weight, not by the largest value, so with a
    weight of 1000 a value of one underflows to zero. *)
Theorem hard_sum_underflow_refuted : exists w : R, (0 < w)%R /\
  @computeHard XR [Fin w] 1 [Fin 0%R] (Fin w) = Ok (Fin 0%R) /\ @computeHard UR [Fin w] 1 [Fin 0%R] (Fin w) = Ok NInf.
Proof. exact computeHard_underflow_l. Qed.
Print Assumptions hard_sum_underflow_refuted.
