(** C34, C35: utils/log.go. *)
From Coq Require Import Reals Lra.
From Verif Require Import Base Res Arith LogMath LogSpec LogLemmas.
Local Open Scope R_scope.

(** C34 *)
Theorem log_sum_exp_is_log_of_sum :
  forall a : list xreal, a <> [] -> (forall x, In x a -> logval x) ->
  @logSumExp XR a = Ok (xln (Rsum (map lin a))).
Proof. exact logSumExp_l. Qed.
Print Assumptions log_sum_exp_is_log_of_sum.

Example log_sum_exp_case :
  @logSumExp XR [Fin (ln 2); NInf; Fin (ln 3)] = Ok (Fin (ln 5)).
Proof. exact log_sum_exp_case_l. Qed.

Theorem log_sum_exp_pair :
  forall l r : xreal, logval l -> logval r -> @logSumExpPair XR l r = xln (lin l + lin r).
Proof. exact logSumExpPair_l. Qed.
Print Assumptions log_sum_exp_pair.

(** The returned sign times the exponential of the returned value is the signed sum. *)
Theorem log_sum_log_is_signed_sum :
  forall (v : list xreal) (s : list Z),
  (forall x, In x v -> logval x) -> length s = length v -> (forall z, In z s -> signok z) ->
  exists l sg, @logSumLog XR v s = Ok (l, sg) /\ logval l /\ signok sg /\
    IZR sg * lin l = signed_sum v s.
Proof. exact logSumLog_l. Qed.
Print Assumptions log_sum_log_is_signed_sum.

Example log_sum_log_case :
  let v := [Fin (ln 2); Fin (ln 5); NInf] in let s := [1; -1; 1]%Z in
  (forall x, In x v -> logval x) /\ (forall z, In z s -> signok z) /\ signed_sum v s = -3.
Proof. exact log_sum_log_case_l. Qed.

Theorem log_prod_is_log_of_product :
  forall p : list R, (forall x, In x p -> 0 <= x) ->
  @logProd XR (map Fin p) = xln (Rprod p).
Proof. exact logProd_l. Qed.
Print Assumptions log_prod_is_log_of_product.

(** LogSum: a positive summand is needed; without one the result is NaN instead of -inf. *)
Theorem log_sum_is_log_of_sum :
  forall p : list R, (forall x, In x p -> 0 <= x) -> (exists x, In x p /\ 0 < x) ->
  @logSum XR (map Fin p) = xln (Rsum p).
Proof. exact logSum_l. Qed.
Print Assumptions log_sum_is_log_of_sum.

Theorem log_sum_of_zeros_is_nan :
  forall n, @logSum XR (map Fin (repeat 0 (S n))) = NaN.
Proof. exact logSum_zeros_l. Qed.
Print Assumptions log_sum_of_zeros_is_nan.

Theorem log_sum_pair :
  forall p q : R, 0 < p -> 0 <= q -> @logSumPair XR (Fin p) (Fin q) = xln (p + q).
Proof. exact logSumPair_l. Qed.
Print Assumptions log_sum_pair.

Theorem log_sum_pair_zero_is_nan :
  forall q : R, 0 < q -> @logSumPair XR (Fin 0) (Fin q) = NaN.
Proof. exact logSumPair_zero_l. Qed.
Print Assumptions log_sum_pair_zero_is_nan.

(** C35, for any comparison. *)
Theorem trim_removes_exactly :
  forall (A : arith) (a : list (F A)) (c : F A),
  exists a', trim a c = Ok a' /\ Permutation a' (filter (fun x => negb (feq x c)) a).
Proof. exact @trim_l. Qed.
Print Assumptions trim_removes_exactly.

Example trim_case :
  let A := mkArith Z (fun z => z) 0%Z Z.add Z.sub Z.mul Z.div (fun x => x) (fun x => x) (fun x => x)
                   (fun x => x) Z.gtb Z.geb Z.eqb (fun _ => false) in
  @trim A [7; 1; 7; 2; 3; 7]%Z 7%Z = Ok [2; 1; 3]%Z.
Proof. reflexivity. Qed.
