(** C114: what the independence tests decide. *)
From Coq Require Import Reals.
From Verif Require Import Base Res Arith Indep IndepSpec ChiAllSpec PowerSpec PowerGraph.
Local Open Scope Z_scope.

(** GTest and ChiSquareTest accept variables that have nothing to do with each other, at every significance
    level, and reject any others once the same rows are seen often enough. ChiSquareTest needs a row to accept. *)
Theorem tests_decide :
  forall chi2, exact_cdf chi2 ->
  forall p q xs ys, 2 <= p -> 2 <= q -> (forall v, In v xs -> 0 <= v < p) -> (forall v, In v ys -> 0 <= v < q) -> length ys = length xs ->
  exists m, contingency p q xs ys = Ok m /\
    ((forall a b, 0 <= a < p -> 0 <= b < q -> unrelated_at xs ys a b) -> forall pval, (pval <= 1)%R ->
       @gTest XR chi2 p q m (Fin pval) = Ok true /\ (xs <> [] -> @chiSquareTest XR chi2 p q m (Fin pval) = Ok true)) /\
    forall a b, 0 <= a < p -> 0 <= b < q -> ~ unrelated_at xs ys a b -> forall pval, (0 < pval)%R ->
      exists N, forall c, (N <= c)%nat -> exists mc, contingency p q (again c xs) (again c ys) = Ok mc /\
        @gTest XR chi2 p q mc (Fin pval) = Ok false /\ @chiSquareTest XR chi2 p q mc (Fin pval) = Ok false.
Proof. exact power_pair_l. Qed.
Print Assumptions tests_decide.

(** Both independence graphs group the variables by what is related to what, once the same rows are seen often enough. *)
Theorem independence_graph_consistent :
  forall chi2, exact_cdf chi2 -> forall data pval, well_formed data -> (forall d, In d data -> 2 <= vd_cat d) -> (0 < pval <= 1)%R -> NoDup (map vd_id data) ->
  exists N, forall c, (N <= c)%nat -> exists M, forall fuel, (M < fuel)%nat -> exists a K a' K',
    @newIndepGraph XR chi2 (again_data c data) (Fin pval) fuel = Ok (a, K) /\ @newUFIndepGraph XR chi2 (again_data c data) (Fin pval) fuel = Ok (a', K') /\
    components (related data) (map vd_id data) K /\ components (related data) (map vd_id data) K'.
Proof. exact power_graph_l. Qed.
Print Assumptions independence_graph_consistent.

(** The hypothesis on the distribution function can be met. *)
Theorem exact_cdf_exists : exists chi2, exact_cdf chi2.
Proof. exact (ex_intro _ theChi2 theChi2_ok). Qed.
Print Assumptions exact_cdf_exists.

Example consistent_case : well_formed powerData /\ (forall d, In d powerData -> 2 <= vd_cat d) /\ NoDup (map vd_id powerData) /\
  related powerData 7 3 /\ ~ related powerData 7 9 /\ ~ related powerData 3 9.
Proof. exact powerData_ok. Qed.
