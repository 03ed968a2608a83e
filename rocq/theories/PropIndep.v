(** C36-C40, C69, C70: union-find, independence graphs, tests and sample statistics. *)
From Coq Require Import Reals Lra Relations.
From Verif Require Import Base Res Arith LogSpec UnionFind UnionSpec UnionLemmas Indep IndepSpec IndepLemmas TestLemmas IndGraphLemmas Stats StatsSpec StatsLemmas IndepCases.
Local Open Scope Z_scope.

(** C36. Node x is the x-th set created; [created ops] are the identifiers in that order. *)
Theorem union_find_partition :
  forall (ops : list ufop) (fuel : nat), well_used 0 ops -> (length ops < fuel)%nat ->
  exists s, ufrun fuel newHeap ops = Ok s /\ unext s = length (created ops) /\
    (forall x, (x < length (created ops))%nat -> exists s' r, find fuel s x = Ok (s', r) /\ (r < length (created ops))%nat) /\
    (forall x y sx rx sy ry, (x < length (created ops))%nat -> (y < length (created ops))%nat ->
       find fuel s x = Ok (sx, rx) -> find fuel s y = Ok (sy, ry) -> (rx = ry <-> joined ops x y)) /\
    (forall x sx r, (x < length (created ops))%nat -> find fuel s x = Ok (sx, r) ->
       exists l, NoDup l /\ (forall y, In y l <-> (y < length (created ops))%nat /\ joined ops x y) /\
         ufVarids fuel s r = Ok (map (fun y => nth y (created ops) 0%Z) l)).
Proof. exact union_find_l. Qed.
Print Assumptions union_find_partition.

Example union_find_case :
  well_used 0 [OMake 7; OMake 3; OMake 9; OMake 1; OUnion 0 2; OUnion 3 2; OFind 0] /\
  exists s, ufrun 10 newHeap [OMake 7; OMake 3; OMake 9; OMake 1; OUnion 0 2; OUnion 3 2; OFind 0] = Ok s /\
    ufVarids 10 s 2 = Ok [9; 7; 1].
Proof. split; [simpl; repeat split; lia|]. eexists. split; vm_compute; reflexivity. Qed.

(** C37, for every arithmetic and every chi-square distribution function. *)
Theorem independence_graph_components :
  forall (A : arith) (chi2 : F A -> Z -> F A) (data : list vardata) (pval : F A),
  well_formed data -> NoDup (map vd_id data) ->
  exists N, forall fuel, (N < fuel)%nat -> exists a K a' K',
    newIndepGraph chi2 data pval fuel = Ok (a, K) /\ newUFIndepGraph chi2 data pval fuel = Ok (a', K') /\
    components (judged_dependent chi2 data pval) (map vd_id data) K /\
    components (judged_dependent chi2 data pval) (map vd_id data) K'.
Proof. exact @indep_graph_l. Qed.
Print Assumptions independence_graph_components.

Example independence_graph_case :
  well_formed gdata /\ NoDup (map vd_id gdata) /\
  (exists a, @newIndepGraph ZA zchi2 gdata 1 50 = Ok (a, [[3]; [9; 7]])) /\
  (exists a, @newUFIndepGraph ZA zchi2 gdata 1 50 = Ok (a, [[3]; [9; 7]])).
Proof.
  split; [apply gdata_ok|]. split; [apply gdata_ok|]. split; eexists; vm_compute; reflexivity.
Qed.

(** C38. *)
Theorem contingency_counts :
  forall (p q : Z) (xs ys : list Z), 0 <= p -> 0 <= q ->
  (forall v, In v xs -> 0 <= v < p) -> (forall v, In v ys -> 0 <= v < q) -> length ys = length xs ->
  exists m, contingency p q xs ys = Ok m /\ length m = S (Z.to_nat p) /\ (forall r, In r m -> length r = S (Z.to_nat q)) /\
    (forall a b, 0 <= a < p -> 0 <= b < q -> at_ m (Z.to_nat a) (Z.to_nat b) (howmany (fun ab => (fst ab =? a) && (snd ab =? b)) (combine xs ys))) /\
    (forall a, 0 <= a < p -> at_ m (Z.to_nat a) (Z.to_nat q) (howmany (Z.eqb a) xs)) /\
    (forall b, 0 <= b < q -> at_ m (Z.to_nat p) (Z.to_nat b) (howmany (Z.eqb b) ys)) /\
    at_ m (Z.to_nat p) (Z.to_nat q) (Z.of_nat (length xs)).
Proof. exact contingency_l. Qed.
Print Assumptions contingency_counts.

(** C38, boundary: a value equal to the number of categories does not panic; the total then
    counts only the rows where both values are proper. *)
Theorem contingency_boundary_dropped :
  forall (p q : Z) (xs ys : list Z), 0 <= p -> 0 <= q ->
  (forall v, In v xs -> 0 <= v <= p) -> (forall v, In v ys -> 0 <= v <= q) -> length ys = length xs ->
  exists m, contingency p q xs ys = Ok m /\
    at_ m (Z.to_nat p) (Z.to_nat q) (howmany (fun ab => (fst ab <? p) && (snd ab <? q)) (combine xs ys)).
Proof. exact contingency_drop_l. Qed.
Print Assumptions contingency_boundary_dropped.

Example contingency_case :
  contingency 2 3 [0; 1; 1; 0] [2; 0; 0; 1] = Ok [[0; 1; 1; 2]; [2; 0; 0; 2]; [2; 1; 1; 4]] /\
  contingency 2 3 [0; 2; 1; 0] [2; 0; 0; 1] = Ok [[0; 1; 1; 2]; [1; 0; 0; 1]; [1; 1; 1; 3]].
Proof. split; vm_compute; reflexivity. Qed.

(** C39. The sums are the total, the row total and the column total of the counts [o]. *)
Theorem g_statistic_divergence :
  forall (p q : nat) (m : list (list Z)) (o : nat -> nat -> Z), table_of p q m o ->
  exists g, @gStat XR p q m = Ok (Fin g) /\ (0 <= g)%R /\
    (g = 0%R <-> forall i j, (i < p)%nat -> (j < q)%nat ->
       o i j * fold_right Z.add 0 (map (fun i => fold_right Z.add 0 (map (fun j => o i j) (seq 0 q))) (seq 0 p)) =
       fold_right Z.add 0 (map (fun j => o i j) (seq 0 q)) * fold_right Z.add 0 (map (fun i => o i j) (seq 0 p))).
Proof. exact gStat_l. Qed.
Print Assumptions g_statistic_divergence.

Example g_statistic_case : table_of 2 2 [[1; 2; 3]; [3; 0; 3]; [4; 2; 6]] (fun i j => nth j (nth i [[1; 2]; [3; 0]] []) 0).
Proof.
  constructor.
  - intros [|[|i]] [|[|j]]; try lia; intros _ _; (split; [eexists; split; reflexivity|simpl; lia]).
  - intros [|[|i]]; try lia; intros _; eexists; split; reflexivity.
  - intros [|[|j]]; try lia; intros _; eexists; split; reflexivity.
  - eexists; split; reflexivity.
Qed.

(** C69. *)
Theorem chi_square_statistic_refuted : exists p q m o, table_of p q m o /\ @chiStat XR p q m = Ok NaN.
Proof. exact chi_empty_l. Qed.
Print Assumptions chi_square_statistic_refuted.

(** C69, tables with at least one observation. *)
Theorem chi_square_statistic_partial :
  forall (p q : nat) (m : list (list Z)) (o : nat -> nat -> Z), table_of p q m o ->
  0 < fold_right Z.add 0 (map (fun i => fold_right Z.add 0 (map (fun j => o i j) (seq 0 q))) (seq 0 p)) ->
  exists g, @chiStat XR p q m = Ok (Fin g) /\ (0 <= g)%R /\
    (g = 0%R <-> forall i j, (i < p)%nat -> (j < q)%nat ->
       o i j * fold_right Z.add 0 (map (fun i => fold_right Z.add 0 (map (fun j => o i j) (seq 0 q))) (seq 0 p)) =
       fold_right Z.add 0 (map (fun j => o i j) (seq 0 q)) * fold_right Z.add 0 (map (fun i => o i j) (seq 0 p))).
Proof. exact chiStat_l. Qed.
Print Assumptions chi_square_statistic_partial.

(** C40. *)
Theorem quantile_blocks_refuted : exists X m, (0 < m <= length X)%nat /\
  exists P, @partitionQuantiles XR X (Z.of_nat m) = Ok P /\ nth_error P (m - 1) = Some (NaN, NaN, Fin 0).
Proof. exact quantiles_refuted_l. Qed.
Print Assumptions quantile_blocks_refuted.

(** C40, everything but the non-emptiness, for which the exact condition is given. A standard
    deviation of 0 is replaced by 1/2. *)
Theorem quantile_blocks_partial :
  forall (X : list Z) (m : nat), (0 < m)%nat -> exists bs,
  length bs = m /\ concat bs = X /\ @partitionQuantiles XR X (Z.of_nat m) = Ok (map blockStats bs) /\
  (forall i b, nth_error bs i = Some b -> b <> [] ->
     @blockStats XR b = (Fin (sample_mean b), Fin (if Req_EM_T (sample_sd b) 0 then 1 / 2 else sample_sd b)%R, Fin (INR (length b)))) /\
  ((forall b, In b bs -> b <> []) <-> ((m - 1) * Z.to_nat (blockLen (Z.of_nat (length X)) (Z.of_nat m)) < length X)%nat).
Proof. exact quantiles_l. Qed.
Print Assumptions quantile_blocks_partial.

Example quantile_case : (0 < 2)%nat /\ ((2 - 1) * Z.to_nat (blockLen 5 2) < 5)%nat.
Proof. vm_compute. lia. Qed.

(** C70: read as a histogram, the argument's statistics are those of the sample it stands for. *)
Theorem histogram_statistics :
  forall c : list Z, (forall n, In n c -> 0 <= n) -> (exists n, In n c /\ 0 < n) ->
  @histMean XR c = Fin (sample_mean (sample_of c)) /\ @histStdDev XR c = Fin (sample_sd (sample_of c)) /\
  @histMuSigma XR c = (Fin (sample_mean (sample_of c)), Fin (sample_sd (sample_of c))).
Proof. exact histogram_l. Qed.
Print Assumptions histogram_statistics.

(** C70: the callers (poon.go:107, dennis/region.go:33) pass the sample itself. *)
Theorem fitted_gaussian_refuted : exists X, X <> [] /\ @histMuSigma XR X <> (Fin (sample_mean X), Fin (sample_sd X)).
Proof. exact musigma_values_l. Qed.
Print Assumptions fitted_gaussian_refuted.

Example histogram_case : sample_of [2; 0; 1] = [0; 0; 2] /\ (forall n, In n [2; 0; 1] -> 0 <= n) /\ exists n, In n [2; 0; 1] /\ 0 < n.
Proof. split; [reflexivity|]. split; [simpl; intuition lia|]. exists 2. simpl. intuition lia. Qed.
