(** C91, C92: k-means on vectors and its wrappers. *)
From Coq Require Import Reals Permutation.
From Verif Require Import Base Res Arith GoMap Tables Cluster ClusterSpec ClusterCases Dbscan Kmeans KmeansSpec KmeansTop KmeansEnd IndepCases KmeansData.
Local Open Scope Z_scope.

(** C91: what OldKMeansF returns, for every metric and every arithmetic with an ordered > : every row exactly once, in a
    cluster whose centroid no other centroid is nearer than. *)
Theorem old_kmeans_splits :
  forall (A : arith) (inf : F A) metric rnd (n k : nat) (D : list (list (F A))),
  (forall row, In row D -> length row = n) -> strict_order (@fgt A) -> unit_laws A ->
  forall fuelR fuel O, oldKMeansF inf metric rnd fuelR fuel k D = Ok O -> splits k D O /\ near_centroids n metric O.
Proof. exact @oldKMeansF_l. Qed.
Print Assumptions old_kmeans_splits.

(** C91: with the Euclidean distance it returns, over the reals and for random draws that reach every row. *)
Theorem old_kmeans_ends :
  forall (n k : nat) (D : list (list R)), (forall row, In row D -> length row = n) -> (0 < k)%nat ->
  forall rnd, (k <= length D)%nat -> fair rnd (length D) -> (forall c, (rnd c (length D) < length D)%nat) ->
  exists f0, forall fuelR fuel, (f0 <= fuelR)%nat -> (k ^ length D + 2 <= fuel)%nat ->
  exists O, @oldKMeansF XR PInf (@euclideanF XR) rnd fuelR fuel k (map (map Fin) D) = Ok O.
Proof. exact oldKMeansF_ends. Qed.
Print Assumptions old_kmeans_ends.

Example old_kmeans_case : (forall row, In row far -> length row = 1%nat) /\ strict_order (@fgt ZS) /\ unit_laws ZS /\
  @oldKMeansF ZS 1000000 (@euclideanF ZS) draws 10 10 2 far = Ok [[(0, [0]); (1, [2])]; [(2, [20]); (3, [22])]].
Proof. exact (conj far_rows (conj zs_strict (conj zs_unit far_run))). Qed.
Example old_kmeans_ends_case : (forall row, In row farR -> length row = 1%nat) /\ fair draws (length farR) /\ (forall c, (draws c (length farR) < length farR)%nat) /\
  strict_order (@fgt XR) /\ unit_laws XR.
Proof. exact (conj farR_rows (conj (draws_fair _) (conj (draws_below 4 ltac:(repeat constructor)) (conj xr_strict xr_unit)))). Qed.

(** C92: KMeans and KMeansF return every row exactly once, under its number. *)
Theorem kmeans_keeps_rows :
  forall (A : arith) (km : list (list (F A)) -> Z -> res (list Z)) (toInt : F A -> Z) (k : nat) (data : list (list Z)) (C : list Z),
  labels km k (copyMatrixF data) C -> (forall z, toInt (fz z) = z) -> exists G, kMeans km toInt k data = Ok G /\ splits k data G.
Proof. exact @kMeans_splits. Qed.
Print Assumptions kmeans_keeps_rows.

Theorem kmeansf_keeps_rows :
  forall (A : arith) (km : list (list (F A)) -> Z -> res (list Z)) (k : nat) (D : list (list (F A))) (C : list Z) sc,
  labels km k D C -> exists G, kMeansF km k D sc = Ok G /\ splits k D G.
Proof. exact @kMeansF_splits. Qed.
Print Assumptions kmeansf_keeps_rows.

(** C92: KMeansData and KMeansFData keep every instance. Refuted: of three instances of one variable two are lost. *)
Theorem kmeansdata_keeps_rows_refuted :
  exists (A : arith) (km : list (list (F A)) -> Z -> res (list Z)) (toInt : F A -> Z) (ord : nat -> gmap -> gmap) k data M sc C G,
  (forall i m, Permutation (ord i m) m) /\ (forall z, toInt (fz z) = z) /\ dataToMatrix ord (Some data) = Ok (M, sc) /\ labels km k (copyMatrixF M) C /\
  kMeansData km toInt ord k data = Ok G /\ kMeansFData km ord k data = Ok (map (map (fun e => (fst e, map fz (snd e)))) G) /\ (length (concat G) < length data)%nat.
Proof. exact kMeansData_refuted. Qed.
Print Assumptions kmeansdata_keeps_rows_refuted.

(** C92, in part: the instances survive when the variables of the first columns, which serve as keys of the rows, tell the
    rows apart. *)
Theorem kmeansdata_keeps_rows_partial :
  forall (A : arith) (km : list (list (F A)) -> Z -> res (list Z)) (toInt : F A -> Z) (k : nat) ord data M sc C,
  dataToMatrix ord (Some data) = Ok (M, sc) -> labels km k (copyMatrixF M) C -> (forall z, toInt (fz z) = z) ->
  (forall i j, (i < length M)%nat -> (j < length M)%nat -> get0 sc (Z.of_nat i) = get0 sc (Z.of_nat j) -> i = j) ->
  exists G, kMeansData km toInt ord k data = Ok G /\ length G = k /\ Permutation (map snd (concat G)) M.
Proof. exact @kMeansData_keeps. Qed.
Print Assumptions kmeansdata_keeps_rows_partial.

Example kmeans_case : labels oneCluster 2 (copyMatrixF far) [0; 0; 0; 0] /\
  kMeans oneCluster (fun z => z) 2 far = Ok [[(0, [0]); (1, [2]); (2, [20]); (3, [22])]; []].
Proof. exact (conj (oneCluster_labels (copyMatrixF far)) eq_refl). Qed.
Example kmeansdata_case : dataToMatrix same_order (Some [[(0, 4); (7, 5)]; [(0, 5); (7, 6)]]) = Ok ([[4; 5]; [5; 6]], [(1, 7); (0, 0)]) /\
  kMeansData oneCluster (fun z => z) same_order 2 [[(0, 4); (7, 5)]; [(0, 5); (7, 6)]] = Ok [[(0, [4; 5]); (7, [5; 6])]; []].
Proof. exact (conj eq_refl eq_refl). Qed.
