(** C55, C77: DBSCAN. *)
From Coq Require Import Permutation Relations.
From Verif Require Import Base Res Arith GoMap DataSpec Tables TablesSpec Cluster ClusterSpec ClusterCases Dbscan DbscanLemmas DbscanData.

(** C55: DBSCAN returns; its clusters hold every row exactly once, and rows in one cluster are
    joined by a chain of neighbours. *)
Theorem dbscan_partition :
  forall (A : arith) m data (eps : F A) mp fuel,
  (forall row, In row data -> length row = m) -> data <> [] ->
  length data * length data + 2 * length data + 2 <= fuel ->
  exists C, dbscan fuel data eps mp = Ok C /\ Permutation (concat C) (instances data) /\ (forall cl, In cl C -> cl <> []) /\
    forall i j, together C i j -> clos_refl_sym_trans nat (within eps data) i j.
Proof. exact @dbscan_partition_l. Qed.
Print Assumptions dbscan_partition.

Example line_of_four : (forall row, In row line -> length row = 1) /\ line <> [] /\
  length line * length line + 2 * length line + 2 <= 50 /\ exists C, @dbscan ZS 50 line 1%Z 2%Z = Ok C /\ length C = 2.
Proof. exact line_of_four_l. Qed.

(** C55: no rows, no clusters: DBSCAN panics. *)
Theorem dbscan_no_rows_refuted :
  forall (A : arith) fuel (eps : F A) mp, 0 < fuel -> dbscan fuel [] eps mp = Panic.
Proof. exact @dbscan_empty. Qed.
Print Assumptions dbscan_no_rows_refuted.

(** C55: DBSCANData returns the clusters of DBSCAN, with the instances as they were, or panics. *)
Theorem dbscandata_partial :
  forall (A : arith) toInt ord vars D (eps : F A) mp fuel,
  visits_all ord -> NoDup vars -> same_variables vars D -> D <> [] ->
  length D * length D + 2 * length D + 2 <= fuel -> (forall x, toInt (fz x) = x) ->
  exists M Sc Cm, dataToMatrix ord (Some D) = Ok (M, Sc) /\ length M = length D /\ dbscan fuel M eps mp = Ok Cm /\
    (dbscanData toInt ord fuel D eps mp = Panic \/
     exists C, dbscanData toInt ord fuel D eps mp = Ok C /\
       Forall2 (fun cl clm => exists js, Permutation js (map fst clm) /\
         Forall2 (fun I j => exists J, nth_error D j = Some J /\ forall v, get I v = get J v) cl js) C Cm).
Proof. exact @dbscanData_l. Qed.
Print Assumptions dbscandata_partial.

Example three_instances : same_variables [5%Z] tripleOf /\ @dbscanData ZS (fun z => z) (fun _ m => m) 50 tripleOf 1%Z 2%Z = Ok [tripleOf].
Proof. exact (conj triple_vars triple_returns). Qed.

(** C55: with at most one point asked for, it panics as soon as two instances are neighbours. *)
Theorem dbscandata_returns_refuted :
  forall (A : arith) toInt ord vars D (eps : F A) mp fuel M Sc,
  visits_all ord -> NoDup vars -> same_variables vars D -> D <> [] ->
  length D * length D + 2 * length D + 2 <= fuel -> (mp <= 1)%Z ->
  dataToMatrix ord (Some D) = Ok (M, Sc) ->
  (forall i j, within eps M i j -> within eps M j i) -> (exists i j, within eps M i j) ->
  dbscanData toInt ord fuel D eps mp = Panic.
Proof. exact @dbscanData_panics. Qed.
Print Assumptions dbscandata_returns_refuted.

Example two_instances : same_variables [5%Z] pairOf /\ dataToMatrix (fun _ m => m) (Some pairOf) = Ok ([[0]; [1]]%Z, [(0, 5)]%Z) /\
  (forall i j, @within ZS 1%Z [[0]; [1]]%Z i j -> @within ZS 1%Z [[0]; [1]]%Z j i) /\
  (exists i j, @within ZS 1%Z [[0]; [1]]%Z i j) /\
  @dbscanData ZS (fun z => z) (fun _ m => m) 50 pairOf 1%Z 1%Z = Panic.
Proof. exact two_instances_l. Qed.

(** C77: with at most one point asked for, clusters are exactly the chains of neighbours ... *)
Theorem dbscan_components :
  forall (A : arith) m data (eps : F A) mp fuel,
  (forall row, In row data -> length row = m) -> data <> [] ->
  length data * length data + 2 * length data + 2 <= fuel -> (mp <= 1)%Z ->
  exists C, dbscan fuel data eps mp = Ok C /\
    forall i j, i < length data -> j < length data -> (together C i j <-> clos_refl_sym_trans nat (within eps data) i j).
Proof. exact @dbscan_components_l. Qed.
Print Assumptions dbscan_components.

Example chain_and_pairs :
  @dbscan ZS 50 line 1%Z 1%Z = Ok [[(1, [1]%Z); (0, [0]%Z); (2, [2]%Z); (3, [3]%Z)]] /\
  @dbscan ZS 50 two_apart 1%Z 1%Z = Ok [[(1, [1]%Z); (0, [0]%Z)]; [(3, [8]%Z); (2, [7]%Z)]].
Proof. exact (conj line_chain two_pairs). Qed.

(** C77: ... but with two, a row with two neighbours need not share its cluster with both. *)
Theorem dbscan_core_refuted :
  exists (A : arith) (eps : F A) data fuel C i j l,
    dbscan fuel data eps 2%Z = Ok C /\ j <> l /\ within eps data i j /\ within eps data i l /\ ~ together C i l.
Proof. exact dbscan_core_refuted_l. Qed.
Print Assumptions dbscan_core_refuted.
