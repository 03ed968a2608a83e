(** C54, C75, C76: k-modes and k-medoids. *)
From Coq Require Import Permutation.
From Verif Require Import Base Res Cluster ClusterSpec ClusterModes ClusterMedoids MedoidTop ClusterCases ClusterCycle.

(** C54: KMode and OldKMeans. *)
Theorem kmode_partition :
  forall rnd fuel k data C, kMode rnd fuel k data = Ok C -> partitions k data C.
Proof. exact (fun rnd fuel k data C E => proj1 (kMode_l rnd fuel k data C E)). Qed.
Print Assumptions kmode_partition.

Theorem oldkmeans_partition :
  forall rnd fuel k data C, oldKMeans rnd fuel k data = Ok C -> partitions k data C.
Proof. exact (fun rnd fuel k data C E => proj1 (kMode_l rnd fuel k data C E)). Qed.
Print Assumptions oldkmeans_partition.

(** C54: KMedoid. *)
Theorem kmedoid_partition :
  forall rnd ord fuel k data C, kMedoid rnd ord fuel k data = Ok C -> partitions k data C.
Proof. exact (fun rnd ord fuel k data C E => proj1 (kMedoid_l rnd ord data k fuel C E)). Qed.
Print Assumptions kmedoid_partition.

Example four_rows : kMode draws 50 2 four = Ok four_clusters /\ kMedoid draws asIs 50 2 four = Ok four_clusters.
Proof. exact (conj four_modes four_medoids). Qed.

(** C75: every cluster of KMedoid has a member that is its centre, and no row is nearer to the
    centre of another cluster. *)
Theorem kmedoid_centred :
  forall rnd ord data m k,
  (forall c, Permutation (ord c) c) -> (forall row, In row data -> length row = m) ->
  (forall c, rnd c (length data) < length data) -> 0 < k <= distinct data ->
  forall fuel C, kMedoid rnd ord fuel k data = Ok C -> partitions k data C /\ centred C.
Proof. exact kMedoid_centred. Qed.
Print Assumptions kmedoid_centred.

Example four_centred : centred four_clusters.
Proof.
  exact (proj2 (kmedoid_centred draws asIs four 2 2 (fun c => Permutation_refl c) (fun row H => proj1 (four_rect row H))
    draws_four four_distinct 50 four_clusters four_medoids)).
Qed.

(** C75: KMode may leave a row in a cluster with a farther mode. *)
Theorem kmode_nearest_refuted :
  exists rnd fuel data C, rectangular 2 data /\ (forall c, rnd c (length data) < length data) /\ fair rnd (length data) /\
    2 <= distinct data /\ kMode rnd fuel 2 data = Ok C /\ ~ near_modes 2 C.
Proof. exact kmode_near_refuted_top. Qed.
Print Assumptions kmode_nearest_refuted.

(** C76: KMedoid returns if there are k different rows and the draws are fair ... *)
Theorem kmedoid_returns :
  forall rnd ord data m k,
  (forall c, Permutation (ord c) c) -> (forall row, In row data -> length row = m) ->
  (forall c, rnd c (length data) < length data) -> 0 < k <= distinct data -> fair rnd (length data) ->
  exists fuel0, forall fuel, fuel0 <= fuel -> exists C, kMedoid rnd ord fuel k data = Ok C.
Proof. exact kMedoid_returns. Qed.
Print Assumptions kmedoid_returns.

Example four_fair : (forall row, In row four -> length row = 2) /\ (forall c, draws c (length four) < length four) /\
  0 < 2 <= distinct four /\ fair draws (length four).
Proof.
  exact (conj (fun row H => proj1 (four_rect row H)) (conj draws_four
    (conj four_distinct (draws_fair 4)))).
Qed.

(** C76: ... and does not panic, whatever the draws ... *)
Theorem kmedoid_no_panic :
  forall rnd ord data m k,
  (forall c, Permutation (ord c) c) -> (forall row, In row data -> length row = m) ->
  (forall c, rnd c (length data) < length data) ->
  forall fuel, 0 < k <= distinct data -> kMedoid rnd ord fuel k data <> Panic.
Proof. exact kMedoid_safe_l. Qed.
Print Assumptions kmedoid_no_panic.

(** C76: ... but never returns a clustering if there are fewer different rows. *)
Theorem kmedoid_few_rows :
  forall rnd ord data m k,
  (forall c, Permutation (ord c) c) -> (forall row, In row data -> length row = m) ->
  (forall c, rnd c (length data) < length data) ->
  forall fuel C, data <> [] -> distinct data < k -> kMedoid rnd ord fuel k data <> Ok C.
Proof. exact kMedoid_few_l. Qed.
Print Assumptions kmedoid_few_rows.

Theorem kmedoid_returns_refuted :
  exists rnd ord fuel data, (forall c, Permutation (ord c) c) /\ (forall c, rnd c (length data) < length data) /\
    rectangular 2 data /\ 2 <= length data /\ kMedoid rnd ord fuel 2 data = Panic.
Proof. exact kmedoid_refuted_top. Qed.
Print Assumptions kmedoid_returns_refuted.

(** C76: KMode does not panic on rectangular data of non-negative values ... *)
Theorem kmode_no_panic :
  forall rnd fuel k m data, rectangular m data -> data <> [] -> 0 < k -> (forall c, rnd c (length data) < length data) ->
  kMode rnd fuel k data <> Panic.
Proof. exact kMode_safe_l. Qed.
Print Assumptions kmode_no_panic.

Example four_is_rectangular : rectangular 2 four /\ four <> [] /\ 0 < 2 /\ (forall c, draws c (length four) < length four).
Proof. exact four_is_rectangular_l. Qed.

(** C76: ... but asked for more clusters than rows, it draws for ever. *)
Theorem kmode_returns_refuted :
  forall rnd fuel k m data, rectangular m data -> data <> [] -> (forall c, rnd c (length data) < length data) ->
  length data < k -> kMode rnd fuel k data = Fuel.
Proof. exact kMode_stuck_l. Qed.
Print Assumptions kmode_returns_refuted.

(** C76: ... and even with enough different rows and fair draws it may go round for ever, because its
    stored modes can be wrong. *)
Theorem kmode_cycle_refuted :
  exists rnd data, rectangular 4 data /\ 2 <= distinct data /\ (forall c, rnd c (length data) < length data) /\
  fair rnd (length data) /\ forall fuel, kMode rnd fuel 2 data = Fuel.
Proof. exact kMode_ring_l. Qed.
Print Assumptions kmode_cycle_refuted.

Example four_into_five : kMode draws 50 5 four = Fuel.
Proof. exact four_into_five_l. Qed.
