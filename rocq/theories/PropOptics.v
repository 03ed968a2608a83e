(** C90: OPTICS. *)
From Verif Require Import Base Res Arith Cluster ClusterSpec ClusterCases Optics OpticsSpec OpticsLemmas.
Local Open Scope Z_scope.

(** C90: OPTICS clusters data with dense regions. Refuted: on two pairs of close points it panics, however sort.Sort
    goes about its work. *)
Theorem optics_clusters_refuted :
  exists (A : arith) (inf eps : F A) (data : list (list Z)) (mp : Z) (m : nat),
  (forall row, In row data -> length row = m) /\ infinite inf eps /\ 0 < mp /\ (exists i, core_point eps mp data i) /\
  forall compared sorted heapFix fuel, looks_at_all compared -> optics inf compared sorted heapFix data eps mp fuel = Panic.
Proof. exact optics_refuted_l. Qed.
Print Assumptions optics_clusters_refuted.

(** C90, for every arithmetic: OPTICS panics exactly when there is a core point; otherwise it returns one cluster,
    the noise, which holds every instance. *)
Theorem optics_only_noise_partial :
  forall (A : arith) (inf : F A) compared sorted heapFix (data : list (list Z)) (eps : F A) (mp : Z) (m : nat),
  (forall row, In row data -> length row = m) -> looks_at_all compared -> infinite inf eps -> forall fuel,
  (exists i, core_point eps mp data i) /\ optics inf compared sorted heapFix data eps mp fuel = Panic \/
  (forall i, ~ core_point eps mp data i) /\ optics inf compared sorted heapFix data eps mp fuel = Ok [instances data].
Proof. exact @optics_l. Qed.
Print Assumptions optics_only_noise_partial.

Example optics_case : (forall T, looks_at_all (@adjacent T)) /\ (forall eps, @infinite XR PInf eps) /\ (forall row, In row apart -> length row = 1%nat) /\
  @infinite ZS 1000000 1 /\ (forall i, ~ @core_point ZS 1 2 apart i) /\
  @optics ZS 1000000 adjacent (fun l => l) (fun q _ => q) apart 1 2 10 = Ok [[(0%nat, [0]); (1%nat, [1]); (2%nat, [50]); (3%nat, [51])]].
Proof. exact (conj (@adjacent_all) (conj infinite_real (conj apart_length (conj apart_infinite optics_noise_case)))). Qed.
