(** C58 and C74: the Dennis-Ventura learner. *)
From Coq Require Import Reals.
From Verif Require Import Base Res Arith GraphSpec Spn Leaves GoMap Build Dennis DennisSpec DataSpec PoonSpec ProbSpec
  DennisScope DennisTop DennisCases InferLemmas.

(** C58: subset. *)
Theorem scope_subset :
  forall o, (forall m, Permutation (o m) m) -> forall s t,
  subsetOf o s t = true <-> forall k, member s k -> member t k.
Proof. exact subset_l. Qed.
Print Assumptions scope_subset.

(** C58: sizes of unions and intersections. *)
Theorem scope_union :
  forall o, (forall m, Permutation (o m) m) -> forall s t, NoDup (keys s) -> NoDup (keys t) ->
  card (fun k => member s k \/ member t k) (lenUnion o s t).
Proof. exact union_l. Qed.
Print Assumptions scope_union.

Theorem scope_intersect :
  forall o, (forall m, Permutation (o m) m) -> forall s t, NoDup (keys t) ->
  card (fun k => member s k /\ member t k) (lenIntersect o s t).
Proof. exact intersect_l. Qed.
Print Assumptions scope_intersect.

(** C58: difference, keeping the values. *)
Theorem scope_minus :
  forall o, (forall m, Permutation (o m) m) -> forall s t, NoDup (keys s) ->
  NoDup (keys (minus o s t)) /\
  (forall k, member t k -> get (minus o s t) k = None) /\
  (forall k, ~ member t k -> get (minus o s t) k = get s k).
Proof. exact minus_l. Qed.
Print Assumptions scope_minus.

(** C58: equality. *)
Theorem scope_equal :
  forall o, (forall m, Permutation (o m) m) -> forall s t, NoDup (keys s) -> NoDup (keys t) ->
  equal o s t = true <-> same_keys s t.
Proof. exact equal_l. Qed.
Print Assumptions scope_equal.

Example scope_case :
  let s := [(1, 5); (2, 6); (4, 7)]%Z in let t := [(4, 0); (3, 0)]%Z in
  NoDup (keys s) /\ NoDup (keys t) /\ lenUnion (@rev _) s t = 4%Z /\ lenIntersect (@rev _) s t = 1%Z /\
  minus (@rev _) s t = [(1, 5); (2, 6)]%Z /\ subsetOf (@rev _) s t = false /\ equal (@rev _) s (rev s) = true.
Proof. repeat split; repeat constructor; simpl; lia. Qed.

(** C58: similarity is the larger ratio of intersection to union exceeding the threshold. *)
Theorem scope_similar_partial :
  forall o, (forall m, Permutation (o m) m) -> forall s r t d p1 p2,
  NoDup (keys s) -> NoDup (keys r) -> NoDup (keys t) -> s <> [] -> t <> [] -> ratio s r p1 -> ratio s t p2 ->
  similarTo (A:=XR) o s r t (Fin d) = true <-> (d < p1 \/ d < p2)%R.
Proof. exact similar_l. Qed.
Print Assumptions scope_similar_partial.

(** C58: the ratio is 1 for equal scopes only. *)
Theorem scope_ratio_one :
  forall s t q, NoDup (keys s) -> NoDup (keys t) -> s <> [] -> ratio s t q ->
  (q <= 1)%R /\ (q = 1%R <-> same_keys s t).
Proof. exact ratio_one_l. Qed.
Print Assumptions scope_ratio_one.

Example scope_ratio_case : exists q, ratio [(1, 5); (2, 6)]%Z [(2, 0)]%Z q.
Proof. apply ratio_exists; repeat constructor; simpl; lia. Qed.

(** C58: not so when the third scope is empty: a scope equal to the second is not similar. *)
Theorem scope_similar_refuted :
  exists s r t (d : R), (0 <= d < 1)%R /\
  NoDup (keys s) /\ NoDup (keys r) /\ NoDup (keys t) /\ s <> [] /\ same_keys s r /\ ratio s r 1 /\
  forall o, (forall m, Permutation (o m) m) -> similarTo (A:=XR) o s r t (Fin d) = false.
Proof. exact similar_refuted_l. Qed.
Print Assumptions scope_similar_refuted.

(** C74: the network before normalisation, in any arithmetic. *)
Theorem dennis_structure :
  forall (A : arith) ord ordC km kmD db par logProb trunc round rnd fuel D sc k m g t n,
  visits_all ord -> (forall c C, Permutation (ordC c C) C) -> two_clusters km -> good_views kmD db n D k ->
  (forall i, (0 <= rnd i < 10)%Z) -> 0 < m -> 0 < g ->
  NoDup (keys sc) -> 2 <= length sc -> (forall x, member sc x -> (0 <= x < Z.of_nat n)%Z) -> length sc < fuel ->
  exists H z, @structureRaw A ord ordC km kmD db par logProb trunc round rnd fuel D sc k m g t = Ok (H, z) /\
  (forall u c, In c (children (netOf H) u) -> c < length H) /\ z < length H /\
  (forall x, in_scope (netOf H) z x <-> member sc x) /\ complete (netOf H) z /\ decomposable (netOf H) z /\
  acyclic_from (children (netOf H)) z /\ small_weights (A:=A) (netOf H) z /\ gaussian_leaves par logProb trunc round (netOf H).
Proof. exact structureRaw_l. Qed.
Print Assumptions dennis_structure.

(** C74: the network returned. *)
Theorem dennis_structure_normalised :
  forall ord ordC km kmD db par logProb trunc round rnd fuel D sc k m g t n,
  visits_all ord -> (forall c C, Permutation (ordC c C) C) -> two_clusters km -> good_views kmD db n D k ->
  (forall i, (0 <= rnd i < 10)%Z) -> 0 < m -> 0 < g ->
  NoDup (keys sc) -> 2 <= length sc -> (forall x, member sc x -> (0 <= x < Z.of_nat n)%Z) -> length sc < fuel ->
  exists net z, @structure XR ord ordC km kmD db par logProb trunc round rnd fuel D sc k m g t = Ok (net, z) /\
  (forall x, in_scope net z x <-> member sc x) /\ complete net z /\ decomposable net z /\
  acyclic_from (children net) z /\ proper_weights net z /\ gaussian_leaves par logProb trunc round net /\
  exists N, z < N /\ bounded (children net) N.
Proof. exact structure_l. Qed.
Print Assumptions dennis_structure_normalised.

Example dennis_hyp : two_clusters firstRest /\ good_views (fun D => [D; D]) (fun D => []) 3 data3 1 /\
  good_views (fun D => [D; D]) (fun D => []) 3 data3 2 /\
  NoDup (keys sc3) /\ 2 <= length sc3 /\ forall x, member sc3 x -> (0 <= x < Z.of_nat 3)%Z.
Proof.
  split; [exact firstRest_l|]. split; [|split; [|exact sc3_l]].
  - split; [lia|]. split; [intros _; exact data3_l|lia].
  - split; [|lia]. intros _. split; [simpl; lia|]. intros P [<-|[<-|[]]]; exact data3_l.
Qed.
Example dennis_case : shape (zraw firstRest sc3 1 2 1) =
  Ok ([[]; []; []; [5]; [5]; [1; 2]; [7; 8]; [0; 3]; [0; 4]], 6).
Proof. vm_compute. reflexivity. Qed.

(** C74: an empty cluster makes the root its own descendant. *)
Theorem dennis_empty_cluster :
  exists H z, zraw oneCluster sc3 1 2 2 = Ok (H, z) /\ ~ acyclic_from (children (netOf H)) z.
Proof. exact one_cluster_l. Qed.
Print Assumptions dennis_empty_cluster.
