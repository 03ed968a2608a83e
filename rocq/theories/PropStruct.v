(** C23-C26: scopes, validity checks, heights and weight normalisation. *)
From Coq Require Import Reals Lra.
From Verif Require Import Base Res Arith LogSpec GraphSpec Spn ProbSpec Struct StructSpec StructLemmas StructCases.

(** C23. [ord] is any order in which the map of variables may be iterated. *)
Theorem compute_scope_exact :
  forall (A : arith) (net : network A) (ord : nat -> list Z -> list Z),
  (forall s l, Permutation (ord s l) l) ->
  forall N r sc0,
  bounded (children net) N -> r < N -> acyclic (children net) -> siblings_ok (children net) ->
  (forall v, reach (children net) r v -> children net v = [] -> NoDup (sc0 v)) ->
  exists sc, computeScope net ord (2 * N + 1) r sc0 = Ok sc /\
    (forall u, reach (children net) r u ->
       NoDup (sc u) /\ forall x, In x (sc u) <-> below (children net) sc0 u x) /\
    (forall u, ~ reach (children net) r u -> sc u = sc0 u).
Proof. exact (@computeScope_l). Qed.
Print Assumptions compute_scope_exact.

Example compute_scope_case : exists sc, computeScope snet (fun _ l => l) 13 0 ssc = Ok sc /\
  NoDup (sc 0) /\ forall x, In x (sc 0) <-> below (children snet) ssc 0 x.
Proof.
  destruct (compute_scope_exact XR snet (fun _ l => l) (fun _ l => Permutation_refl l) 6 0 ssc snet_bounded
    ltac:(lia) snet_acyclic snet_siblings snet_leaf_scopes) as (sc & E & H & _).
  exists sc. split; [exact E|]. apply H. apply reach_refl.
Qed.

(** Without the dependency order a shared node may end up without its scope. *)
Theorem compute_scope_any_dag_refuted : exists (net : network XR) N r sc0 sc u x,
  bounded (children net) N /\ r < N /\ acyclic (children net) /\
  (forall v, reach (children net) r v -> children net v = [] -> NoDup (sc0 v)) /\
  computeScope net (fun _ l => l) (2 * N + 1) r sc0 = Ok sc /\ reach (children net) r u /\
  below (children net) sc0 u x /\ sc u = [].
Proof. exact computeScope_refuted_l. Qed.
Print Assumptions compute_scope_any_dag_refuted.

(** C24, false: a violation below the root goes unnoticed. *)
Theorem complete_decides_refuted : exists (net : network XR) N r sc0 u w c c' x,
  bounded (children net) N /\ r < N /\ acyclic (children net) /\ siblings_ok (children net) /\
  (forall v, reach (children net) r v -> children net v = [] -> NoDup (sc0 v)) /\
  complete_ net (fun _ l => l) (2 * N + 1) r sc0 = Ok true /\
  reach (children net) r u /\ nk (net u) = KSum w /\ In c (children net u) /\ In c' (children net u) /\
  below (children net) sc0 c x /\ ~ below (children net) sc0 c' x.
Proof. exact complete_refuted_l. Qed.
Print Assumptions complete_decides_refuted.

Theorem decomposable_decides_refuted : exists (net : network XR) N r sc0 u i j c c' x,
  bounded (children net) N /\ r < N /\ acyclic (children net) /\ siblings_ok (children net) /\
  (forall v, reach (children net) r v -> children net v = [] -> NoDup (sc0 v)) /\
  decomposable_ net (fun _ l => l) (2 * N + 1) r sc0 = Ok true /\
  reach (children net) r u /\ nk (net u) = KProd /\ i <> j /\
  nth_error (children net u) i = Some c /\ nth_error (children net u) j = Some c' /\
  below (children net) sc0 c x /\ below (children net) sc0 c' x.
Proof. exact decomposable_refuted_l. Qed.
Print Assumptions decomposable_decides_refuted.

(** C24, what holds: the root is checked correctly. Missing: every other node. *)
Theorem complete_root_partial :
  forall (A : arith) (net : network A) (ord : nat -> list Z -> list Z),
  (forall s l, Permutation (ord s l) l) ->
  forall N r sc0,
  bounded (children net) N -> r < N -> acyclic (children net) -> siblings_ok (children net) ->
  (forall v, reach (children net) r v -> children net v = [] -> NoDup (sc0 v)) ->
  exists b, complete_ net ord (2 * N + 1) r sc0 = Ok b /\
    (b = true <-> forall w c c' x, nk (net r) = KSum w -> In c (children net r) -> In c' (children net r) ->
       below (children net) sc0 c x -> below (children net) sc0 c' x).
Proof. exact (@complete_root_l). Qed.
Print Assumptions complete_root_partial.

Theorem decomposable_root_partial :
  forall (A : arith) (net : network A) (ord : nat -> list Z -> list Z),
  (forall s l, Permutation (ord s l) l) ->
  forall N r sc0,
  bounded (children net) N -> r < N -> acyclic (children net) -> siblings_ok (children net) ->
  (forall v, reach (children net) r v -> children net v = [] -> NoDup (sc0 v)) ->
  children net r <> [] ->
  exists b, decomposable_ net ord (2 * N + 1) r sc0 = Ok b /\
    (b = true <-> forall i j c c' x, nk (net r) = KProd -> i <> j -> nth_error (children net r) i = Some c ->
       nth_error (children net r) j = Some c' -> below (children net) sc0 c x -> ~ below (children net) sc0 c' x).
Proof. exact (@decomposable_root_l). Qed.
Print Assumptions decomposable_root_partial.

(** Both answers occur. *)
Example complete_case : complete_ snet (fun _ l => rev l) 13 0 ssc = Ok true /\
  complete_ cnet (fun _ l => l) 9 1 csc = Ok false.
Proof. split; reflexivity. Qed.
Example decomposable_case : decomposable_ snet (fun _ l => rev l) 13 1 ssc = Ok true /\
  decomposable_ dnet (fun _ l => l) 9 1 dsc = Ok false.
Proof. split; reflexivity. Qed.
Example complete_case_hypotheses : bounded (children snet) 6 /\ acyclic (children snet) /\
  siblings_ok (children snet) /\
  (forall v, reach (children snet) 0 v -> children snet v = [] -> NoDup (ssc v)) /\ children snet 0 <> [].
Proof.
  repeat (split; [first [exact snet_bounded|exact snet_acyclic|exact snet_siblings|exact snet_leaf_scopes]|]). discriminate.
Qed.

(** C25. *)
Theorem height_is_longest_path :
  forall (A : arith) (net : network A) N r,
  bounded (children net) N -> r < N -> acyclic (children net) ->
  forall u f, reach (children net) r u -> N <= f ->
  exists h, height net f u = Ok h /\ longest (children net) u h.
Proof. exact (@height_l). Qed.
Print Assumptions height_is_longest_path.

Theorem compute_height_agrees_refuted : exists (net : network XR) N r,
  bounded (children net) N /\ r < N /\ acyclic (children net) /\
  (forall v, reach (children net) r v -> children net v = [] -> isLeaf net v = true) /\
  height net N r = Ok 2 /\ computeHeight net (S N) r = Ok 1.
Proof. exact computeHeight_refuted_l. Qed.
Print Assumptions compute_height_agrees_refuted.

(** C25 for ComputeHeight. Missing: nodes at several depths. *)
Theorem compute_height_partial :
  forall (A : arith) (net : network A) N r,
  bounded (children net) N -> r < N -> acyclic (children net) -> uniform_depth (children net) r ->
  (forall v, reach (children net) r v -> children net v = [] -> isLeaf net v = true) ->
  exists h, computeHeight net (S N) r = Ok h /\ longest (children net) r h.
Proof. exact (@computeHeight_l). Qed.
Print Assumptions compute_height_partial.

Theorem trees_have_uniform_depth : forall ch r, tree ch r -> uniform_depth ch r.
Proof. exact tree_uniform. Qed.
Print Assumptions trees_have_uniform_depth.

Theorem layered_networks_have_uniform_depth : forall ch r lev, graded ch lev -> uniform_depth ch r.
Proof. exact graded_uniform. Qed.
Print Assumptions layered_networks_have_uniform_depth.

Example height_case : height snet 6 0 = Ok 2 /\ longest (children snet) 0 2 /\ computeHeight snet 7 0 = Ok 2.
Proof.
  split; [reflexivity|]. split; [|reflexivity].
  destruct (compute_height_partial XR snet 6 0 snet_bounded ltac:(lia) snet_acyclic snet_uniform snet_leaves) as (h & E & H).
  assert (E' : computeHeight snet 7 0 = Ok 2) by reflexivity. congruence.
Qed.

(** C26, Normalize of learn/derive.go. All-zero weights, and equal negative ones, are excluded. *)
Theorem normalize_distribution :
  forall ws : list R,
  (exists w, In w ws /\ (0 < w)%R) \/ (exists w w', In w ws /\ In w' ws /\ w <> w') ->
  exists qs, @normalize XR (map Fin ws) = map Fin qs /\ normalised_like ws qs.
Proof. exact normalize_l. Qed.
Print Assumptions normalize_distribution.

Example normalize_case : exists qs, @normalize XR (map Fin [-1; 2; 0]%R) = map Fin qs /\ normalised_like [-1; 2; 0]%R qs.
Proof. apply normalize_distribution. left. exists 2%R. simpl. split; auto. lra. Qed.

Theorem normalize_zero_weights_refuted : exists ws, ws <> [] /\ @normalize XR (map Fin ws) = [NaN; NaN].
Proof. exact normalize_refuted_l. Qed.
Print Assumptions normalize_zero_weights_refuted.

(** C26, norm of spn/utils.go, false with a negative weight. *)
Theorem norm_distribution_refuted : exists ws qs, @norm XR (map Fin ws) = map Fin qs /\
  (exists w, In w ws /\ (0 < w)%R) /\ (exists q, In q qs /\ (q < 0)%R) /\
  exists wi wj qi qj, nth_error ws 0 = Some wi /\ nth_error ws 1 = Some wj /\ nth_error qs 0 = Some qi /\
    nth_error qs 1 = Some qj /\ (wi < wj)%R /\ (qj < qi)%R.
Proof. exact norm_refuted_l. Qed.
Print Assumptions norm_distribution_refuted.

(** C26, NormalizeSPN. Missing: negative weights. *)
Theorem normalize_spn_partial :
  forall (net : network XR) N r, bounded (children net) N -> r < N -> weights_nonneg net r ->
  (forall u ws, reach (children net) r u -> nk (net u) = @KSum XR (map Fin ws) -> (0 < Rsum ws)%R) ->
  exists net', normalizeSPN net (S N) r = Ok net' /\
    (forall u, children net' u = children net u) /\
    (forall u ws, reach (children net) r u -> nk (net u) = @KSum XR (map Fin ws) ->
       exists qs, nk (net' u) = @KSum XR (map Fin qs) /\ normalised_like ws qs) /\
    (forall u, (~ reach (children net) r u \/ forall w, nk (net u) <> KSum w) -> net' u = net u).
Proof. exact normalizeSPN_l. Qed.
Print Assumptions normalize_spn_partial.

Example normalize_spn_case : weights_nonneg snet 0 /\
  (forall u ws, reach (children snet) 0 u -> nk (snet u) = @KSum XR (map Fin ws) -> (0 < Rsum ws)%R).
Proof. exact snet_weights. Qed.
