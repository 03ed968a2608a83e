(** C21-C22: MAP inference. *)
From Coq Require Import Reals.
From Verif Require Import Base Res Arith LogSpec GraphSpec Storer Spn SpnSpec Leaves ProbSpec MapSpec MapLemmas
  ProbCases MapCases.

(** C21. [st] is any storer reachable by API calls; [rnd] is every outcome of the tie-breaking. *)
Theorem store_map_maximal_tree :
  forall (net : network XR) N r I tk (st : storer xreal) ops rnd,
  run_state (ustep xreal (Fin 0)) (newStorer xreal) ops = Some st ->
  bounded (children net) N -> r < N -> acyclic (children net) -> siblings_ok (children net) ->
  leaves_childless net -> nch (net r) <> [] -> weights_nonneg net r -> leaves_answer net I r ->
  ((0 <= tk)%Z -> snd (table xreal st tk) = true) ->
  (forall i n, 0 < n -> rnd i n < n) ->
  exists st' tk' M sel, storeMAP net rnd (2 * N + 1) r I tk st = Ok (st', (Some r, tk', Some M)) /\
    tk' = (if (tk <? 0)%Z then tickets xreal st else tk) /\
    (forall u, reach (children net) r u ->
       exists v, max_ net N I u = Ok v /\ sSingle xreal (Fin 0) st' tk' u = (v, true)) /\
    (forall k x l, k <> tk' -> sEntry xreal (Fin 0) st' k x l = sEntry xreal (Fin 0) st k x l) /\
    maximal_tree net N I r sel /\ union_of_leaves net I r sel M.
Proof. exact storeMAP_l. Qed.
Print Assumptions store_map_maximal_tree.

(** C21, what it means on valid multinomial networks: the assignment covers exactly the scope, keeps
    the evidence and is at least as probable as the max-product value. *)
Theorem store_map_assignment :
  forall (net : network XR) (card : Z -> nat) N r I tk (st : storer xreal) ops rnd,
  run_state (ustep xreal (Fin 0)) (newStorer xreal) ops = Some st ->
  bounded (children net) N -> r < N -> acyclic (children net) -> siblings_ok (children net) ->
  leaves_childless net -> nch (net r) <> [] -> weights_nonneg net r ->
  multinomial_leaves net card r -> complete net r -> decomposable net r -> evidence_ok card I ->
  ((0 <= tk)%Z -> snd (table xreal st tk) = true) ->
  (forall i n, 0 < n -> rnd i n < n) ->
  exists st' tk' M m v, storeMAP net rnd (2 * N + 1) r I tk st = Ok (st', (Some r, tk', Some M)) /\
    (forall x, M x <> None <-> in_scope net r x) /\
    (forall x a, in_scope net r x -> I x = Some a -> M x = Some a) /\
    max_ net N I r = Ok m /\ value net N M r = Ok v /\ xge v m = true.
Proof. exact storeMAP_multi_l. Qed.
Print Assumptions store_map_assignment.

Example map_case :
  let net := wnet wl5 in
  bounded (children net) 6 /\ acyclic (children net) /\ siblings_ok (children net) /\ leaves_childless net /\
  nch (net 0) <> [] /\ weights_nonneg net 0 /\ multinomial_leaves net wcard 0 /\ complete net 0 /\
  decomposable net 0 /\ evidence_ok wcard (setvar (fun _ => None) 1 2) /\
  leaves_answer net (setvar (fun _ => None) 1 2) 0.
Proof. exact map_case_l. Qed.

(** C22. *)
Theorem trace_map_attains :
  forall (net : network XR) N r I rnd,
  bounded (children net) N -> r < N -> acyclic (children net) -> siblings_ok (children net) ->
  leaves_childless net -> weights_nonneg net r -> leaves_answer net I r ->
  (forall i n, 0 < n -> rnd i n < n) ->
  exists P, traceMAP net rnd (2 * N + 1) r I = Ok P /\
    (forall u j, P u = Some j -> reach (children net) r u /\ attains_at net N I u j) /\
    (tree (children net) r -> forall u w, reach (followed net P) r u -> nk (net u) = KSum w -> P u <> None).
Proof. exact traceMAP_l. Qed.
Print Assumptions trace_map_attains.

Example trace_case :
  bounded (children tnet) 7 /\ acyclic (children tnet) /\ siblings_ok (children tnet) /\ leaves_childless tnet /\
  weights_nonneg tnet 0 /\ leaves_answer tnet (fun _ => None) 0 /\ tree (children tnet) 0.
Proof. exact trace_case_l. Qed.
