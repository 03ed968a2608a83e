(** C10-C13: topological sorts. *)
From Verif Require Import Base Collections CollectionsSpec CollectionsLemmas GraphSpec GraphLemmas
  Topo TopoLemmas.

(** What the collection handed to a sort returns afterwards: the order of the Give calls for
    a Queue, the reverse for a Stack. *)
Theorem queue_returns_give_order :
  forall (A : Type) (nilA : A) (lowbound : Z) (l : list (A * nat)),
    run (queue_step A nilA lowbound) (empty_coll A) (feed A l ++ drain A (length l))
    = (repeat (RUnit A) (length l) ++ map (RElem A) (map fst l), false).
Proof. exact queue_feed_drain_l. Qed.
Print Assumptions queue_returns_give_order.

Theorem stack_returns_reverse_order :
  forall (A : Type) (nilA : A) (lowbound : Z) (l : list (A * nat)),
    run (stack_step A nilA lowbound) (empty_coll A) (feed A l ++ drain A (length l))
    = (repeat (RUnit A) (length l) ++ map (RElem A) (rev (map fst l)), false).
Proof. exact stack_feed_drain_l. Qed.
Print Assumptions stack_returns_reverse_order.

(** C10 *)
Theorem recursive_sort_is_dependency_order :
  forall (ch : graph) (N r : nat), bounded ch N -> r < N ->
  exists l, topSortTarjanRec ch (S N) r = Some l /\ postOrder ch (S N) r = Some l /\
    enumerates ch r l /\ (exists l0, l = l0 ++ [r]) /\
    (acyclic ch -> dependency_order ch l /\ topological_order ch (rev l)).
Proof. exact tarjanRec_full. Qed.
Print Assumptions recursive_sort_is_dependency_order.

Example recursive_sort_case :
  bounded ex_shared 4 /\ acyclic ex_shared /\ topSortTarjanRec ex_shared 5 0 = Some [1; 3; 2; 0].
Proof. split; [exact ex_shared_bounded|]. split; [exact ex_shared_acyclic|]. reflexivity. Qed.

(** C11 *)
Theorem iterative_sort_enumerates :
  forall (ch : graph) (N r : nat), bounded ch N -> r < N ->
  exists l, topSortTarjan ch (2 * N + 1) r = Some l /\ enumerates ch r l /\
            exists l0, l = l0 ++ [r].
Proof. exact tarjan_full. Qed.
Print Assumptions iterative_sort_enumerates.

Example iterative_sort_cyclic_case :
  let ch := fun u => match u with 0 => [1; 0] | 1 => [2; 0] | _ => [] end in
  topSortTarjan ch 7 0 = Some [2; 1; 0].
Proof. reflexivity. Qed.

(** C11, TopSortTarjanFunc: the callback sees a prefix of the same order, cut right after its
    first false answer. *)
Theorem iterative_sort_func_stops :
  forall (ch : graph) (f : list nat -> bool) (N r : nat), bounded ch N -> r < N ->
  exists l l1 l2, topSortTarjan ch (2 * N + 1) r = Some l /\ l = l1 ++ l2 /\
    topSortTarjanFunc ch f (2 * N + 1) r = Some l1 /\
    (forall a b, l1 = a ++ b -> a <> [] -> b <> [] -> f a = true) /\
    (l2 <> [] -> l1 <> [] /\ f l1 = false).
Proof. exact tarjanFunc_full. Qed.
Print Assumptions iterative_sort_func_stops.

Example iterative_sort_func_case :
  topSortTarjanFunc ex_shared (fun h => negb (Nat.eqb (length h) 2)) 9 0 = Some [3; 2].
Proof. reflexivity. Qed.

(** C12: false for shared nodes. *)
Theorem iterative_sort_dependency_order_refuted :
  exists (ch : graph) (N r : nat) (l : list nat),
    bounded ch N /\ acyclic ch /\ r < N /\ topSortTarjan ch (2 * N + 1) r = Some l /\
    ~ dependency_order ch l.
Proof. exact iterative_sort_dependency_order_refuted_l. Qed.
Print Assumptions iterative_sort_dependency_order_refuted.

(** C12, the condition under which it holds: no child is reachable from a later sibling. *)
Theorem iterative_sort_dependency_order_partial :
  forall (ch : graph) (N r : nat), bounded ch N -> r < N -> acyclic ch -> siblings_ok ch ->
  exists l, topSortTarjan ch (2 * N + 1) r = Some l /\ dependency_order ch l.
Proof. exact tarjan_order_full. Qed.
Print Assumptions iterative_sort_dependency_order_partial.

(** Layered networks and trees satisfy the condition. *)
Theorem layered_networks_siblings_ok :
  forall (ch : graph) (lev : nat -> nat), graded ch lev -> siblings_ok ch /\ acyclic ch.
Proof. exact graded_siblings_acyclic. Qed.
Print Assumptions layered_networks_siblings_ok.

Theorem trees_siblings_ok :
  forall (ch : graph) (r : nat), tree ch r -> acyclic ch -> siblings_ok ch.
Proof. exact tree_siblings. Qed.
Print Assumptions trees_siblings_ok.

Example iterative_sort_layered_case :
  siblings_ok ex_layered /\ acyclic ex_layered /\
  topSortTarjan ex_layered 11 0 = Some [4; 3; 2; 1; 0].
Proof.
  destruct (graded_siblings_acyclic _ _ ex_layered_graded) as [H1 H2]. repeat split; auto.
Qed.

(** C13: false with a repeated child (listed twice), and with shared nodes as in C12. *)
Theorem dfs_sort_once_refuted :
  exists (ch : graph) (N r : nat) (l : list nat),
    bounded ch N /\ acyclic ch /\ r < N /\ topSortDFS ch (2 * N + 1) r = Some l /\
    ~ NoDup l.
Proof. exact dfs_sort_once_refuted_l. Qed.
Print Assumptions dfs_sort_once_refuted.

Theorem dfs_sort_partial :
  forall (ch : graph) (N r : nat), bounded ch N -> r < N -> (forall x, NoDup (ch x)) ->
  exists l, topSortDFS ch (2 * N + 1) r = Some l /\ enumerates ch r l /\
    (exists l0, l = l0 ++ [r]) /\ (acyclic ch -> siblings_ok ch -> dependency_order ch l).
Proof. exact dfs_full. Qed.
Print Assumptions dfs_sort_partial.

Example dfs_sort_case :
  (forall x, NoDup (ex_layered x)) /\ topSortDFS ex_layered 11 0 = Some [4; 3; 2; 1; 0].
Proof.
  split; [|reflexivity]. intros x. destruct x as [|[|[|x]]]; simpl; repeat constructor; simpl;
  intuition lia.
Qed.
