(** C14: graph search. *)
From Verif Require Import Base GraphSpec GraphLemmas Search SearchLemmas.

(** Every callback, stateful or not. [calls] are the nodes f is called on, in order. *)
Theorem search_calls :
  forall (ch : graph) (d : discipline) (f : list nat -> nat -> Z) (G N : nat),
  bounded ch N -> G < N ->
  exists calls, searchFunc ch d f (S N) G = Some calls /\
    NoDup calls /\ (exists t, calls = G :: t) /\
    (* every further call is on a child of a node where f answered 0 *)
    (forall a x b, calls = a ++ x :: b -> a <> [] ->
       exists a1 u a2, a = a1 ++ u :: a2 /\ f a1 u = 0%Z /\ In x (ch u)) /\
    (* a positive answer stops the search *)
    (forall a x b, calls = a ++ x :: b -> (f a x > 0)%Z -> b = []) /\
    (* without one, all children of nodes where f answered 0 are called *)
    ((forall a x b, calls = a ++ x :: b -> ~ (f a x > 0)%Z) ->
     forall a x b c, calls = a ++ x :: b -> f a x = 0%Z -> In c (ch x) -> In c calls).
Proof. exact searchFunc_l. Qed.
Print Assumptions search_calls.

Example search_calls_case :
  bounded ex_net 6 /\
  breadthFirst ex_net (fun _ _ => 0%Z) 7 0 = Some [0; 1; 2; 3; 4; 5] /\
  depthFirst ex_net (fun _ _ => 0%Z) 7 0 = Some [0; 2; 4; 5; 3; 1] /\
  breadthFirst ex_net (fun _ u => if Nat.eqb u 2 then (-1)%Z else 0%Z) 7 0 = Some [0; 1; 2; 3] /\
  breadthFirst ex_net (fun h _ => if Nat.eqb (length h) 2 then 1%Z else 0%Z) 7 0 = Some [0; 1; 2].
Proof. split; [exact ex_net_bounded|]. repeat split. Qed.

Theorem search_visits_each_once :
  forall (ch : graph) (d : discipline) (N G : nat), bounded ch N -> G < N ->
  exists calls, searchFunc ch d (fun _ _ => 0%Z) (S N) G = Some calls /\ enumerates ch G calls.
Proof. exact search_zero_enum. Qed.
Print Assumptions search_visits_each_once.

Theorem breadth_first_by_distance :
  forall (ch : graph) (G k : nat) (calls : list nat),
  breadthFirst ch (fun _ _ => 0%Z) k G = Some calls ->
  forall a x b, calls = a ++ x :: b -> forall y dx dy, In y b ->
    distance ch G x dx -> distance ch G y dy -> dx <= dy.
Proof. exact bfs_order. Qed.
Print Assumptions breadth_first_by_distance.

Theorem count_nodes_exact :
  forall (ch : graph) (type : nat -> ntype) (N G : nat) (l : list nat),
  bounded ch N -> G < N -> enumerates ch G l ->
  countNodes ch type (S N) G =
  Some (length (filter (fun u => match type u with TSum => true | _ => false end) l),
        length (filter (fun u => match type u with TProduct => true | _ => false end) l),
        length (filter (fun u => match type u with TLeaf => true | _ => false end) l)).
Proof. exact countNodes_l. Qed.
Print Assumptions count_nodes_exact.

Example count_nodes_case :
  countNodes ex_net (fun u => match u with 0 | 4 => TSum | 1 | 2 => TProduct | _ => TLeaf end) 7 0
  = Some (2, 2, 2).
Proof. reflexivity. Qed.
