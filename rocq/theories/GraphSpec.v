(** Specification vocabulary for networks seen as directed graphs. A network is a function
    from node (pointer) to its list of children, as returned by Ch()
    (/repo/spn/node.go:79-81). No algorithm of gospn is used here. *)
From Verif Require Import Base.

Definition graph := nat -> list nat.

(** There is a (possibly empty) downward path. *)
Inductive reach (ch : graph) : nat -> nat -> Prop :=
| reach_refl : forall x, reach ch x x
| reach_step : forall x c y, In c (ch x) -> reach ch c y -> reach ch x y.

(** No node is a proper descendant of itself. *)
Definition acyclic (ch : graph) : Prop := forall x c, In c (ch x) -> ~ reach ch c x.

(** The graph is finite: every child is one of the [N] allocated nodes. *)
Definition bounded (ch : graph) (N : nat) : Prop := forall u c, In c (ch u) -> c < N.

(** [l] lists exactly the nodes reachable from [r], each once. *)
Definition enumerates (ch : graph) (r : nat) (l : list nat) : Prop :=
  NoDup l /\ forall x, In x l <-> reach ch r x.

(** Every child occurs strictly before each of its parents. *)
Definition dependency_order (ch : graph) (l : list nat) : Prop :=
  forall a x b, l = a ++ x :: b -> forall c, In c (ch x) -> In c a.

(** Every parent occurs strictly before each of its children. *)
Definition topological_order (ch : graph) (l : list nat) : Prop :=
  forall a x b, l = a ++ x :: b -> forall c, In c (ch x) -> In c b.

(** No child [a] of a node can be reached from another child [v] that comes after it in the
    node's child list. Trees and layered networks satisfy this. *)
Definition siblings_ok (ch : graph) : Prop :=
  forall p l1 a l2 v l3, ch p = l1 ++ a :: l2 ++ v :: l3 ->
    ~ In v (l1 ++ a :: l2) -> ~ reach ch v a.

(** Length of a path. *)
Inductive path_len (ch : graph) : nat -> nat -> nat -> Prop :=
| path_len_0 : forall x, path_len ch x x 0
| path_len_S : forall x y c n, path_len ch x y n -> In c (ch y) -> path_len ch x c (S n).

(** Distance: length of a shortest path. *)
Definition distance (ch : graph) (x y d : nat) : Prop :=
  path_len ch x y d /\ forall n, path_len ch x y n -> d <= n.

(** Layered networks: each edge goes down exactly one level. *)
Definition graded (ch : graph) (level : nat -> nat) : Prop :=
  forall x c, In c (ch x) -> level c = S (level x).

(** Trees: at most one parent edge per node, none into the root. *)
Definition tree (ch : graph) (r : nat) : Prop :=
  (forall x, ~ In r (ch x)) /\
  (forall x, NoDup (ch x)) /\
  (forall x y c, In c (ch x) -> In c (ch y) -> x = y).
