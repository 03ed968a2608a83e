(** What the learner of Gens and Domingos needs and returns. *)
From Verif Require Import Base Res Arith GraphSpec Spn Build GoMap DataSpec TablesSpec ProbSpec PoonSpec Gens.
Local Open Scope Z_scope.

(** A scope and a dataset one can learn from: at least one variable, stored under its number; at
    least one instance; all instances have the same variables, among them those of the scope;
    every value is a category of its variable. *)
Record learnable (Sc : scope) (D : list gmap) : Prop := {
  ln_scope : Sc <> []; ln_keys : NoDup (map fst Sc); ln_id : forall x v, In (x, v) Sc -> v_id v = x;
  ln_data : D <> [];
  ln_vars : exists vars, NoDup vars /\ same_variables vars D /\ forall x, In x (map fst Sc) -> In x vars;
  ln_cat : forall I x v y, In I D -> In (x, v) Sc -> get I x = Some y -> 0 <= y < v_cat v }.

(** K-means gives every row one of k labels, and every label to some row. *)
Definition uses_all_labels {T} (k : Z) (km : list nat -> list T -> res (list Z)) : Prop :=
  forall p M, k <= Z.of_nat (length M) -> exists G, km p M = Ok G /\ length G = length M /\
    (forall g, In g G -> 0 <= g < k) /\ forall c, 0 <= c < k -> In c G.

(** Ranging over a scope visits every entry once. *)
Definition visits_scope (ordS : list nat -> nat -> scope -> scope) : Prop := forall p i Sc, Permutation (ordS p i Sc) Sc.

(** The weights are a/n for positive integers a that add up to n. *)
Definition shares {A : arith} (ws : list (F A)) : Prop :=
  exists ns n, ws = map (fun a => fdiv (fz a) (fz n)) ns /\ (forall a, In a ns -> 0 < a) /\ fold_right Z.add 0 ns = n.

(** Sum nodes below [z] have children, one weight per child, and the weights are shares. *)
Definition share_weights {A : arith} (net : network A) (z : nat) : Prop :=
  forall u ws, reach (children net) z u -> nk (net u) = KSum ws ->
    nch (net u) <> [] /\ length ws = length (nch (net u)) /\ shares ws.

(** The same node with its children in another order. *)
Inductive reordered {A : arith} : tree A -> tree A -> Prop :=
| re_same : forall t, reordered t t
| re_sum : forall cs cs', Permutation cs cs' -> reordered (TSum cs) (TSum cs')
| re_prod : forall cs cs', Permutation cs cs' -> reordered (TProd cs) (TProd cs').

(** What the runtime and foreign packages decide, as far as the theorems need to know: ranging over
    maps visits every entry once, RandIntn(n) is below n, converting an int to a float and back
    changes nothing. *)
Definition admissible {A : arith} (ordS : list nat -> nat -> scope -> scope) (ordD : list nat -> nat -> gmap -> gmap)
    (rnd : list nat -> nat -> nat -> nat) (toInt : F A -> Z) : Prop :=
  visits_scope ordS /\ (forall p, visits_all (ordD p)) /\ (forall p i n, (0 < n)%nat -> (rnd p i n < n)%nat) /\ (forall x, toInt (fz x) = x).

(** The nodes of a tree form a valid network over exactly the variables of the scope. *)
Definition valid_over {A : arith} (Sc : scope) (t : tree A) : Prop :=
  exists H z, place t [] = (H, z) /\ (z < length H)%nat /\ (forall u c, In c (children (netOf H) u) -> (c < length H)%nat) /\
  (forall x, in_scope (netOf H) z x <-> In x (map fst Sc)) /\ complete (netOf H) z /\ decomposable (netOf H) z /\
  acyclic_from (children (netOf H)) z /\ share_weights (netOf H) z.

(** How many children the root has. *)
Definition arity {A : arith} (t : tree A) : nat := match t with TLeaf _ => 0 | TSum cs => length cs | TProd cs => length cs end.
