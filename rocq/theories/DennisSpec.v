(** Finite sets of variables, independently of the code of the Dennis-Ventura learner. *)
From Coq Require Import Reals.
From Verif Require Import Base GoMap.
Local Open Scope Z_scope.

(** [k] is a key of the map. *)
Definition member (s : gmap) (k : Z) : Prop := In k (keys s).
(** The set [P] has exactly [n] elements. *)
Definition card (P : Z -> Prop) (n : Z) : Prop :=
  exists l, NoDup l /\ (forall x, In x l <-> P x) /\ Z.of_nat (length l) = n.
(** Both have the same keys. *)
Definition same_keys (s t : gmap) : Prop := forall k, member s k <-> member t k.
(** The ratio of the sizes of the intersection and the union is [q]. *)
Definition ratio (s t : gmap) (q : R) : Prop :=
  exists i u, card (fun k => member s k /\ member t k) i /\ card (fun k => member s k \/ member t k) u /\
              q = (IZR i / IZR u)%R.

(** [a] and [b] are two disjoint sets making up [s]. *)
Definition split_of (s a b : gmap) : Prop :=
  (forall x, member s x <-> member a x \/ member b x) /\ (forall x, member a x -> ~ member b x).
(** Every answer of 2-means on two or more points assigns each point to cluster 0 or 1 and leaves
    neither empty. *)
Definition two_clusters (km : nat -> list (list Z) -> list nat) : Prop :=
  forall c M, (2 <= length M)%nat -> length (km c M) = length M /\
    (forall j, In j (km c M) -> (j < 2)%nat) /\ In 0%nat (km c M) /\ In 1%nat (km c M).

(** A dataset with at least one row, every row giving exactly the variables 0 to n-1. *)
Definition complete_rows (n : nat) (D : list gmap) : Prop :=
  D <> [] /\ forall I, In I D -> NoDup (keys I) /\ forall k, member I k <-> 0 <= k < Z.of_nat n.
(** What the learner sees of the data for [k] clusters: the parts found by k-means for k > 1, all
    of it for k = 1, the parts found by DBSCAN otherwise. *)
Definition good_views (kmD : list gmap -> list (list gmap)) (db : list gmap -> list (list (list Z)))
    (n : nat) (D : list gmap) (k : Z) : Prop :=
  (1 < k -> (Z.to_nat k <= length (kmD D))%nat /\ forall P, In P (kmD D) -> complete_rows n P) /\
  (k = 1 -> complete_rows n D) /\
  (k < 1 -> db D <> [] /\ forall P, In P (db D) -> P <> [] /\ forall row, In row P -> length row = n).

From Verif Require Import Arith GraphSpec Spn Leaves LogSpec.
(** Sum nodes below [z] have children, one positive weight per child, and weights summing to one. *)
Definition proper_weights (net : network XR) (z : nat) : Prop :=
  forall u w, reach (children net) z u -> nk (net u) = KSum w ->
    nch (net u) <> [] /\ exists ws, w = map Fin ws /\ length ws = length (nch (net u)) /\
    (forall q, In q ws -> (0 < q)%R) /\ Rsum ws = 1%R.

(** Every leaf of the network is a Gaussian without children, with one of the parameters [par] of its variable. *)
Definition gaussian_leaves {A : arith} (par : Z -> nat -> F A * F A) (logProb : F A -> F A -> F A -> F A) (trunc round : F A -> Z)
    (net : network A) : Prop :=
  forall u l, nk (net u) = KLeaf l -> nch (net u) = [] /\
    exists v i, l = gaussLeaf logProb trunc round v (fst (par v i)) (snd (par v i)).
