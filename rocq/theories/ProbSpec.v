(** Probabilistic vocabulary for networks of discrete leaves over the extended reals. *)
From Coq Require Import Reals.
From Verif Require Import Base Res Arith LogSpec GraphSpec Spn Leaves.
Local Open Scope R_scope.

Section G.
Context {A : arith}.
Variable net : network A.

(** Variable [x] occurs in a leaf below [u]. *)
Definition in_scope (u : nat) (x : Z) : Prop :=
  exists v l, reach (children net) u v /\ nk (net v) = KLeaf l /\ In x (lsc l).

(** The children of every sum node below [r] have the same scope. *)
Definition complete (r : nat) : Prop :=
  forall u w c c' x, reach (children net) r u -> nk (net u) = KSum w ->
    In c (nch (net u)) -> In c' (nch (net u)) -> in_scope c x -> in_scope c' x.

(** The children of every product node below [r] have pairwise disjoint scopes. *)
Definition decomposable (r : nat) : Prop :=
  forall u i j c c' x, reach (children net) r u -> nk (net u) = KProd -> i <> j ->
    nth_error (nch (net u)) i = Some c -> nth_error (nch (net u)) j = Some c' ->
    in_scope c x -> ~ in_scope c' x.

End G.

Section S.
Variable net : network XR.

(** Sum nodes below [r] have at least one child and one real non-negative weight per child. *)
Definition weights_nonneg (r : nat) : Prop :=
  forall u w, reach (children net) r u -> nk (net u) = KSum w ->
    nch (net u) <> [] /\
    exists ws, w = map Fin ws /\ length ws = length (nch (net u)) /\ forall x, In x ws -> 0 <= x.

(** ... and they sum to one. *)
Definition weights_normalised (r : nat) : Prop :=
  forall u ws, reach (children net) r u -> nk (net u) = @KSum XR (map Fin ws) -> Rsum ws = 1.

(** A multinomial leaf over [x]: a distribution on 0 .. card x - 1 with its mode. *)
Definition multinomial_leaf (card : Z -> nat) (l : leaf XR) (x : Z) : Prop :=
  exists ps mi, l = multiLeaf (@mkMulti XR [x] x (map Fin ps) (Z.of_nat mi) (Fin (nth mi ps 0))) /\
    length ps = card x /\ (forall p, In p ps -> 0 <= p) /\ Rsum ps = 1 /\
    (mi < length ps)%nat /\ forall p, In p ps -> p <= nth mi ps 0.

(** An indicator leaf over [x]. *)
Definition indicator_leaf (card : Z -> nat) (l : leaf XR) (x : Z) : Prop :=
  exists v, l = @indLeaf XR x (Z.of_nat v) /\ (v < card x)%nat.

Definition discrete_leaves (card : Z -> nat) (r : nat) : Prop :=
  forall u l, reach (children net) r u -> nk (net u) = KLeaf l ->
    nch (net u) = [] /\ exists x, multinomial_leaf card l x \/ indicator_leaf card l x.

Definition multinomial_leaves (card : Z -> nat) (r : nat) : Prop :=
  forall u l, reach (children net) r u -> nk (net u) = KLeaf l ->
    nch (net u) = [] /\ exists x, multinomial_leaf card l x.
End S.

(** Every set variable has a value in its domain. *)
Definition evidence_ok (card : Z -> nat) (I : varset) : Prop :=
  forall x v, I x = Some v -> (0 <= v < Z.of_nat (card x))%Z.

(** The sum of [f] over all values of the variables [xs], the rest being as in [I]. *)
Fixpoint sum_over (card : Z -> nat) (xs : list Z) (f : varset -> R) (I : varset) : R :=
  match xs with
  | [] => f I
  | x :: t =>
      Rsum (map (fun v => sum_over card t f (fun k => if (k =? x)%Z then Some (Z.of_nat v) else I k))
                (seq 0 (card x)))
  end.
