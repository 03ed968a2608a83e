(** Vocabulary for MAP inference. *)
From Coq Require Import Reals.
From Verif Require Import Base Res Arith LogSpec GraphSpec Spn.

Section G.
Context {A : arith}.
Variable net : network A.

(** The network where every sum node keeps only its selected child. *)
Definition selected (sel : nat -> nat) : graph := fun u =>
  match nk (net u) with KSum _ => [sel u] | KProd => nch (net u) | KLeaf _ => [] end.

(** The network where a sum node keeps the child at the recorded position, if there is one. *)
Definition followed (P : nat -> option nat) : graph := fun u =>
  match nk (net u) with
  | KSum _ => match P u with
              | Some i => match nth_error (nch (net u)) i with Some c => [c] | None => [] end
              | None => []
              end
  | KProd => nch (net u)
  | KLeaf _ => []
  end.

End G.

Section S.
Variable net : network XR.

(** The child at position [i] of sum node [u] attains the max-product value of [u]. *)
Definition attains_at (N : nat) (I : varset) (u i : nat) : Prop :=
  exists ws w c x, nk (net u) = KSum ws /\ nth_error ws i = Some w /\
    nth_error (nch (net u)) i = Some c /\
    max_ net N I c = Ok x /\ max_ net N I u = Ok (xadd (xlog w) x).

(** Every sum node of the induced tree selects a child attaining its max-product value. *)
Definition maximal_tree (N : nat) (I : varset) (r : nat) (sel : nat -> nat) : Prop :=
  forall u w, reach (selected net sel) r u -> nk (net u) = KSum w ->
    exists i, nth_error (nch (net u)) i = Some (sel u) /\ attains_at N I u i.

(** [M] is the union of the leaf maxima of the induced tree. *)
Definition union_of_leaves (I : varset) (r : nat) (sel : nat -> nat) (M : varset) : Prop :=
  (forall x v, M x = Some v -> exists u l J y, reach (selected net sel) r u /\ nk (net u) = KLeaf l /\
     largmax l I = Some (J, y) /\ J x = Some v) /\
  (forall u l J y x, reach (selected net sel) r u -> nk (net u) = KLeaf l ->
     largmax l I = Some (J, y) -> J x <> None -> M x <> None).

(** Leaves answer Max with a real or -inf and ArgMax without panicking. *)
Definition leaves_answer (I : varset) (r : nat) : Prop :=
  forall u l, reach (children net) r u -> nk (net u) = KLeaf l ->
    exists m J y, lmax l I = Some m /\ logval m /\ largmax l I = Some (J, y).
End S.
