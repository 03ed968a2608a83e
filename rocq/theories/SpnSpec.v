(** Vocabulary for statements about networks. *)
From Verif Require Import Base Res Arith GraphSpec Spn.

Section S.
Context {A : arith}.
Variable net : network A.

(** Leaves have no children. (gospn never adds any; the Go type would allow it.) *)
Definition leaves_childless : Prop := forall u l, nk (net u) = KLeaf l -> nch (net u) = [].

(** Every sum node has a child. *)
Definition sums_nonempty : Prop := forall u w, nk (net u) = KSum w -> nch (net u) <> [].

(** A leaf whose Value only looks at the first variable of its scope. *)
Definition univariate (l : leaf A) : Prop :=
  exists x t, lsc l = x :: t /\ forall I J : varset, I x = J x -> lvalue l I = lvalue l J.

(** The evidence with one variable (re)set. *)
Definition setvar (I : varset) (Y y : Z) : varset := fun k => if (k =? Y)%Z then Some y else I k.
End S.
