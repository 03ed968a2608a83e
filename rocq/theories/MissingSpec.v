(** What an unobserved variable does to the value of a network with leaves of any kind. *)
From Coq Require Import Reals.
From Verif Require Import Base Res Arith LogSpec GraphSpec Spn ProbSpec.
Local Open Scope R_scope.

(** The evidence [J] with variable [x] set to a value, or left out. *)
Definition observe (J : varset) (x : Z) (o : option Z) : varset := fun k => if (k =? x)%Z then o else J k.

(** One of the values [vs], or none. *)
Definition among (vs : list Z) (o : option Z) : Prop := match o with Some v => In v vs | None => True end.

(** The density of a leaf: the number of which Value returns the logarithm. *)
Definition density (l : leaf XR) (I : varset) : R := match lvalue l I with Some m => lin m | None => 0 end.

Section S.
Variable net : network XR.

(** Every leaf below [r] has no children, and its answer depends on nothing but the variables of its scope. *)
Definition own_scope (r : nat) : Prop :=
  forall u l, reach (children net) r u -> nk (net u) = KLeaf l ->
    nch (net u) = [] /\ forall I J, (forall x, In x (lsc l) -> I x = J x) -> lvalue l I = lvalue l J.

(** Every leaf below [r] answers the evidence with a logarithm. *)
Definition answers (I : varset) (r : nat) : Prop :=
  forall u l, reach (children net) r u -> nk (net u) = KLeaf l -> exists m, lvalue l I = Some m /\ logval m.

(** A list of leaves below [r], all over [x], each with a factor that is not negative. *)
Definition leaves_over (x : Z) (r : nat) (ts : list (R * leaf XR)) : Prop :=
  forall a l, In (a, l) ts -> 0 <= a /\ In x (lsc l) /\ exists u, reach (children net) r u /\ nk (net u) = KLeaf l.

(** The leaves below [r] give evidence on none of their variables the density one. *)
Definition leaves_normal (I : varset) (r : nat) : Prop :=
  forall u l, reach (children net) r u -> nk (net u) = KLeaf l -> lvalue l I = Some (Fin 0).
End S.

(** The value of such a list. *)
Definition mixture (ts : list (R * leaf XR)) (I : varset) : R := Rsum (map (fun t => fst t * density (snd t) I) ts).
