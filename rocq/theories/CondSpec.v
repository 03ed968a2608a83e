(** Vocabulary for conditional probabilities. *)
From Verif Require Import Base Spn.

(** [J] sets every variable that [I] sets, to the same value. *)
Definition extends (I J : varset) : Prop := forall x v, I x = Some v -> J x = Some v.

(** [I] with [x] set to [v]. *)
Definition also (I : varset) (x v : Z) : varset := fun y => if (y =? x)%Z then Some v else I y.
