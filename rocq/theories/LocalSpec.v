(** Vocabulary for evidence on variables that a network does not have. *)
From Verif Require Import Base Arith GraphSpec Spn Leaves ProbSpec.

(** The leaves of gospn: multinomials over a variable of their scope, indicators and Gaussians. *)
Definition gospn_leaf {A : arith} (logProb : F A -> F A -> F A -> F A) (trunc round : F A -> Z) (l : leaf A) : Prop :=
  (exists m, l = multiLeaf m /\ In (m_varid m) (m_sc m)) \/ (exists x v, l = indLeaf x v) \/
  (exists x mu sigma, l = gaussLeaf logProb trunc round x mu sigma).

(** [I] and [J] give the variables of the network at [r] the same values. *)
Definition same_evidence {A : arith} (net : network A) (r : nat) (I J : varset) : Prop :=
  forall x, in_scope net r x -> I x = J x.
