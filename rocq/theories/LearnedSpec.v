(** What one asks a learned network, and what a distribution answers. *)
From Coq Require Import Reals.
From Verif Require Import Base Res Arith Spn Build GoMap ProbSpec Gens.
Local Open Scope R_scope.

(** spn.Inference (spn/utils.go:66-101) on the nodes of a learned network. *)
Definition asked (t : tree XR) (I : varset) : res xreal :=
  let (H, z) := place t [] in inference (netOf H) (2 * length H + 1) z I.

(** The method Value (spn/sum.go:42-53, spn/product.go:33-45, spn/multinom.go) of its root. *)
Definition valued (t : tree XR) (I : varset) : res xreal :=
  let (H, z) := place t [] in value (netOf H) (length H) I z.

(** The numbers of categories are those of the scope. *)
Definition card_of (Sc : scope) (card : Z -> nat) : Prop := forall x v, In (x, v) Sc -> Z.of_nat (card x) = v_cat v.

(** The answers are the logarithms of the marginals of a distribution over the variables of the scope
    in which no state is impossible. *)
Definition answers_as_distribution (Sc : scope) (card : Z -> nat) (ask : varset -> res xreal) : Prop :=
  exists p : varset -> R,
    (forall I, evidence_ok card I -> ask I = Ok (Fin (ln (p I))) /\ 0 < p I <= 1) /\
    (forall I xs, evidence_ok card I -> NoDup xs -> (forall x, In x xs -> In x (map fst Sc) /\ I x = None) -> p I = sum_over card xs p I) /\
    p (fun _ => None) = 1.
