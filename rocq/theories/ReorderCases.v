From Coq Require Import Reals Lia Permutation.
From Verif Require Import Base Res Arith LogSpec GraphSpec Spn SpnSpec Leaves ProbSpec ProbLemmas ProbCases ReorderSpec.
Local Open Scope R_scope.

(** The network of ProbCases.v with the children of the sum and of one product swapped. *)
Definition wnet_swapped (l5 : leaf XR) : network XR := fun u =>
  match u with
  | 0 => mkNode (@KSum XR (map Fin [3/4; /4])) [2; 1]%nat
  | 1 => mkNode KProd [4; 3]%nat
  | _ => wnet l5 u
  end.

Lemma reorder_case_l :
  let net := wnet (@indLeaf XR 0 1) in let I := setvar (fun _ => None) 1 2 in
  reordered net (wnet_swapped (@indLeaf XR 0 1)) /\
  bounded (children net) 6 /\ acyclic (children net) /\ weights_nonneg net 0 /\ discrete_leaves net wcard 0 /\ evidence_ok wcard I.
Proof.
  pose proof wnet_case as H. cbv zeta in *. destruct H as (H1 & H2 & H3 & H4 & H5 & H6 & H7 & H8 & H9).
  split; auto. intros u. destruct u as [|[|[|[|[|u]]]]]; cbn; auto.
  - split; [reflexivity|apply perm_swap].
  - apply perm_swap.
Qed.
