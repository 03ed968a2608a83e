From Coq Require Import Reals Lra Lia.
From Verif Require Import Base Res Arith LogSpec GraphSpec Spn SpnSpec Leaves ProbSpec ProbLemmas ProbCases LocalSpec.
Local Open Scope R_scope.

(** Multinomial and Gaussian leaves over variables 0 and 1; variable 9 is not in the network. *)
Lemma local_case_l (logProb : xreal -> xreal -> xreal -> xreal) (trunc round : xreal -> Z) :
  let net := wnet (@gaussLeaf XR logProb trunc round 0 (Fin 2) (Fin 1)) in
  let I := setvar (fun _ => None) 1 2 in let J := setvar I 9 7 in
  (forall u l, reach (children net) 0 u -> nk (net u) = KLeaf l -> @gospn_leaf XR logProb trunc round l) /\ same_evidence net 0 I J /\ I 9%Z <> J 9%Z.
Proof.
  cbv zeta. split; [|split; [|discriminate]].
  - intros u l _ E. destruct u as [|[|[|[|[|u]]]]]; simpl in E; try discriminate; injection E as <-.
    + left. eexists. split; [reflexivity|]. left. reflexivity.
    + left. eexists. split; [reflexivity|]. left. reflexivity.
    + right. right. do 3 eexists. reflexivity.
  - intros x Hx. apply wnet_scope in Hx; [|reflexivity|lia]. destruct Hx as [<-|[<-|[]]]; reflexivity.
Qed.
