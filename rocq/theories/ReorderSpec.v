(** Two networks that differ only in the order in which children were added. *)
From Coq Require Import Permutation.
From Verif Require Import Base Res Arith GraphSpec Spn.

(** Every node has the same kind in both networks; a sum has the same children with the same weights (one each), a
    product the same children, each in some order, and a leaf is the same leaf. *)
Definition reordered {A : arith} (net net' : network A) : Prop := forall u,
  match nk (net u), nk (net' u) with
  | KSum w, KSum w' => length w' = length (nch (net' u)) /\ Permutation (combine (nch (net u)) w) (combine (nch (net' u)) w')
  | KProd, KProd => Permutation (nch (net u)) (nch (net' u))
  | KLeaf l, KLeaf l' => l = l' /\ nch (net u) = nch (net' u)
  | _, _ => False
  end.
