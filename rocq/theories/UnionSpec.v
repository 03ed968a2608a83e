(** What union-find computes, independently of the trees: elements are numbered in the order they
    are created. *)
From Coq Require Import Relations.
From Verif Require Import Base UnionFind.

(** The varids of the elements created by a program, in order. *)
Fixpoint created (ops : list ufop) : list Z :=
  match ops with
  | [] => []
  | OMake v :: t => v :: created t
  | _ :: t => created t
  end.

(** Every pointer used was handed out before. *)
Fixpoint well_used (n : nat) (ops : list ufop) : Prop :=
  match ops with
  | [] => True
  | OMake _ :: t => well_used (S n) t
  | OFind x :: t => x < n /\ well_used n t
  | OUnion x y :: t => x < n /\ y < n /\ well_used n t
  end.

(** The equivalence generated by the unions. *)
Definition joined (ops : list ufop) : nat -> nat -> Prop :=
  clos_refl_sym_trans nat (fun x y => In (OUnion x y) ops).
