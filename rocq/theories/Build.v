(** Building networks node by node: the constructors and AddChild methods of /repo/spn as used by
    the structure learners. Pointers are positions in the list of allocated nodes. *)
From Verif Require Import Base Res Arith GraphSpec Spn.

Section Build.
Context {A : arith}.
Local Notation F := (F A).

(** The allocated nodes. *)
Definition nodes := list (node A).

(** spn.NewSum (sum.go:18-20), spn.NewProduct (product.go:15-17), the constructors of leaves:
    a fresh pointer. *)
Definition newNode (n : node A) (H : nodes) : nodes * nat := (H ++ [n], length H).

(** (s *Sum) AddChildW: spn/sum.go:28-31. The receiver comes from a type assertion to *spn.Sum,
    which panics on another type. *)
Definition addChildW (s c : nat) (wt : F) (H : nodes) : res nodes :=
  match nth_error H s with
  | Some (mkNode (KSum ws) ch) => Ok (set_nth s (mkNode (KSum (ws ++ [wt])) (ch ++ [c])) H)
  | _ => Panic
  end.

(** The network the allocated nodes form. Positions never allocated hold a childless product; no
    theorem reaches them. *)
Definition netOf (H : nodes) : network A := fun u => nth u H (mkNode KProd []).
End Build.
Arguments nodes A : clear implicits.
