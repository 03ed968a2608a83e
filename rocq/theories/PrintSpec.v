(** What a text of a network should tell. *)
From Coq Require Import String.
From Verif Require Import Base GraphSpec Print.
Local Open Scope string_scope.

Section Spec.
Context {F : Type} (fmt5 : F -> string).

Definition graph_of (net : pnet F) : graph := fun u => pch (net u).

(** A node that can be printed: a weight for every child; the distributions that have a mean and a
    deviation, and no children. *)
Definition printable (n : pnode F) : Prop :=
  match pk n with
  | PSum w => length w = length (pch n)
  | PProd => True
  | PMulti _ _ | PGauss _ _ => pch n = []
  | PLeaf => False
  end.

(** The entry of a node, with the names [nm]. *)
Definition entry (nm : nat -> string) (net : pnet F) (u : nat) : list pline :=
  (LHead (nm u) ::
   match pk (net u) with
   | PSum w => map (fun cw => LItem [nm (fst cw); fmt5 (snd cw)]) (combine (pch (net u)) w)
   | PProd => map (fun c => LItem [nm c]) (pch (net u))
   | PMulti m s | PGauss m s => [LItem [fmt5 m; fmt5 s]]
   | PLeaf => []
   end ++ [LEnd])%list.

(** The first letter of the name tells the kind. *)
Definition initial (k : pkind F) : string :=
  match k with PSum _ => "S" | PProd => "P" | _ => "L" end.

(** What the text keeps of a node itself. *)
Inductive same_node : pkind F -> pkind F -> Prop :=
| same_sum : forall w w', map fmt5 w = map fmt5 w' -> same_node (PSum w) (PSum w')
| same_prod : same_node PProd PProd
| same_leaf : forall k k' m s m' s', k = PMulti m s \/ k = PGauss m s -> k' = PMulti m' s' \/ k' = PGauss m' s' ->
    fmt5 m = fmt5 m' -> fmt5 s = fmt5 s' -> same_node k k'.

(** Two networks are the same up to the identity of the nodes and digits not printed. *)
Definition same_network (net net' : pnet F) (r r' : nat) : Prop :=
  exists f, f r = r' /\
    (forall u v, reach (graph_of net) r u -> reach (graph_of net) r v -> f u = f v -> u = v) /\
    (forall u', reach (graph_of net') r' u' -> exists u, reach (graph_of net) r u /\ f u = u') /\
    (forall u, reach (graph_of net) r u -> reach (graph_of net') r' (f u) /\
       same_node (pk (net u)) (pk (net' (f u))) /\ pch (net' (f u)) = map f (pch (net u))).
End Spec.
