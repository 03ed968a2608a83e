(** Model of /repo/spn/search.go.

    The collection is a list whose head is the next element Take returns; Give appends for a
    Queue (C01) and prepends for a Stack (C02). The callback may keep state: it is a function
    of the nodes it was already called on and of the current node. *)
From Verif Require Import Base GraphSpec.

Inductive discipline := UseQueue | UseStack.

Definition give (d : discipline) (x : nat) (l : list nat) : list nat :=
  match d with UseQueue => l ++ [x] | UseStack => x :: l end.

(** The loop body shared by searchFunc (spn/search.go:20-25), learn/derive.go:77-82 and the
    other traversals: give every child not yet seen and mark it. *)
Definition give_children (d : discipline) (cs : list nat) (FV : list nat * list nat)
  : list nat * list nat :=
  fold_left (fun (acc : list nat * list nat) c =>
               let (F, V) := acc in
               if memn c V then (F, V) else (give d c F, c :: V)) cs FV.

Section Search.
Variable ch : graph.
Variable d : discipline.

(** spn/search.go:14-27. Result: the nodes f was called on, in order. None = out of fuel. *)
Fixpoint search_loop (f : list nat -> nat -> Z) (fuel : nat) (F V calls : list nat)
  : option (list nat) :=
  match fuel with
  | O => None
  | S k =>
      match F with
      | [] => Some calls
      | u :: F' =>
          let r := f calls u in
          if Z.ltb 0 r then Some (calls ++ [u])
          else
            let (F2, V2) := if Z.eqb r 0 then give_children d (ch u) (F', V) else (F', V) in
            search_loop f k F2 V2 (calls ++ [u])
      end
  end.

(** spn/search.go:10-28. *)
Definition searchFunc (f : list nat -> nat -> Z) (fuel : nat) (G : nat) : option (list nat) :=
  search_loop f fuel [G] [G] [].
End Search.

(** spn/search.go:32. *)
Definition breadthFirst (ch : graph) := searchFunc ch UseQueue.
(** spn/search.go:36. *)
Definition depthFirst (ch : graph) := searchFunc ch UseStack.

(** Type() of a node: "sum", "product", "leaf" (spn/sum.go:31, product.go:20, node.go:72). *)
Inductive ntype := TSum | TProduct | TLeaf.

(** spn/search.go:40-53. The three counters are updated at each call. *)
Definition count_step (type : nat -> ntype) (k : nat * nat * nat) (u : nat) : nat * nat * nat :=
  let '(s, p, l) := k in
  match type u with TSum => (S s, p, l) | TProduct => (s, S p, l) | TLeaf => (s, p, S l) end.

Definition countNodes (ch : graph) (type : nat -> ntype) (fuel : nat) (G : nat)
  : option (nat * nat * nat) :=
  match breadthFirst ch (fun _ _ => 0%Z) fuel G with
  | None => None
  | Some calls => Some (fold_left (count_step type) calls (0, 0, 0))
  end.
