(** Model of /repo/spn/topo.go.

    Nodes are pointers (nat); [ch] is Ch(). The maps map[SPN]bool are lists of the nodes
    mapped to true. The collection C only receives Give calls: it is modelled by the list of
    nodes in the order they were given (what a Queue returns by C01; a Stack returns the
    reverse by C02). Loops take fuel; None is "out of fuel" (excluded by the theorems). *)
From Verif Require Import Base GraphSpec.

Section Topo.
Variable ch : graph.

(** spn/topo.go:9-19. State: (given, V). *)
Fixpoint visit (fuel : nat) (u : nat) (st : list nat * list nat)
  : option (list nat * list nat) :=
  match fuel with
  | O => None
  | S f =>
      let (out, V) := st in
      if memn u V then Some st
      else
        match fold_left (fun acc c => match acc with None => None | Some s => visit f c s end)
                        (ch u) (Some (out, u :: V)) with
        | None => None
        | Some (out', V') => Some (out' ++ [u], V')
        end
  end.

(** spn/topo.go:25-32. *)
Definition topSortTarjanRec (fuel : nat) (G : nat) : option (list nat) :=
  match visit fuel G ([], []) with None => None | Some (out, _) => Some out end.

(** spn/topo.go:143-154. The test len(ch) != 0 is absorbed by the empty loop. *)
Fixpoint postOrderRec (fuel : nat) (n : nat) (st : list nat * list nat)
  : option (list nat * list nat) :=
  match fuel with
  | O => None
  | S f =>
      match fold_left (fun acc c =>
                match acc with
                | None => None
                | Some (out, V) =>
                    if memn c V then Some (out, V) else postOrderRec f c (out, c :: V)
                end) (ch n) (Some st) with
      | None => None
      | Some (out', V') => Some (out' ++ [n], V')
      end
  end.

(** spn/topo.go:156-164. *)
Definition postOrder (fuel : nat) (G : nat) : option (list nat) :=
  match postOrderRec fuel G ([], [G]) with None => None | Some (out, _) => Some out end.

(** spn/topo.go:56-61 and 93-98: push the unvisited children. The stack is a list, top
    first. *)
Definition push_children (cs : list nat) (SV : list nat * list nat) : list nat * list nat :=
  fold_left (fun (acc : list nat * list nat) c =>
               let (stk, V) := acc in
               if memn c V then (stk, V) else (c :: stk, c :: V)) cs SV.

(** spn/topo.go:47-62: the loop of TopSortTarjan. *)
Fixpoint tarjan_loop (fuel : nat) (stk V P out : list nat) : option (list nat) :=
  match fuel with
  | O => None
  | S f =>
      match stk with
      | [] => Some out
      | u :: stk' =>
          if memn u P then tarjan_loop f stk' V P (out ++ [u])
          else let (stk2, V2) := push_children (ch u) (u :: stk', V) in
               tarjan_loop f stk2 V2 (u :: P) out
      end
  end.

(** spn/topo.go:38-64. *)
Definition topSortTarjan (fuel : nat) (G : nat) : option (list nat) :=
  tarjan_loop fuel [G] [G] [] [].

(** spn/topo.go:72-101: the same loop with a callback run at each Give, given the nodes
    given so far; a false result halts. The callback's effects are those of the caller and
    are modelled where it is used (Marshal); here [f] sees the history. *)
Fixpoint tarjan_func_loop (f : list nat -> bool) (fuel : nat) (stk V P out : list nat)
  : option (list nat) :=
  match fuel with
  | O => None
  | S k =>
      match stk with
      | [] => Some out
      | u :: stk' =>
          if memn u P then
            if f (out ++ [u]) then tarjan_func_loop f k stk' V P (out ++ [u])
            else Some (out ++ [u])
          else let (stk2, V2) := push_children (ch u) (u :: stk', V) in
               tarjan_func_loop f k stk2 V2 (u :: P) out
      end
  end.

Definition topSortTarjanFunc (f : list nat -> bool) (fuel : nat) (G : nat)
  : option (list nat) := tarjan_func_loop f fuel [G] [G] [] [].

(** spn/topo.go:122-127: unvisited children, collected without marking them. *)
Definition unvisited (cs V : list nat) : list nat := filter (fun c => negb (memn c V)) cs.

(** spn/topo.go:132-135: push and mark them. *)
Definition push_all (m : list nat) (SV : list nat * list nat) : list nat * list nat :=
  fold_left (fun (acc : list nat * list nat) c =>
               let (stk, V) := acc in (c :: stk, c :: V)) m SV.

(** spn/topo.go:116-138. *)
Fixpoint dfs_loop (fuel : nat) (stk V out : list nat) : option (list nat) :=
  match fuel with
  | O => None
  | S f =>
      match stk with
      | [] => Some out
      | s :: stk' =>
          let cs := ch s in
          if Nat.eqb (length cs) 0 then dfs_loop f stk' V (out ++ [s])
          else
            let m := unvisited cs V in
            if Nat.eqb (length m) 0 then dfs_loop f stk' V (out ++ [s])
            else let (stk2, V2) := push_all m (s :: stk', V) in dfs_loop f stk2 V2 out
      end
  end.

(** spn/topo.go:106-141. *)
Definition topSortDFS (fuel : nat) (G : nat) : option (list nat) :=
  dfs_loop fuel [G] [G] [].
End Topo.
