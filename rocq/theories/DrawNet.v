(** DrawGraph and DrawGraphTools: io/output.go. The file is the list of the statements written for
    nodes and edges; the fixed text around them is left out. *)
From Coq Require Import String.
From Verif Require Import Base Res GraphSpec Text.
Local Open Scope string_scope.

Section Draw.
Variable F : Type.
(** -1.0, pw >= 0, and fmt's verb %.3f. *)
Variable minus1 : F.
Variable ge0 : F -> bool.
Variable fmt3 : F -> string.

(** Type(), Ch(), Sc() and, for a sum, Weights(). *)
Inductive dkind := DSum (w : list F) | DProd | DLeaf.
Record dnode := mkD { dk : dkind; dch : list nat; dsc : list Z }.
Definition dnet := nat -> dnode.
Definition isLeaf (n : dnode) : bool := match dk n with DLeaf => true | _ => false end.

(** The label of a drawn node: "+", a times sign, or the variable. *)
Inductive dlabel := LPlus | LTimes | LVar (v : Z).
(** The statements: "S0 [label=...]" or "S0 = add_node(...)", "S0 -- P0 ..." or "add_edge(...)", and the call
    add_node("X") of io/output.go:59, which lacks an argument of the function defined at line 52. *)
Inductive dline := DNode (name : string) (l : dlabel) | DEdge (a b : string) (t : option string) | DBadCall.

(** BFSPair: io/output.go:150-154. *)
Record bpair := mkB { bspn : nat; bname : string; bweight : F }.

(** The state of the loop over the children: nvars, vmap, what is enqueued and what is written. *)
Record chst := mkC { cnv : nat; cvm : list (Z * string); cq : list bpair; co : list dline }.

Fixpoint vget (m : list (Z * string)) (v : Z) : option string :=
  match m with [] => None | (a, s) :: t => if Z.eqb a v then Some s else vget t v end.

(** The body of the loops over the children: io/output.go:216-235 (tools = false, DrawGraph) and
    107-136 (tools = true, DrawGraphTools: one drawn node for each variable). *)
Definition childStep (tools : bool) (net : dnet) (name : string) (w : option (list F)) (i : nat) (s : chst) (c : nat)
  : res chst :=
  if isLeaf (net c) then
    v <- idx (dsc (net c)) 0;
    let cname := "X" ++ itoa (Z.of_nat (cnv s)) in
    let old := if tools then vget (cvm s) v else None in
    t <- match w with None => Ok None | Some w => x <- idx w i; Ok (Some (fmt3 x)) end;
    match old with
    | Some n => Ok (mkC (cnv s) (cvm s) (cq s) (co s ++ [DEdge name n t])%list)
    | None => Ok (mkC (cnv s + 1) ((v, cname) :: cvm s) (cq s) (co s ++ [DNode cname (LVar v); DEdge name cname t])%list)
    end
  else
    tw <- match w with None => Ok minus1 | Some [] => Ok minus1 | Some w => idx w i end;
    Ok (mkC (cnv s) (cvm s) (cq s ++ [mkB c name tw])%list (co s)).

(** io/output.go:180-236 and 75-137. The name "N" is never used: a leaf is not enqueued. *)
Fixpoint drawLoop (tools : bool) (net : dnet) (fuel : nat) (Q : list bpair) (nv ns np : nat) (vm : list (Z * string))
  (out : list dline) : res (list dline) :=
  match fuel with
  | O => Fuel
  | S f =>
      match Q with
      | [] => Ok out
      | b :: Q' =>
          let n := net (bspn b) in
          let '(name, decl, ns', np') := match dk n with
            | DSum _ => let name := "S" ++ itoa (Z.of_nat ns) in (name, [DNode name LPlus], ns + 1, np)
            | DProd => let name := "P" ++ itoa (Z.of_nat np) in (name, [DNode name LTimes], ns, np + 1)
            | DLeaf => ("N", [], ns, np)
            end in
          let edge := if String.eqb (bname b) "" then []
                      else [DEdge (bname b) name (if ge0 (bweight b) then Some (fmt3 (bweight b)) else None)] in
          let w := match dk n with DSum w => Some w | _ => None end in
          s <- foldi (childStep tools net name w) (dch n) (mkC nv vm [] []);
          drawLoop tools net f (Q' ++ cq s)%list (cnv s) ns' np' (cvm s) (out ++ decl ++ edge ++ co s)%list
      end
  end.

(** io/output.go:157-238 (tools = false) and 37-147 (tools = true). *)
Definition drawGraph (tools : bool) (net : dnet) (fuel : nat) (S0 : nat) : res (list dline) :=
  if isLeaf (net S0) then Ok (if tools then [DBadCall] else [DNode "X1" (LVar 1)])
  else drawLoop tools net fuel [mkB S0 "" minus1] 0 0 0 [] [].
End Draw.
Arguments mkD {F}. Arguments dk {F}. Arguments dch {F}. Arguments dsc {F}. Arguments isLeaf {F}.
Arguments DSum {F}. Arguments DProd {F}. Arguments DLeaf {F}.
Arguments mkB {F}. Arguments bspn {F}. Arguments bname {F}. Arguments bweight {F}.
Arguments mkC {F}. Arguments cnv {F}. Arguments cvm {F}. Arguments cq {F}. Arguments co {F}.
