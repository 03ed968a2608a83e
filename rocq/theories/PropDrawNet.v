(** C104: the drawing of a network. *)
From Coq Require Import String.
From Verif Require Import Base Res GraphSpec DrawNet DrawNetSpec DrawNetLemmas Text.
Local Open Scope string_scope.

(** DrawGraph (tools = false) shows every occurrence of a node; DrawGraphTools (tools = true) shows
    the leaves of a variable as one node. *)
Theorem draw_shows :
  forall (F : Type) (minus1 : F) (ge0 : F -> bool) (fmt3 : F -> string) (tools : bool) (net : dnet F) r,
  ge0 minus1 = false -> (forall u, reach (graph_of net) r u -> drawable ge0 (net u)) ->
  forall fuel lines, isLeaf (net r) = false ->
  drawGraph F minus1 ge0 fmt3 tools net fuel r = Ok lines -> shows fmt3 tools net r lines.
Proof. exact @draw_shows_l. Qed.
Print Assumptions draw_shows.

(** No panic, even with too little fuel. *)
Theorem draw_no_panic :
  forall (F : Type) (minus1 : F) (ge0 : F -> bool) (fmt3 : F -> string) (tools : bool) (net : dnet F) r,
  ge0 minus1 = false -> (forall u, reach (graph_of net) r u -> drawable ge0 (net u)) ->
  forall fuel, drawGraph F minus1 ge0 fmt3 tools net fuel r <> Panic.
Proof. exact @draw_no_panic_l. Qed.
Print Assumptions draw_no_panic.

(** On a network without cycles the loop ends. *)
Theorem draw_returns :
  forall (F : Type) (minus1 : F) (ge0 : F -> bool) (fmt3 : F -> string) (tools : bool) (net : dnet F) r,
  ge0 minus1 = false -> (forall u, reach (graph_of net) r u -> drawable ge0 (net u)) ->
  forall lev, (forall u c, In c (dch (net u)) -> (lev c < lev u)%nat) ->
  exists fuel lines, drawGraph F minus1 ge0 fmt3 tools net fuel r = Ok lines.
Proof. exact @draw_returns_l. Qed.
Print Assumptions draw_returns.

(** Where no node is shared the drawing of DrawGraph is the network itself. *)
Theorem draw_faithful_partial :
  forall (F : Type) (minus1 : F) (ge0 : F -> bool) (fmt3 : F -> string) (net : dnet F) r fuel lines,
  ge0 minus1 = false -> (forall u, reach (graph_of net) r u -> drawable ge0 (net u)) -> isLeaf (net r) = false ->
  unshared net r -> drawGraph F minus1 ge0 fmt3 false net fuel r = Ok lines -> faithful fmt3 net r lines.
Proof. exact @draw_faithful_l. Qed.
Print Assumptions draw_faithful_partial.

(** With a shared node it is not: the node is drawn once for every path. *)
Theorem draw_faithful_refuted :
  exists (net : dnet Z) lines, (forall u, drawable geZ (net u)) /\ isLeaf (net 0) = false /\
  drawGraph Z (-1)%Z geZ itoa false net 9 0 = Ok lines /\ ~ faithful itoa net 0 lines.
Proof. exact draw_shared_l. Qed.
Print Assumptions draw_faithful_refuted.

(** DrawGraphTools: not even on a tree, since different leaves of a variable become one node. *)
Theorem draw_tools_refuted :
  exists (net : dnet Z) lines, (forall u, drawable geZ (net u)) /\ isLeaf (net 0) = false /\ unshared net 0 /\
  drawGraph Z (-1)%Z geZ itoa true net 9 0 = Ok lines /\ ~ faithful itoa net 0 lines.
Proof. exact draw_tools_l. Qed.
Print Assumptions draw_tools_refuted.

(** A network of one leaf is drawn wrongly by both. *)
Theorem draw_leaf_refuted :
  exists net : dnet Z, (forall u, drawable geZ (net u)) /\
  forall tools fuel, exists lines, drawGraph Z (-1)%Z geZ itoa tools net fuel 0 = Ok lines /\ ~ faithful itoa net 0 lines.
Proof. exact draw_leaf_l. Qed.
Print Assumptions draw_leaf_refuted.

(** The cases: a network with a shared sum, and a tree. *)
Example draw_case :
  (forall u, drawable geZ (exD u)) /\ (forall u c, In c (dch (exD u)) -> (exLev c < exLev u)%nat) /\
  drawGraph Z (-1)%Z geZ itoa true exD 9 0 = Ok
    [DNode "S0" LPlus; DNode "P0" LTimes; DEdge "S0" "P0" (Some "3"); DNode "X0" (LVar 0); DEdge "P0" "X0" None;
     DNode "P1" LTimes; DEdge "S0" "P1" (Some "7"); DEdge "P1" "X0" None;
     DNode "S1" LPlus; DEdge "P0" "S1" None; DNode "X1" (LVar 1); DEdge "S1" "X1" (Some "1");
     DNode "S2" LPlus; DEdge "P1" "S2" None; DEdge "S2" "X1" (Some "1")].
Proof. split; [exact exD_drawable|]. split; [exact exD_lev|]. reflexivity. Qed.

Example draw_faithful_case :
  (forall u, drawable geZ (exT u)) /\ unshared exT 0 /\ isLeaf (exT 0) = false /\
  drawGraph Z (-1)%Z geZ itoa false exT 9 0 = Ok
    [DNode "S0" LPlus; DNode "X0" (LVar 0); DEdge "S0" "X0" (Some "7");
     DNode "P0" LTimes; DEdge "S0" "P0" (Some "3"); DNode "X1" (LVar 0); DEdge "P0" "X1" None;
     DNode "X2" (LVar 1); DEdge "P0" "X2" None].
Proof. split; [exact exT_drawable|]. split; [exact exT_unshared|]. split; reflexivity. Qed.
