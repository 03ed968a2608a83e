(** Networks and their evaluation: /repo/spn/node.go, sum.go, product.go, utils.go.

    A network is a heap from pointers to nodes, so sharing and cycles are expressible. Leaves
    are given by their methods; the leaf types of gospn are in Leaves.v. A leaf may have
    children: Node.AddChild (node.go:97-99) is available on every node. *)
From Verif Require Import Base Res Arith LogMath GraphSpec Topo Storer.

(** spn/node.go:53: VarSet, a map from variables to values. *)
Definition varset := Z -> option Z.

(** for k, v := range N { M[k] = v }: the result does not depend on the iteration order. *)
Definition merge (M N : varset) : varset :=
  fun k => match N k with Some v => Some v | None => M k end.

(** VarSet{k: v}. *)
Definition vsingle (k v : Z) : varset := updZ (fun _ => None) k (Some v).

Section Spn.
Context {A : arith}.
Local Notation F := (F A).

(** The methods of a leaf: Sc(), Value, Max, ArgMax. None is a panic. *)
Record leaf := mkLeaf {
  lsc : list Z; lvalue : varset -> option F; lmax : varset -> option F;
  largmax : varset -> option (varset * F) }.

(** Type() and the fields of the node: spn/node.go:8-13, sum.go:12-15, product.go:10-12. *)
Inductive kind := KSum (w : list F) | KProd | KLeaf (l : leaf).
Record node := mkNode { nk : kind; nch : list nat }.
Definition network := nat -> node.

(** Ch(): spn/node.go:79-81. *)
Definition children (net : network) : graph := fun u => nch (net u).

Section Eval.
Variable net : network.

(** The loop building the weighted child values: spn/sum.go:45-49, spn/utils.go:45-49 and 83-87.
    [look] gives the value of a child. *)
Definition sumVals (look : nat -> res F) (w : list F) (ch : list nat) : res (list F) :=
  mapi (fun i c => v <- look c; wi <- idx w i; Ok (fadd v (flog wi))) ch.

(** spn/sum.go:56-58. *)
Definition sumCompute (cv : list F) : res F := logSumExp cv.

(** spn/product.go:48-54. *)
Definition prodCompute (cv : list F) : F := fold_left fadd cv (fz 0).

(** Value: spn/sum.go:42-53, spn/product.go:33-45. *)
Fixpoint value (fuel : nat) (I : varset) (u : nat) : res F :=
  match fuel with
  | O => Fuel
  | S f =>
      match nk (net u) with
      | KSum w => vals <- sumVals (value f I) w (nch (net u)); sumCompute vals
      | KProd => vals <- mapi (fun _ c => value f I c) (nch (net u)); Ok (prodCompute vals)
      | KLeaf l => orPanic (lvalue l I)
      end
  end.

(** V[c] of a map[SPN]float64: a missing entry reads as 0. *)
Definition getV (V : nat -> option F) (c : nat) : F :=
  match V c with Some v => v | None => fz 0 end.

(** The body of the loop of spn/utils.go:73-99 (Inference). *)
Definition inferNode (I : varset) (V : nat -> option F) (s : nat) : res (nat -> option F) :=
  v <- match nk (net s) with
       | KLeaf l => orPanic (lvalue l I)
       | KSum w => vals <- sumVals (fun c => Ok (getV V c)) w (nch (net s)); sumCompute vals
       | KProd => vals <- mapi (fun _ c => Ok (getV V c)) (nch (net s)); Ok (prodCompute vals)
       end;
  Ok (upd V s (Some v)).

(** spn/utils.go:66-101. The Queue returns the order given by the sort (C01). *)
Definition inference (fuel : nat) (S0 : nat) (I : varset) : res F :=
  if Nat.eqb (length (nch (net S0))) 0 then Ok (fz 0)
  else match topSortTarjan (children net) fuel S0 with
       | None => Fuel
       | Some ord => V <- foldr_ (inferNode I) ord (fun _ => None); Ok (getV V S0)
       end.

(** The body of the loop of spn/utils.go:31-61 (InferenceY). *)
Definition inferNodeY (I : varset) (Y y : Z) (V : nat -> option F) (s : nat)
  : res (nat -> option F) :=
  v <- match nk (net s) with
       | KLeaf l =>
           varid <- idx (lsc l) 0;
           if (varid =? Y)%Z then orPanic (lvalue l (vsingle Y y)) else orPanic (lvalue l I)
       | KSum w => vals <- sumVals (fun c => Ok (getV V c)) w (nch (net s)); sumCompute vals
       | KProd => vals <- mapi (fun _ c => Ok (getV V c)) (nch (net s)); Ok (prodCompute vals)
       end;
  Ok (upd V s (Some v)).

(** spn/utils.go:23-63. *)
Definition inferenceY (fuel : nat) (S0 : nat) (I : varset) (Y y : Z) : res F :=
  if Nat.eqb (length (nch (net S0))) 0 then Ok (fz 0)
  else match topSortTarjan (children net) fuel S0 with
       | None => Fuel
       | Some ord => V <- foldr_ (inferNodeY I Y y) ord (fun _ => None); Ok (getV V S0)
       end.

Local Notation storer := (storer F).

(** table.StoreSingle(s, v) through a handle. *)
Definition storeVia (st : storer) (t : option nat) (s : nat) (v : F) : res storer :=
  match tStoreSingle F st t s v with Some (st', _) => Ok st' | None => Panic end.

(** spn/utils.go:131-140: [None] is the early return of line 137. *)
Fixpoint storeSumVals (st : storer) (t : option nat) (i : nat) (w : list F) (ch : list nat)
  : res (option (list F)) :=
  match ch with
  | [] => Ok (Some [])
  | cs :: rest =>
      let (v, e) := tSingle F (fz 0) st t cs in
      if e then
        wi <- idx w i;
        r <- storeSumVals st t (S i) w rest;
        Ok (match r with Some vs => Some (fadd v (flog wi) :: vs) | None => None end)
      else Ok None
  end.

(** spn/utils.go:121-156, one iteration; the boolean is false after the early return. *)
Definition storeNode (I : varset) (t : option nat) (st : storer) (s : nat)
  : res (storer * bool) :=
  match nk (net s) with
  | KLeaf l => v <- orPanic (lvalue l I); st' <- storeVia st t s v; Ok (st', true)
  | KSum w =>
      vs <- storeSumVals st t 0 w (nch (net s));
      match vs with
      | None => Ok (st, false)
      | Some vals =>
          v <- (if Nat.eqb (length (nch (net s))) 0 then Ok fninf else sumCompute vals);
          st' <- storeVia st t s v; Ok (st', true)
      end
  | KProd =>
      st' <- storeVia st t s (prodCompute (map (fun c => fst (tSingle F (fz 0) st t c))
                                               (nch (net s))));
      Ok (st', true)
  end.

Fixpoint storeLoop (I : varset) (t : option nat) (ord : list nat) (st : storer)
  : res (storer * bool) :=
  match ord with
  | [] => Ok (st, true)
  | s :: rest =>
      r <- storeNode I t st s;
      let (st', go) := r in if go then storeLoop I t rest st' else Ok (st', false)
  end.

(** spn/utils.go:106-159. The result node is None for nil. *)
Definition storeInference (fuel : nat) (S0 : nat) (I : varset) (tk : Z) (st : storer)
  : res (storer * (option nat * Z)) :=
  if Nat.eqb (length (nch (net S0))) 0 then Ok (st, (None, (-1)%Z))
  else
    let (st1, tk1) := if (tk <? 0)%Z then newTicket F st else (st, tk) in
    match topSortTarjan (children net) fuel S0 with
    | None => Fuel
    | Some ord =>
        r <- storeLoop I (fst (table F st1 tk1)) ord st1;
        let (st2, go) := r in
        if go then Ok (st2, (Some S0, tk1)) else Ok (st2, (None, (-1)%Z))
    end.

(** Max: spn/sum.go:81-93, spn/product.go:57-66. *)
Fixpoint max_ (fuel : nat) (I : varset) (u : nat) : res F :=
  match fuel with
  | O => Fuel
  | S f =>
      match nk (net u) with
      | KSum w =>
          foldi (fun i m c => wi <- idx w i; v <- max_ f I c;
                              let cv := fadd (flog wi) v in
                              Ok (if fgt cv m then cv else m)) (nch (net u)) fninf
      | KProd => foldi (fun _ v c => cv <- max_ f I c; Ok (fadd v cv)) (nch (net u)) (fz 0)
      | KLeaf l => orPanic (lmax l I)
      end
  end.

(** ArgMax: spn/sum.go:96-110, spn/product.go:69-83. A sum all of whose children have value
    -inf calls ArgMax on a nil node (panic). *)
Fixpoint argMax (fuel : nat) (I : varset) (u : nat) : res (varset * F) :=
  match fuel with
  | O => Fuel
  | S f =>
      match nk (net u) with
      | KSum w =>
          r <- foldi (fun i (st : F * option nat) c =>
                 wi <- idx w i; v <- max_ f I c;
                 let m := fadd (flog wi) v in
                 Ok (if fgt m (fst st) then (m, Some c) else st)) (nch (net u)) (fninf, None);
          match snd r with
          | None => Panic
          | Some mch => a <- argMax f I mch; Ok (fst a, fst r)
          end
      | KProd =>
          foldi (fun _ (st : varset * F) c =>
                   a <- argMax f I c; Ok (merge (fst st) (fst a), fadd (snd st) (snd a)))
                (nch (net u)) ((fun _ => None), fz 0)
      | KLeaf l => orPanic (largmax l I)
      end
  end.

(** spn/utils.go:179-207: the first pass of StoreMAP, one iteration. *)
Definition mapNode (I : varset) (t : option nat) (st : storer) (s : nat) : res storer :=
  match nk (net s) with
  | KLeaf l => m <- orPanic (lmax l I); storeVia st t s m
  | KSum w =>
      mv <- foldi (fun i mv c =>
              let v := fst (tSingle F (fz 0) st t c) in
              wi <- idx w i;
              let u := fadd (flog wi) v in Ok (if fgt u mv then u else mv))
            (nch (net s)) fninf;
      storeVia st t s mv
  | KProd =>
      storeVia st t s
        (fold_left (fun v c => fadd v (fst (tSingle F (fz 0) st t c))) (nch (net s)) (fz 0))
  end.

(** spn/utils.go:228-238 (also 522-532 in TraceMAP): the children attaining the maximum, in
    order. *)
Definition bestChildren (look : nat -> F) (w : list F) (ch : list nat) : res (F * list nat) :=
  foldi (fun i (st : F * list nat) c =>
           let (m, mv) := st in
           wi <- idx w i;
           let u := fadd (flog wi) (look c) in
           Ok (if fgt u m then (u, [c]) else if feq u m then (m, mv ++ [c]) else st))
        ch (fninf, []).

(** The queue of the second pass; [push] enqueues an unvisited node and marks it. *)
Definition push (c : nat) (QV : list nat * list nat) : list nat * list nat :=
  let (Q, V) := QV in if memn c V then (Q, V) else (Q ++ [c], c :: V).

(** spn/utils.go:216-254. [rnd i n] is the i-th answer of sys.RandIntn(n); sys.RandIntn(0)
    panics. *)
Fixpoint mapLoop (rnd : nat -> nat -> nat) (I : varset) (look : nat -> F) (fuel : nat)
  (i : nat) (Q V : list nat) (M : varset) : res varset :=
  match fuel with
  | O => Fuel
  | S f =>
      match Q with
      | [] => Ok M
      | s :: Q' =>
          match nk (net s) with
          | KLeaf l => a <- orPanic (largmax l I); mapLoop rnd I look f i Q' V (merge M (fst a))
          | KSum w =>
              b <- bestChildren look w (nch (net s));
              (if Nat.eqb (length (snd b)) 0 then Panic else
               c <- idx (snd b) (rnd i (length (snd b)));
               let (Q2, V2) := push c (Q', V) in mapLoop rnd I look f (S i) Q2 V2 M)
          | KProd =>
              let (Q2, V2) := fold_left (fun QV c => push c QV) (nch (net s)) (Q', V) in
              mapLoop rnd I look f i Q2 V2 M
          end
      end
  end.

(** spn/utils.go:164-257. *)
Definition storeMAP (rnd : nat -> nat -> nat) (fuel : nat) (S0 : nat) (I : varset) (tk : Z)
  (st : storer) : res (storer * (option nat * Z * option varset)) :=
  if Nat.eqb (length (nch (net S0))) 0 then Ok (st, (None, (-1)%Z, None))
  else
    let (st1, tk1) := if (tk <? 0)%Z then newTicket F st else (st, tk) in
    match topSortTarjan (children net) fuel S0 with
    | None => Fuel
    | Some ord =>
        let t := fst (table F st1 tk1) in
        st2 <- foldr_ (mapNode I t) ord st1;
        M <- mapLoop rnd I (fun c => fst (tSingle F (fz 0) st2 t c)) fuel 0 [S0] [S0]
                     (fun _ => None);
        Ok (st2, (Some S0, tk1, Some M))
    end.

(** spn/utils.go:482-511: the first pass of TraceMAP, on a local map. *)
Definition traceNode (I : varset) (tab : nat -> option F) (s : nat) : res (nat -> option F) :=
  m <- match nk (net s) with
       | KLeaf l => orPanic (lmax l I)
       | KSum w =>
           foldi (fun i mv c => wi <- idx w i; let u := fadd (flog wi) (getV tab c) in
                                Ok (if fgt u mv then u else mv)) (nch (net s)) fninf
       | KProd => Ok (fold_left (fun v c => fadd v (getV tab c)) (nch (net s)) (fz 0))
       end;
  Ok (upd tab s (Some m)).

(** spn/utils.go:525-536: the indices attaining the maximum, in order. *)
Definition bestIndices (look : nat -> F) (w : list F) (ch : list nat) : res (F * list nat) :=
  foldi (fun i (st : F * list nat) c =>
           let (m, mi) := st in
           wi <- idx w i;
           let u := fadd (flog wi) (look c) in
           Ok (if fgt u m then (u, [i]) else if feq u m then (m, mi ++ [i]) else st))
        ch (fninf, []).

(** spn/utils.go:518-552. *)
Fixpoint traceLoop (rnd : nat -> nat -> nat) (look : nat -> F) (fuel : nat) (i : nat)
  (Q V : list nat) (P : nat -> option nat) : res (nat -> option nat) :=
  match fuel with
  | O => Fuel
  | S f =>
      match Q with
      | [] => Ok P
      | s :: Q' =>
          match nk (net s) with
          | KLeaf _ => traceLoop rnd look f i Q' V P
          | KSum w =>
              b <- bestIndices look w (nch (net s));
              (if Nat.eqb (length (snd b)) 0 then Panic else
               mi <- idx (snd b) (rnd i (length (snd b)));
               c <- idx (nch (net s)) mi;
               if memn c V then traceLoop rnd look f (S i) Q' V P
               else traceLoop rnd look f (S i) (Q' ++ [c]) (c :: V) (upd P s (Some mi)))
          | KProd =>
              let (Q2, V2) := fold_left (fun QV c => push c QV) (nch (net s)) (Q', V) in
              traceLoop rnd look f i Q2 V2 P
          end
      end
  end.

(** spn/utils.go:473-555. *)
Definition traceMAP (rnd : nat -> nat -> nat) (fuel : nat) (S0 : nat) (I : varset)
  : res (nat -> option nat) :=
  match topSortTarjan (children net) fuel S0 with
  | None => Fuel
  | Some ord =>
      tab <- foldr_ (traceNode I) ord (fun _ => None);
      traceLoop rnd (getV tab) fuel 0 [S0] [S0] (fun _ => None)
  end.
End Eval.
End Spn.
Arguments leaf A : clear implicits.
Arguments kind A : clear implicits.
Arguments node A : clear implicits.
Arguments network A : clear implicits.
