(** Model of /repo/learn/parameters/parameters.go and of the Parameters methods of nodes. Objects of
    type *P are numbered in the order of their creation. Every access to the binding table holds the
    package's mutex, so it is one step. *)
From Coq Require Import QArith.
From Verif Require Import Base.
Local Open Scope nat_scope.

(** learn/parameters/parameters.go:35-45. Decimal constants as rationals. *)
Record P := mkP { normalize : bool; hardWeight : bool; smoothSum : Q; learningType : nat; eta : Q; epsilon : Q;
                  batchSize : Z; lambda : Q; iterations : nat }.
(** learn/parameters/parameters.go:57-59; SoftGD = 1. *)
Definition defaultP : P := mkP true false (1 # 100) 1 (1 # 10) 1 0 (1 # 100) 4.

(** Keys are interface values: dynamic type and address. spn/node.go:13-22: a leaf embeds a Node at its
    own address, whose pointer has a different type. *)
Inductive dyn := TSum | TProduct | TNode | TLeaf (kind : nat).
Definition dyn_eqb (a b : dyn) : bool :=
  match a, b with TSum, TSum | TProduct, TProduct | TNode, TNode => true | TLeaf i, TLeaf j => Nat.eqb i j | _, _ => false end.
Definition key := (dyn * nat)%type.
Definition key_eqb (a b : key) : bool := dyn_eqb (fst a) (fst b) && Nat.eqb (snd a) (snd b).

(** learn/parameters/parameters.go:88-92, and all objects of type P. *)
Record table := mkT { bindings : list (key * nat); ps : list P }.
Definition table0 : table := mkT [] [].

(** learn/parameters/parameters.go:94-98. *)
Definition bindP (t : table) (e : key) (p : nat) : table :=
  mkT ((e, p) :: filter (fun b => negb (key_eqb (fst b) e)) (bindings t)) (ps t).
(** learn/parameters/parameters.go:100-104. *)
Definition unbindP (t : table) (e : key) : table :=
  mkT (filter (fun b => negb (key_eqb (fst b) e)) (bindings t)) (ps t).
(** learn/parameters/parameters.go:113-118. *)
Fixpoint look (bs : list (key * nat)) (e : key) : option nat :=
  match bs with [] => None | (k, p) :: t => if key_eqb k e then Some p else look t e end.
Definition retrieve (t : table) (e : key) : option nat := look (bindings t) e.
(** learn/parameters/parameters.go:106-111. *)
Definition existsP (t : table) (e : key) : bool := match look (bindings t) e with Some _ => true | None => false end.
(** learn/parameters/parameters.go:57-64: Default and New allocate. *)
Definition newP (t : table) (p : P) : table * nat := (mkT (bindings t) (ps t ++ [p]), length (ps t)).

(** The receiver of the method called by o.Parameters(): spn/sum.go:127, spn/product.go:92,
    spn/node.go:120 (leaves inherit the method of the embedded Node). *)
Definition receiver (o : key) : key := match fst o with TSum | TProduct | TNode => o | TLeaf _ => (TNode, snd o) end.
(** spn/sum.go:127-134, spn/product.go:92-99, spn/node.go:120-127. *)
Definition parametersOf (t : table) (o : key) : table * nat :=
  match retrieve t (receiver o) with
  | Some p => (t, p)
  | None => let (t1, p) := newP t defaultP in (bindP t1 (receiver o) p, p)
  end.

Inductive pcall := PNew (p : P) | PBind (e : key) (p : nat) | PUnbind (e : key) | PExists (e : key) | PRetrieve (e : key) | PParameters (o : key).
Inductive panswer := AUnit | ABool (b : bool) | APtr (p : option nat).
Definition pstep (t : table) (c : pcall) : table * panswer :=
  match c with
  | PNew p => let (t', q) := newP t p in (t', APtr (Some q))
  | PBind e p => (bindP t e p, AUnit)
  | PUnbind e => (unbindP t e, AUnit)
  | PExists e => (t, ABool (existsP t e))
  | PRetrieve e => (t, APtr (retrieve t e))
  | PParameters o => let (t', p) := parametersOf t o in (t', APtr (Some p))
  end.
Fixpoint prun (t : table) (cs : list pcall) : table * list panswer :=
  match cs with [] => (t, []) | c :: r => let (t1, a) := pstep t c in let (t2, as_) := prun t1 r in (t2, a :: as_) end.

(** Goroutines calling o.Parameters(): about to look up, about to bind the new object, done. *)
Inductive thread := Calling (o : key) | Binding (o : key) (p : nat) | Got (p : nat).
Definition tstep (t : table) (th : thread) : table * thread :=
  match th with
  | Calling o => match retrieve t (receiver o) with
                 | Some p => (t, Got p)
                 | None => let (t1, p) := newP t defaultP in (t1, Binding o p)
                 end
  | Binding o p => (bindP t (receiver o) p, Got p)
  | Got p => (t, Got p)
  end.
(** One goroutine after the other takes a step, in any order. *)
Fixpoint interleave (sched : list nat) (t : table) (ths : list thread) : table * list thread :=
  match sched with
  | [] => (t, ths)
  | i :: r => match nth_error ths i with
              | Some th => let (t', th') := tstep t th in interleave r t' (set_nth i th' ths)
              | None => interleave r t ths
              end
  end.
