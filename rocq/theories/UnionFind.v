(** Model of /repo/utils/unionfind.go. Nodes are pointers (nat) into a heap. *)
From Verif Require Import Base Res.

(** utils/unionfind.go:5-15, one function per field; [unext] is the next fresh pointer. *)
Record uf := mkUf { pa : nat -> nat; rank : nat -> nat; vid : nat -> Z; uch : nat -> list nat; unext : nat }.

Definition newHeap : uf := mkUf (fun x => x) (fun _ => 0) (fun _ => 0%Z) (fun _ => []) 0.

(** x.Pa = p. *)
Definition setPa (s : uf) (x p : nat) : uf := mkUf (upd (pa s) x p) (rank s) (vid s) (uch s) (unext s).
(** x.Ch = append(x.Ch, c). *)
Definition addCh (s : uf) (x c : nat) : uf := mkUf (pa s) (rank s) (vid s) (upd (uch s) x (uch s x ++ [c])) (unext s).
Definition incRank (s : uf) (x : nat) : uf := mkUf (pa s) (upd (rank s) x (S (rank s x))) (vid s) (uch s) (unext s).

(** utils/unionfind.go:18-22. *)
Definition makeSet (s : uf) (v : Z) : uf * nat :=
  let x := unext s in
  (mkUf (upd (pa s) x x) (upd (rank s) x 0) (upd (vid s) x v) (upd (uch s) x []) (S x), x).

(** utils/unionfind.go:25-30. *)
Fixpoint find (fuel : nat) (s : uf) (x : nat) : res (uf * nat) :=
  match fuel with
  | O => Fuel
  | S f =>
      if Nat.eqb x (pa s x) then Ok (s, pa s x)
      else r <- find f s (pa s x);
           let s' := setPa (fst r) x (snd r) in Ok (s', pa s' x)
  end.

(** utils/unionfind.go:35-52. The result node is None for nil. *)
Definition union (fuel : nat) (s : uf) (x y : nat) : res (uf * (option nat * Z)) :=
  rx <- find fuel s x;
  ry <- find fuel (fst rx) y;
  let s := fst ry in let x := snd rx in let y := snd ry in
  if Nat.eqb x y then Ok (s, (None, (-1)%Z))
  else if Nat.ltb (rank s y) (rank s x) then Ok (addCh (setPa s y x) x y, (Some x, 1%Z))
  else
    let s1 := addCh (setPa s x y) y x in
    Ok (if Nat.eqb (rank s1 x) (rank s1 y) then incRank s1 y else s1, (Some y, 2%Z)).

(** utils/unionfind.go:55-69. The test n == 0 is absorbed by the empty loop. *)
Fixpoint ufVarids (fuel : nat) (s : uf) (x : nat) : res (list Z) :=
  match fuel with
  | O => Fuel
  | S f => foldr_ (fun ch c => l <- ufVarids f s c; Ok (ch ++ l)) (uch s x) [vid s x]
  end.

(** Client programs. A client only passes pointers it was given; others are mapped to a panic. *)
Inductive ufop := OMake (v : Z) | OFind (x : nat) | OUnion (x y : nat).
Inductive ufres := RNode (x : nat) | RUnion (x : option nat) (k : Z).

Definition ufstep (fuel : nat) (s : uf) (o : ufop) : res (uf * ufres) :=
  match o with
  | OMake v => let (s', x) := makeSet s v in Ok (s', RNode x)
  | OFind x => if Nat.ltb x (unext s) then r <- find fuel s x; Ok (fst r, RNode (snd r)) else Panic
  | OUnion x y =>
      if andb (Nat.ltb x (unext s)) (Nat.ltb y (unext s))
      then r <- union fuel s x y; Ok (fst r, RUnion (fst (snd r)) (snd (snd r))) else Panic
  end.

Fixpoint ufrun (fuel : nat) (s : uf) (ops : list ufop) : res uf :=
  match ops with
  | [] => Ok s
  | o :: t => r <- ufstep fuel s o; ufrun fuel (fst r) t
  end.
