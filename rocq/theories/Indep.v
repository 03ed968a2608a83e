(** Model of /repo/utils/indep (gtest.go, indgraph.go, ChiSquareTest of chisq.go) and
    /repo/utils/vardata.go. Integer counts are Z (no wrap around). The chi-square distribution
    function of gonum is the parameter [chi2]. *)
From Verif Require Import Base Res Arith UnionFind.
Local Open Scope Z_scope.

(** utils/vardata.go:6-13. *)
Record vardata := mkVD { vd_id : Z; vd_cat : Z; vd_data : list Z }.

(** m[x][y] and m[x][y] = v. *)
Definition getM {T} (m : list (list T)) (x y : nat) : res T := row <- idx m x; idx row y.
Definition setM {T} (m : list (list T)) (x y : nat) (v : T) : res (list (list T)) :=
  row <- idx m x; _ <- idx row y; Ok (set_nth x (set_nth y v row) m).

(** for x := a; x < b; x++. *)
Definition range (a b : nat) : list nat := seq a (b - a).

(** make([]int, n). *)
Definition makeInts (n : Z) : res (list Z) := if n <? 0 then Panic else Ok (repeat 0 (Z.to_nat n)).

(** utils/indep/indgraph.go:80-90 and 207-217: the counts. *)
Definition countPairs (p q : Z) (xs ys : list Z) : res (list (list Z)) :=
  if p + 1 <? 0 then Panic else
  row <- (if p + 1 =? 0 then Ok [] else makeInts (q + 1));
  foldi (fun k m a =>
           b <- idx ys k;
           if (a <? 0) || (b <? 0) then Panic
           else v <- getM m (Z.to_nat a) (Z.to_nat b); setM m (Z.to_nat a) (Z.to_nat b) (v + 1))
        xs (repeat row (Z.to_nat (p + 1))).

(** utils/indep/indgraph.go:96-103. State: (m, tx, ty). *)
Definition marginRow (q : nat) (x : nat) (st : list (list Z) * list Z) : res (list (list Z) * list Z) :=
  let (m, tx) := st in
  r <- foldr_ (fun (s : list Z * Z) y =>
         v <- getM m x y; t <- idx (fst s) y; Ok (set_nth y (t + v) (fst s), snd s + v)) (range 0 q) (tx, 0);
  m' <- setM m x q (snd r); Ok (m', fst r).

(** utils/indep/indgraph.go:79-112 (also 206-239). *)
Definition contingency (p q : Z) (xs ys : list Z) : res (list (list Z)) :=
  m <- countPairs p q xs ys;
  tx <- makeInts q;
  let P := Z.to_nat p in let Q := Z.to_nat q in
  r <- foldr_ (fun st x => marginRow Q x st) (range 0 P) (m, tx);
  s <- foldr_ (fun (s : list (list Z) * Z) y =>
         t <- idx (snd r) y; m' <- (if p <? 0 then Panic else setM (fst s) P y t); Ok (m', snd s + t)) (range 0 Q) (fst r, 0);
  if (p <? 0) || (q <? 0) then Panic else setM (fst s) P Q (snd s).

Section Tests.
Context {A : arith}.
Local Notation F := (F A).
Variable chi2 : F -> Z -> F.   (* utils/indep/chisq.go:14-17 *)

(** The cells (i, j), i < p, j < q, in the order of the two nested loops. *)
Definition cells (p q : nat) : list (nat * nat) :=
  flat_map (fun i => map (pair i) (range 0 q)) (range 0 p).

(** E[i][j]: utils/indep/gtest.go:20-23, chisq.go:148-150. *)
Definition expected (p q : nat) (data : list (list Z)) (i j : nat) : res F :=
  a <- getM data p j; b <- getM data i q; t <- getM data p q; Ok (fdiv (fz (a * b)) (fz t)).

(** utils/indep/gtest.go:13-45. *)
Definition gStat (p q : nat) (data : list (list Z)) : res F :=
  E <- foldr_ (fun m c => e <- expected p q data (fst c) (snd c); Ok (m ++ [e])) (cells p q) [];
  s <- foldr_ (fun s (ce : (nat * nat) * F) =>
         let (c, e) := ce in
         if feq e (fz 0) then Ok s
         else o <- getM data (fst c) (snd c);
              if @feq A (fz o) (fz 0) then Ok s
              else Ok (fadd s (fmul (fz o) (flog (fdiv (fz o) e))))) (combine (cells p q) E) (fz 0);
  Ok (fmul s (fz 2)).

(** utils/indep/gtest.go:11-50. The argument n is not used. *)
Definition gTest (p q : Z) (data : list (list Z)) (sigval : F) : res bool :=
  if (p <? 0) || ((0 <? p) && (q <? 0)) then Panic else
  s <- gStat (Z.to_nat p) (Z.to_nat q) data;
  Ok (fge (fsub (fz 1) (chi2 s ((p - 1) * (q - 1)))) sigval).

(** utils/indep/chisq.go:132-165. *)
Definition chiStat (p q : nat) (data : list (list Z)) : res F :=
  E <- foldr_ (fun m c => e <- expected p q data (fst c) (snd c); Ok (m ++ [e])) (cells p q) [];
  foldr_ (fun s (ce : (nat * nat) * F) =>
         let (c, e) := ce in
         o <- getM data (fst c) (snd c);
         if feq e (fz 0) && (o =? 0) then Ok s
         else let diff := fsub (fz o) e in Ok (fadd s (fdiv (fmul diff diff) e))) (combine (cells p q) E) (fz 0).

(** utils/indep/chisq.go:128-174. *)
Definition chiSquareTest (p q : Z) (data : list (list Z)) (sigval : F) : res bool :=
  if (p <? 0) || ((0 <? p) && (q <? 0)) then Panic else
  s <- chiStat (Z.to_nat p) (Z.to_nat q) data;
  Ok (fge (fsub (fz 1) (chi2 s ((p - 1) * (q - 1)))) sigval).

Section Graph.
Variable data : list vardata.
Variable pval : F.
Variable fuel : nat.   (* for Find and UFVarids *)

(** utils/indep/indgraph.go:77-116 and 204-246: the test of variables i and j (positions). *)
Definition pairTest (i j : nat) : res bool :=
  di <- idx data i; dj <- idx data j;
  m <- contingency (vd_cat di) (vd_cat dj) (vd_data di) (vd_data dj);
  gTest (vd_cat di) (vd_cat dj) m pval.

(** The iterations i < j of the nested loops, in order. *)
Definition pairs (n : nat) : list (nat * nat) :=
  flat_map (fun i => map (pair i) (range (S i) n)) (range 0 n).

Definition ids : list Z := map vd_id data.

(** igraph.adjlist: a map from varids to slices. *)
Definition adjlist := Z -> option (list Z).
Definition adj0 : adjlist := fold_left (fun a v => updZ a v (Some [])) ids (fun _ => None).
(** igraph.adjlist[v] = append(igraph.adjlist[v], w). *)
Definition addEdge (a : adjlist) (v w : Z) : adjlist :=
  updZ a v (Some ((match a v with Some l => l | None => [] end) ++ [w])).
(** rids: indgraph.go:64-70. *)
Definition rids : Z -> option nat :=
  snd (fold_left (fun (s : nat * (Z -> option nat)) v => (S (fst s), updZ (snd s) v (Some (fst s)))) ids (O, fun _ => None)).

(** sets[i] = MakeSet(ids[i]): indgraph.go:136-138, 186-188. The fresh pointers are 0, 1, ... *)
Definition makeSets : uf := fold_left (fun s v => fst (makeSet s v)) ids newHeap.

(** indgraph.go:160-165 and 261-266. *)
Definition kset (s : uf) : res (list (list Z)) :=
  foldr_ (fun k i => if Nat.eqb i (pa s i) then l <- ufVarids fuel s i; Ok (k ++ [l]) else Ok k)
         (range 0 (length data)) [].

(** utils/indep/indgraph.go:74-128. *)
Definition edges : res adjlist :=
  foldr_ (fun a (ij : nat * nat) =>
            v1 <- idx ids (fst ij); v2 <- idx ids (snd ij);
            indep <- pairTest (fst ij) (snd ij);
            Ok (if indep then a else addEdge (addEdge a v1 v2) v2 v1))
         (pairs (length data)) adj0.

(** utils/indep/indgraph.go:142-157, one iteration: vertex i and its neighbour v2. *)
Definition connect (s : uf) (iv : nat * Z) : res uf :=
  let rv2 := match rids (snd iv) with Some r => r | None => O end in
  a <- find fuel s (fst iv); b <- find fuel (fst a) rv2;
  if Nat.eqb (snd a) (snd b) then Ok (fst b)
  else u <- union fuel (fst b) (fst iv) rv2; Ok (fst u).

(** utils/indep/indgraph.go:59-168. *)
Definition newIndepGraph : res (adjlist * list (list Z)) :=
  a <- edges;
  s <- foldr_ connect
         (flat_map (fun iv => map (pair (fst iv)) (match a (snd iv) with Some l => l | None => [] end))
                   (combine (range 0 (length data)) ids)) makeSets;
  k <- kset s; Ok (a, k).

(** utils/indep/indgraph.go:191-259, one iteration. *)
Definition ufPair (st : adjlist * uf) (ij : nat * nat) : res (adjlist * uf) :=
  let (a, s) := st in
  v1 <- idx ids (fst ij); v2 <- idx ids (snd ij);
  x <- find fuel s (fst ij); y <- find fuel (fst x) (snd ij);
  if Nat.eqb (snd x) (snd y) then Ok (a, fst y)
  else indep <- pairTest (fst ij) (snd ij);
       if (indep : bool) then Ok (a, fst y)
       else u <- union fuel (fst y) (fst ij) (snd ij);
            Ok (addEdge (addEdge a v1 v2) v2 v1, fst u).

(** utils/indep/indgraph.go:171-269. *)
Definition newUFIndepGraph : res (adjlist * list (list Z)) :=
  st <- foldr_ ufPair (pairs (length data)) (adj0, makeSets);
  k <- kset (snd st); Ok (fst st, k).
End Graph.
End Tests.
