(** Learning with the Poon-Domingos architecture: /repo/learn/poon/poon.go:43-68 and 337-656. The regions and
    their codes are in Poon.v. sys.RandIntn is the oracle [rnd]: the answer to call number c with
    argument n; RandIntn(0) panics. The keys of existingDecomps and decompToProd are the four
    numbers of a decomposition printed with commas between them, which determine it; here the
    decompositions themselves are the keys. What is printed is left out. *)
From Verif Require Import Base Res Arith LogMath GraphSpec Search Storer Spn Walk Leaves Build Stats Struct Derive Hard Train Poon.
Local Open Scope Z_scope.

(** learn/poon/poon.go:53-56. *)
Record dec := mkDec { dp : Z; dq : Z; dr : Z; ds : Z }.
(** learn/poon/poon.go:480-482. *)
Definition decEqb (d e : dec) : bool := (dp d =? dp e) && (dq d =? dq e) && (dr d =? dr e) && (ds d =? ds e).

(** sort.Ints. *)
Fixpoint insertZ (x : Z) (l : list Z) : list Z :=
  match l with [] => [x] | y :: t => if x <=? y then x :: l else y :: insertZ x t end.
Definition sortZ (l : list Z) : list Z := fold_right insertZ [] l.

Section Learn.
Context {A : arith}.
Local Notation F := (F A).
Variables w h : Z.
Variable logProb : F -> F -> F -> F.
Variables trunc round : F -> Z.
Variable rnd : nat -> nat -> nat.

(** The state: the nodes, the tables, existingDecomps, existingProds, decompToProd, the fields
    mapIndex and bestDecomp of the regions (by their codes: no two codes share a region), and the
    number of random draws. The fields maxProd and maxSum are set by each call before use. *)
Record lstate := mkL { lH : nodes A; lst : storer F; lE : list dec; lP : nat -> option dec;
  lQ : dec -> option nat; lM : Z -> Z; lB : Z -> list (option dec); lc : nat }.

Definition withSt (s : lstate) (st : storer F) := mkL (lH s) st (lE s) (lP s) (lQ s) (lM s) (lB s) (lc s).
Definition withM (s : lstate) (k : Z) (i : Z) := mkL (lH s) (lst s) (lE s) (lP s) (lQ s) (updZ (lM s) k i) (lB s) (lc s).
Definition withB (s : lstate) (k : Z) (b : list (option dec)) := mkL (lH s) (lst s) (lE s) (lP s) (lQ s) (lM s) (updZ (lB s) k b) (lc s).
Definition withH (s : lstate) (H : nodes A) := mkL H (lst s) (lE s) (lP s) (lQ s) (lM s) (lB s) (lc s).

(** l[sys.RandIntn(len(l))]. *)
Definition pick {T} (l : list T) (s : lstate) : res (T * lstate) :=
  match l with
  | [] => Panic
  | _ => x <- idx l (rnd (lc s) (length l));
         Ok (x, mkL (lH s) (lst s) (lE s) (lP s) (lQ s) (lM s) (lB s) (S (lc s)))
  end.

(** l[i] = x. *)
Definition setAt {T} (l : list T) (i : nat) (x : T) : res (list T) :=
  if (i <? length l)%nat then Ok (set_nth i x l) else Panic.

(** v, _ := tab.Single(s) and counts.Single(s); infTk = 0, countTk = 1: learn/poon/poon.go:28-29. *)
Definition inf (s : lstate) (u : nat) : F := fst (tSingle F (fz 0) (lst s) (fst (Storer.table F (lst s) 0)) u).
Definition count (s : lstate) (u : nat) : F := fst (tSingle F (fz 0) (lst s) (fst (Storer.table F (lst s) 1)) u).
Definition storeInf (s : lstate) (u : nat) (v : F) : res lstate :=
  st <- storeVia (lst s) (fst (Storer.table F (lst s) 0)) u v; Ok (withSt s st).
Definition storeCount (s : lstate) (u : nat) (v : F) : res lstate :=
  st <- storeVia (lst s) (fst (Storer.table F (lst s) 1)) u v; Ok (withSt s st).

(** learn/poon/poon.go:484-488, 490-493. *)
Definition exists_ (d : dec) (s : lstate) : bool := existsb (decEqb d) (lE s).

Variable L : Poon.table.

(** learn/poon/poon.go:357-376, 379-397: one cut; the state is D and R.maxProd. *)
Definition tryCut (s : lstate) (Dm : list dec * F) (pq : Z * Z) : res (list dec * F) :=
  P <- orPanic (L (fst pq)); u <- idxZ (rinner P) (lM s (fst pq));
  Q <- orPanic (L (snd pq)); v <- idxZ (rinner Q) (lM s (snd pq));
  let sv := inf s u in let tv := inf s v in
  let m := if feq sv fninf || feq tv fninf then fninf else fadd sv tv in
  let '(D, mx) := match fst Dm with [] => ([], m) | _ => if fgt m (snd Dm) then ([], m) else Dm end in
  Ok (if feq m mx then D ++ [mkDec (fst pq) (snd pq) (lM s (fst pq)) (lM s (snd pq))] else D, mx).

(** learn/poon/poon.go:356, 378: the cuts in order. *)
Definition mapCuts (d x1 y1 x2 y2 : Z) : list (Z * Z) :=
  map (cutX w h x1 y1 x2 y2) (steps (x1 + d) (x2 - 1) d) ++
  map (cutY w h x1 y1 x2 y2) (steps (y1 + d) (y2 - 1) d).

(** learn/poon/poon.go:344-349: the positions of the sums without children. *)
Definition unused (H : nodes A) (R : region) : list nat :=
  filter (fun i => match nth_error (rinner R) i with Some u => Nat.eqb (length (nch (netOf H u))) 0 | None => false end)
         (seq 0 (length (rinner R))).

(** learn/poon/poon.go:416-426: the state is bestDecomp and mS. *)
Definition bestChild (s : lstate) (a : F) (bm : list (option dec) * F) (c : nat) : list (option dec) * F :=
  let v := logSumExpPair a (inf s c) in
  let '(b, m) := match fst bm with [] => ([], v) | _ => if fgt v (snd bm) then ([], v) else bm end in
  (if feq m v then b ++ [lP s c] else b, m).

(** learn/poon/poon.go:406-447: one iteration. The state is carried by the loop with bestDecomp
    (which is not cleared between the sums), mapSumOpts and R.maxSum. *)
Definition usedSum (k : Z) (I : varset) (cD : dec) (maxProd : F) (i : nat)
    (x : lstate * list (option dec) * list nat * F) (u : nat) : res (lstate * list (option dec) * list nat * F) :=
  let '(s, best, opts, maxSum) := x in
  if Nat.eqb (length (nch (netOf (lH s) u))) 0 then Ok x else
  r <- storeInference (netOf (lH s)) (2 * length (lH s) + 1) u I 0 (lst s);
  let s := withSt s (fst r) in
  let sv := inf s u in let sc := count s u in let slc := flog sc in
  let '(best, mS) := fold_left (bestChild s (fadd sv slc)) (nch (netOf (lH s) u)) (best, fz 0) in
  let '(best, mS) :=
    if exists_ cD s then (best, mS) else
    let v := if feq sv fninf then maxProd else logSumExpPair maxProd (fadd sv slc) in
    match best with [] => ([Some cD], v) | _ => if fgt v mS then ([Some cD], v) else (best, mS) end in
  s <- storeInf s u (fsub mS (flog (fadd sc (fz 1))));
  r <- pick best s;
  B <- setAt (lB (snd r) k) i (fst r);
  let s := withB (snd r) k B in
  let '(opts, maxSum) := match opts with [] => ([], sv) | _ => if fgt sv maxSum then ([], sv) else (opts, maxSum) end in
  Ok (s, best, if feq sv maxSum then opts ++ [i] else opts, maxSum).

(** learn/poon/poon.go:462-477: the chosen decomposition gets a product the first time. *)
Definition useDec (R : region) (mi : nat) (bD : dec) (s : lstate) : res lstate :=
  if exists_ bD s then
    pi <- orPanic (lQ s bD);
    storeCount s pi (fadd (count s pi) (fz 1))
  else
    P <- orPanic (L (dp bD)); u <- idxZ (rinner P) (dr bD);
    Q <- orPanic (L (dq bD)); v <- idxZ (rinner Q) (ds bD);
    let (H, pi) := newNode (mkNode KProd [u; v]) (lH s) in
    sum <- idx (rinner R) mi;
    H <- addChildW sum pi (fz 1) H;
    let s := mkL H (lst s) (bD :: lE s) (upd (lP s) pi (Some bD))
                 (fun d => if decEqb d bD then Some pi else lQ s d) (lM s) (lB s) (lc s) in
    storeCount s pi (fadd (count s pi) (fz 1)).

(** learn/poon/poon.go:337-478. cUnusedIndex is never negative: without unused sums it is 0. *)
Definition compMap (k : Z) (R : region) (I : varset) (s : lstate) : res lstate :=
  let s := withM s k (-1) in
  r <- (match unused (lH s) R with [] => Ok (O, s) | U => pick U s end);
  let '(cU, s) := r in
  c <- decode w h k;
  let '(x1, y1, x2, y2) := c in
  Dm <- foldr_ (tryCut s) (mapCuts (rstep R) x1 y1 x2 y2) ([], fninf);
  r <- pick (fst Dm) s;
  let '(cD, s) := r in
  x <- foldi (usedSum k I cD (snd Dm)) (rinner R) (s, [], [], fninf);
  let '(s, _, opts, maxSum) := x in
  n <- idx (rinner R) cU;
  let v := fsub (snd Dm) (flog (fadd (count s n) (fz 1))) in
  s <- storeInf s n v;
  B <- setAt (lB s k) cU (Some cD);
  let s := withB s k B in
  let opts := match opts with [] => [cU] | _ => if fgt v maxSum then [cU] else opts end in
  r <- pick opts s;
  let '(mi, s) := r in
  let s := withM s k (Z.of_nat mi) in
  b <- idx (lB s k) mi;
  bD <- orPanic b;
  useDec R mi bD s.

(** learn/poon/poon.go:516-523: the Gaussians of one pixel. *)
Definition unitBest (k : Z) (I : varset) (i : nat) (x : lstate * F) (u : nat) : res (lstate * F) :=
  let '(s, m) := x in
  match nk (netOf (lH s) u) with
  | KLeaf l =>
      v <- orPanic (lvalue l I);
      let '(s, m) := if (lM s k =? -1) || fgt v m then (withM s k (Z.of_nat i), v) else (s, m) in
      s <- storeInf s u v; Ok (s, m)
  | _ => Panic
  end.

(** learn/poon/poon.go:506-526. *)
Definition compUnit (I : varset) (s : lstate) (xy : Z * Z) : res lstate :=
  let k := encode w h (fst xy) (snd xy) (fst xy + 1) (snd xy + 1) in
  R <- orPanic (L k);
  x <- foldi (unitBest k I) (rinner R) (withM s k (-1), fz 0);
  Ok (fst x).
Definition compUnitRegions (I : varset) (s : lstate) : res lstate :=
  foldr_ (compUnit I) (list_prod (steps 0 (w - 1) 1) (steps 0 (h - 1) 1)) s.

(** R := L[k]; R.compMap(k, ...). *)
Definition compRect (I : varset) (s : lstate) (x1 y1 x2 y2 : Z) : res lstate :=
  let k := encode w h x1 y1 x2 y2 in R <- orPanic (L k); compMap k R I s.

(** learn/poon/poon.go:530-569. *)
Definition compFine (I : varset) (s : lstate) (i : Z * Z * Z * Z) : res lstate :=
  let '(x, y, x1, y1) := i in
  if (x =? 1) && (y =? 1) then Ok s else compRect I s x1 y1 (x1 + x) (y1 + y).
Definition compCoarse (r : Z) (I : varset) (s : lstate) (i : Z * Z * Z * Z) : res lstate :=
  let '(ca, cb, x1, y1) := i in
  if (ca =? 1) && (cb =? 1) then Ok s else compRect I s x1 y1 (x1 + ca * r) (y1 + cb * r).
Definition mapInference (r : Z) (s : lstate) (I : varset) : res lstate :=
  s <- compUnitRegions I s;
  s <- foldr_ (compFine I) (fine r (Z.quot w r) (Z.quot h r)) s;
  foldr_ (compCoarse r I) (coarse w h r (Z.quot w r) (Z.quot h r)) s.

(** newRegion, learn/poon/poon.go:58-68: bestDecomp is nil for step 1, and the step given is [r] for
    every region but the single pixels, whose bestDecomp is never used. *)
Definition startB (r : Z) : Z -> list (option dec) := fun k =>
  match L k with Some R => if r =? 1 then [] else repeat None (length (rinner R)) | None => [] end.
Definition startL (r : Z) (H : nodes A) : lstate :=
  mkL H (fst (newTicket F (fst (newTicket F (newStorer F))))) [] (fun _ => None) (fun _ => None) (fun _ => -1) (startB r) O.

(** learn/poon/poon.go:571-600. *)
Definition maxThroughData (r : Z) (H : nodes A) (data : list varset) : res (nodes A * nat) :=
  s <- foldr_ (mapInference r) data (startL r H);
  z <- firstInner (L (encode w h 0 0 w h));
  Ok (lH s, z).
End Learn.
Arguments lstate A : clear implicits.

Section Structure.
Context {A : arith}.
Local Notation F := (F A).
Variables w h : Z.
Variable logProb : F -> F -> F -> F.
Variables trunc round : F -> Z.
Variable rnd : nat -> nat -> nat.

(** The values of pixel [p] in the data, learn/poon/poon.go:100-104; an absent pixel reads as 0. *)
Definition pixelValues (data : list varset) (p : Z) : list Z :=
  map (fun I : varset => match I p with Some v => v | None => 0 end) data.

(** learn/poon/poon.go:106-121: mean and deviation of Gaussian [i] of [n] for pixel [p]. The loop
    reads exactly the [n] results of PartitionQuantiles. *)
Definition unitPar (data : list varset) (n : nat) (p : Z) (i : nat) : F * F :=
  let V := pixelValues data p in
  if Nat.eqb n 1 then histMuSigma V else
  match partitionQuantiles (sortZ V) (Z.of_nat n) with
  | Ok Q => match nth_error Q i with Some q => fst q | None => (fz 0, fz 0) end
  | _ => (fz 0, fz 0)
  end.

(** learn/poon/poon.go:602-608. With g = 0 PartitionQuantiles divides by zero at the first pixel;
    when there is none (r does not fit the image), L[k] is nil later on. *)
Definition structure (data : list varset) (m g : nat) (r : Z) : res (nodes A * nat) :=
  if Nat.eqb g 0 then Panic else
  c <- createRegions w h (unitPar data g) logProb trunc round m g r;
  maxThroughData w h rnd (snd c) r (fst c) data.

(** learn/poon/poon.go:634-656: NormalizeSPN and learn.GenerativeHardBGD with norm = true and
    batches of 50. The regularisation and the number of iterations are those of the parameters
    bound to the network, or the default ones. *)
Variable ordN : nat -> (nat -> bool) -> list nat.
Variable ordP : nat -> nat -> (Z -> option F) -> list (Z * F).
Variable rndT : nat -> nat -> nat -> nat.
Definition learnGD (data : list varset) (m g : nat) (r : Z) (eta lambda : F) (iter : Z) (fuelT fuel : nat)
  : res (network A * nat) :=
  c <- structure data m g r;
  net <- normalizeSPN (netOf (fst c)) fuel (snd c);
  net <- generativeHardBGD ordN ordP rndT fuelT fuel (snd c) (@mkParams A true 0 eta 50 lambda iter) data net;
  Ok (net, snd c).
End Structure.
