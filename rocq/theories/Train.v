(** Weight learning: /repo/learn/generative.go and /repo/learn/discriminative.go (what they print,
    with the log-likelihood they add up for it, is left out), Hardness of
    /repo/learn/parameters/parameters.go. DeriveSPN and the other steps are in Derive.v and Hard.v.

    S.Parameters() is taken once, at the start of each function, and only its Iterations and Lambda
    are read. Nothing the functions call writes them. *)
From Verif Require Import Base Res Arith LogMath GraphSpec Search Storer Spn Walk Struct Derive Hard.

Section Train.
Context {A : arith}.
Local Notation F := (F A).
Local Notation storer := (storer F).

(** The orders in which range yields the nodes of a table (given by its set of keys) and the entries
    of the map of a node. The first argument numbers the occasions. *)
Variable ordN : nat -> (nat -> bool) -> list nat.
Variable ordP : nat -> nat -> (Z -> option F) -> list (Z * F).

(** The nodes of a table. *)
Definition keysOf (st : storer) (t : option nat) : nat -> bool :=
  fun s => match t with None => false | Some r => match theap F st r s with Some _ => true | None => false end end.

(** for i, d := range m { W[i] = f(d, W[i]) }. *)
Definition rangeWeights (f : F -> F -> F) (es : list (Z * F)) (W : list F) : res (list F) :=
  foldr_ (fun W e => w <- idxZ W (fst e); Ok (set_nth (Z.to_nat (fst e)) (f (snd e) w) W)) es W.

(** learn/generative.go:264-273, 315-325, 341-353, learn/discriminative.go:259-268: the update of one
    node by the entries of a table. *)
Definition rangeNode (f : F -> F -> F) (nrm : bool) (occ : nat) (st : storer) (t : option nat)
    (net : network A) (s : nat) : res (network A) :=
  match nk (net s), fst (tValue F st t s) with
  | KSum W0, Some m =>
      W <- rangeWeights f (ordP occ s (mheap F st m)) W0;
      Ok (setWeights net s (maybeNorm nrm W))
  | _, _ => Ok net
  end.

(** for s, dW := range T { ... }. *)
Definition applyRange (f : F -> F -> F) (nrm : bool) (occ : nat) (st : storer) (tk : Z) (net : network A) : res (network A) :=
  let t := fst (table F st tk) in
  foldr_ (rangeNode f nrm occ st t) (ordN occ (keysOf st t)) net.

(** learn/generative.go:266-268. *)
Definition fastStep (eta lambda : F) (b : Z) (d w : F) : F := stepW lambda b (fmul eta (fexp d)) w.
(** learn/generative.go:318-320, 346-348. *)
Definition hardStep (eta lambda : F) (b : Z) (d w : F) : F :=
  fsub (fadd w (fmul eta (fdiv d (fmul w (fz b))))) (fmul (fmul (fz 2) lambda) w).

(** learn/generative.go:260-275. *)
Definition applyFastGD (eta lambda : F) := fun tk nrm b occ st => applyRange (fastStep eta lambda b) nrm occ st tk.
(** learn/generative.go:311-327. *)
Definition applyFastHGD (eta lambda : F) := fun tk nrm b occ st => applyRange (hardStep eta lambda b) nrm occ st tk.
(** learn/generative.go:329-360. *)
Definition applyHGD (fuel S0 : nat) (eta lambda : F) (tk : Z) (nrm : bool) (b : Z) (occ : nat) (st : storer) (net : network A) : res (network A) :=
  walkFrom (inner net) UseQueue (rangeNode (hardStep eta lambda b) nrm occ st (fst (table F st tk))) fuel S0 net.

(** learn/discriminative.go:233-245. *)
Definition storeNodeD (net : network A) (dwt dut ist izt lt : option nat) (st : storer) (n : nat) : res storer :=
  match nk (net n) with
  | KSum W =>
      let dW := fst (tValue F st dwt n) in let dU := fst (tValue F st dut n) in
      let iS := fst (tValue F st ist n) in let iZ := fst (tValue F st izt n) in
      foldi (fun i st _ =>
        let delta := fsub (fexp (fsub (mapAt st dW i) (mapAt st iS i))) (fexp (fsub (mapAt st dU i) (mapAt st iZ i))) in
        storeAt st lt n (Z.of_nat i) (fadd (fst (tEntry F (fz 0) st lt n (Z.of_nat i))) delta)) W st
  | _ => Ok st
  end.

(** learn/discriminative.go:230-252: line 247 tests V[cs]. *)
Fixpoint storeLoopD (net : network A) (proc : storer -> nat -> res storer) (fuel : nat) (Q V : list nat) (st : storer) : res storer :=
  match fuel with
  | O => Fuel
  | S f =>
      match Q with
      | [] => Ok st
      | n :: Q' =>
          st' <- proc st n;
          storeLoopD net proc f
            (fold_left (fun Q c => if negb (isLeaf net c) && memn c V then Q ++ [c] else Q) (nch (net n)) Q') V st'
      end
  end.

(** learn/discriminative.go:221-253. Tickets d and p and the arguments eta and norm are not used. *)
Definition storeDGD (fuel S0 : nat) (s w z u l : Z) (net : network A) (st : storer) : res storer :=
  storeLoopD net (storeNodeD net (fst (table F st w)) (fst (table F st u)) (fst (table F st s)) (fst (table F st z))
                             (fst (table F st l))) fuel [S0] [S0] st.

(** learn/discriminative.go:255-270. *)
Definition applyDGDFrom (eta lambda : F) := fun tk nrm b occ st => applyRange (fun d w => stepW lambda b (fmul eta d) w) nrm occ st tk.

(** learn/discriminative.go:275-292: C[s] after both loops. Every entry is written once by each loop
    that has it, so the order of the loops over the maps does not matter. *)
Definition countDiff (st : storer) (dt pt : option nat) (s : nat) : Z -> option F := fun i =>
  match tEntry F (fz 0) st dt s i, tEntry F (fz 0) st pt s i with
  | (d, true), (p, true) => Some (fsub d p)
  | (d, true), (_, false) => Some d
  | (_, false), (p, true) => Some (fsub (fz 0) p)
  | (_, false), (_, false) => None
  end.

(** learn/discriminative.go:300-304: an entry that is zero changes nothing. *)
Definition hdStep (eta lambda : F) (b : Z) (delta w : F) : F :=
  if feq delta (fz 0) then w
  else fadd w (fsub (fmul eta (fdiv delta (fmul w (fz b)))) (fmul (fmul (fz 2) lambda) w)).

(** learn/discriminative.go:293-310. The conversion to *spn.Sum panics on other nodes. *)
Definition hdNode (eta lambda : F) (nrm : bool) (b : Z) (occ : nat) (st : storer) (dt pt : option nat)
    (net : network A) (s : nat) : res (network A) :=
  match nk (net s) with
  | KSum W0 => W <- rangeWeights (hdStep eta lambda b) (ordP occ s (countDiff st dt pt s)) W0;
               Ok (setWeights net s (maybeNorm nrm W))
  | _ => Panic
  end.

(** learn/discriminative.go:272-312. *)
Definition applyHDGD (eta lambda : F) (d p : Z) (nrm : bool) (b : Z) (occ : nat) (st : storer) (net : network A) : res (network A) :=
  let dt := fst (table F st d) in let pt := fst (table F st p) in
  foldr_ (hdNode eta lambda nrm b occ st dt pt) (ordN occ (fun s => keysOf st dt s || keysOf st pt s)) net.

(** The parameters used: learn/parameters/parameters.go:35-45. *)
Record params := mkParams { pnorm : bool; ptype : Z; peta : F; pbatch : Z; plambda : F; piter : Z }.

(** The storage, the network, and the number of instances seen so far, which numbers the occasions. *)
Record tstate := mkT { tst : storer; tnet : network A; tcnt : nat }.

(** [rnd c] are the random choices of the c-th call of TraceMAP. *)
Variable rnd : nat -> nat -> nat -> nat.
(** Fuel for the topological sort and for the searches; the root. *)
Variables fuelT fuel S0 : nat.

(** st.NewTicket(), [n] times. *)
Definition tickets_ (n : nat) : storer := fold_left (fun st _ => fst (newTicket F st)) (seq 0 n) (newStorer F).
Definition start (n : nat) (net : network A) : tstate := mkT (tickets_ n) net 0.

(** i % b, a division by zero panics. *)
Definition remOf (i : nat) (b : Z) : res Z := if (b =? 0)%Z then Panic else Ok (Z.rem (Z.of_nat i) b).

(** for _l := 0; _l < P.Iterations; _l++. *)
Definition epochs {T} (P : params) (f : T -> res T) (s : T) : res T := foldr_ (fun s _ => f s) (repeat tt (Z.to_nat (piter P))) s.

Section Generative.
Variable d : discipline. (* the collection c *)
Variable P : params.

(** learn/generative.go:53-77; stk = 0, itk = 1. *)
Definition gdInstance (s : tstate) (I : varset) : res tstate :=
  r <- storeInference (tnet s) fuelT S0 I 1 (tst s);
  r <- deriveSPN (tnet s) d fuel S0 (fst r) 0 1;
  net <- deriveApplyWeights d fuel S0 (peta P) (fst r) 0 1 (pnorm P) (tnet s);
  Ok (mkT (fst (reset F (fst (reset F (fst r) 1)) 0)) net (S (tcnt s))).

(** learn/generative.go:37-91. *)
Definition generativeGD (data : list varset) (net : network A) : res (network A) :=
  s <- epochs P (foldr_ gdInstance data) (start 2 net); Ok (tnet s).

(** learn/generative.go:110-126; dtk = 0, itk = 1. *)
Definition hgdInstance (s : tstate) (I : varset) : res tstate :=
  r <- storeInference (tnet s) fuelT S0 I 1 (tst s);
  r <- deriveHard (tnet s) (rnd (tcnt s)) fuelT fuel S0 (fst r) 0 I;
  net <- applyHGD fuel S0 (peta P) (plambda P) 0 (pnorm P) 1 (tcnt s) (fst r) (tnet s);
  Ok (mkT (fst (reset F (fst (reset F (fst r) 1)) 0)) net (S (tcnt s))).

(** learn/generative.go:94-137. *)
Definition generativeHardGD (data : list varset) (net : network A) : res (network A) :=
  s <- epochs P (foldr_ hgdInstance data) (start 2 net); Ok (tnet s).

(** applyFastGD(...); storage.Reset(wtk). *)
Definition flushWith (ap : nat -> storer -> network A -> res (network A)) (tk : Z) (s : tstate) : res tstate :=
  net <- ap (tcnt s) (tst s) (tnet s); Ok (mkT (fst (reset F (tst s) tk)) net (tcnt s)).

(** learn/generative.go:166-194, 219-241: one pass over the data with batches; [one] treats an
    instance, [flush] applies and resets what was collected. *)
Definition batchEpoch (b : Z) (one : tstate -> varset -> res tstate) (flush : tstate -> res tstate)
    (data : list varset) (s : tstate) : res tstate :=
  s <- foldi (fun i s I => s <- one s I; m <- remOf (S i) b; if (m =? 0)%Z then flush s else Ok s) data s;
  m <- remOf (length data) b;
  if (m =? 0)%Z then Ok s else flush s.

(** learn/generative.go:168-181; stk = 0, itk = 1, wtk = 2. *)
Definition bgdInstance (s : tstate) (I : varset) : res tstate :=
  r <- storeInference (tnet s) fuelT S0 I 1 (tst s);
  r <- deriveSPN (tnet s) d fuel S0 (fst r) 0 1;
  r <- deriveWeightsBatch (tnet s) d fuel S0 (fst r) 2 0 1;
  Ok (mkT (fst (reset F (fst (reset F (fst r) 1)) 0)) (tnet s) (S (tcnt s))).

(** learn/generative.go:149-206. *)
Definition generativeBGD (data : list varset) (net : network A) : res (network A) :=
  s <- epochs P (batchEpoch (pbatch P) bgdInstance
                   (flushWith (applyFastGD (peta P) (plambda P) 2 (pnorm P) (pbatch P)) 2) data) (start 3 net);
  Ok (tnet s).

(** learn/generative.go:220-226; dtk = 0, itk = 1. *)
Definition hbgdInstance (s : tstate) (I : varset) : res tstate :=
  r <- storeInference (tnet s) fuelT S0 I 1 (tst s);
  r <- deriveHard (tnet s) (rnd (tcnt s)) fuelT fuel S0 (fst r) 0 I;
  Ok (mkT (fst (reset F (fst r) 1)) (tnet s) (S (tcnt s))).

(** learn/generative.go:209-258. *)
Definition generativeHardBGD (data : list varset) (net : network A) : res (network A) :=
  s <- epochs P (batchEpoch (pbatch P) hbgdInstance
                   (flushWith (applyFastHGD (peta P) (plambda P) 0 (pnorm P) (pbatch P)) 0) data) (start 2 net);
  Ok (tnet s).
End Generative.

(** learn/parameters/parameters.go:75-80. *)
Definition isHard (t : Z) : bool := (Z.rem t 2 =? 0)%Z.

(** learn/generative.go:14-30. [P] are the parameters bound to the network, or the default ones. *)
Definition generative (P : params) (data : list varset) (net : network A) : res (network A) :=
  if isHard (ptype P)
  then (if (1 <? pbatch P)%Z then generativeHardBGD P data net else generativeHardGD P data net)
  else (if (1 <? pbatch P)%Z then generativeBGD UseQueue P data net else generativeGD UseQueue P data net).

(** ** Discriminative learning. The instances are changed while they are in use. *)
Section Discriminative.
Variable P : params.
Variable Y : list Z. (* the identifiers of the query variables *)

(** The loops over the dataset: the instances afterwards; [y] is the slice of line 55. *)
Record dstate := mkD { ds : tstate; dy : list Z }.
Fixpoint overData (one : dstate -> varset -> res (dstate * varset)) (data : list varset) (s : dstate) : res (dstate * list varset) :=
  match data with
  | [] => Ok (s, [])
  | I0 :: t => r <- one s I0; q <- overData one t (fst r); Ok (fst q, snd r :: snd q)
  end.
Definition dEpochs (one : dstate -> varset -> res (dstate * varset)) (data : list varset) (s : dstate) : res (dstate * list varset) :=
  epochs P (fun p => overData one (snd p) (fst p)) (s, data).

(** learn/discriminative.go:58-65, 110-117; s = 0, d = 1, w = 2, z = 3, p = 4, u = 5. The result is the
    storage, the instance and y. *)
Definition gradients (s : dstate) (I : varset) : res (storer * varset * list Z) :=
  let net := tnet (ds s) in
  r <- storeInference net fuelT S0 I 0 (tst (ds s));
  r <- deriveSPN net UseQueue fuel S0 (fst r) 1 0;
  r <- deriveWeights net UseQueue fuel S0 (fst r) 2 1 0;
  q <- pullValues I Y (dy s);
  z <- storeInference net fuelT S0 (fst q) 3 (fst r);
  r <- deriveSPN net UseQueue fuel S0 (fst z) 4 3;
  r <- deriveWeights net UseQueue fuel S0 (fst r) 5 4 3;
  I <- pushValues (fst q) Y (snd q);
  Ok (fst r, I, snd q).

Definition six : list Z := [0; 1; 2; 3; 4; 5]%Z.

(** learn/discriminative.go:57-68. *)
Definition dgdInstance (s : dstate) (I : varset) : res (dstate * varset) :=
  g <- gradients s I;
  let '(st, J, y) := g in
  net <- applyDGD fuel S0 0 2 3 5 st (peta P) (plambda P) (pnorm P) 1 (tnet (ds s));
  Ok (mkD (mkT (resetTickets F st six) net (S (tcnt (ds s)))) y, J).

(** learn/discriminative.go:50-72. *)
Definition discriminativeGD (data : list varset) (net : network A) : res (network A * list varset) :=
  r <- dEpochs dgdInstance data (mkD (start 6 net) (repeat 0%Z (length Y)));
  Ok (tnet (ds (fst r)), snd r).

(** learn/discriminative.go:84-89; d = 0, p = 1. *)
Definition hardCounts (s : dstate) (I : varset) : res (storer * varset * list Z) :=
  let c := tcnt (ds s) in let net := tnet (ds s) in
  r <- deriveHard net (rnd (2 * c)) fuelT fuel S0 (tst (ds s)) 0 I;
  q <- pullValues I Y (dy s);
  r <- deriveHard net (rnd (2 * c + 1)) fuelT fuel S0 (fst r) 1 (fst q);
  I <- pushValues (fst q) Y (snd q);
  Ok (fst r, I, snd q).

(** learn/discriminative.go:83-90. *)
Definition dhgdInstance (s : dstate) (I : varset) : res (dstate * varset) :=
  g <- hardCounts s I;
  let '(st, J, y) := g in
  net <- applyHDGD (peta P) (plambda P) 0 1 (pnorm P) 1 (tcnt (ds s)) st (tnet (ds s));
  Ok (mkD (mkT (resetTickets F st [0; 1]%Z) net (S (tcnt (ds s)))) y, J).

(** learn/discriminative.go:77-93. *)
Definition discriminativeHardGD (data : list varset) (net : network A) : res (network A * list varset) :=
  r <- dEpochs dhgdInstance data (mkD (start 2 net) (repeat 0%Z (length Y)));
  Ok (tnet (ds (fst r)), snd r).

(** applyDGDFrom(...); st.Reset(l), and applyHDGD(...); st.ResetTickets(d, p). *)
Definition flushD (ap : nat -> storer -> network A -> res (network A)) (tks : list Z) (s : dstate) : res dstate :=
  net <- ap (tcnt (ds s)) (tst (ds s)) (tnet (ds s));
  Ok (mkD (mkT (resetTickets F (tst (ds s)) tks) net (tcnt (ds s))) (dy s)).

(** learn/discriminative.go:121-125, 161-166: j counts the instances over all iterations. *)
Definition afterOne (flush : dstate -> res dstate) (r : dstate * varset) : res (dstate * varset) :=
  m <- remOf (tcnt (ds (fst r))) (pbatch P);
  s <- (if (m =? 0)%Z then flush (fst r) else Ok (fst r));
  Ok (s, snd r).
(** learn/discriminative.go:106-130, 149-173. *)
Definition dBatches (one : dstate -> varset -> res (dstate * varset)) (flush : dstate -> res dstate)
    (data : list varset) (s : dstate) : res (network A * list varset) :=
  r <- dEpochs (fun s I => r <- one s I; afterOne flush r) data s;
  m <- remOf (tcnt (ds (fst r))) (pbatch P);
  s <- (if (m =? 0)%Z then Ok (fst r) else flush (fst r));
  Ok (tnet (ds s), snd r).

(** learn/discriminative.go:110-120; l = 6. *)
Definition dbgdInstance (s : dstate) (I : varset) : res (dstate * varset) :=
  g <- gradients s I;
  let '(st, J, y) := g in
  st <- storeDGD fuel S0 0 2 3 5 6 (tnet (ds s)) st;
  Ok (mkD (mkT (resetTickets F st six) (tnet (ds s)) (S (tcnt (ds s)))) y, J).
(** learn/discriminative.go:99-132. *)
Definition discriminativeBGD (data : list varset) (net : network A) : res (network A * list varset) :=
  dBatches dbgdInstance (flushD (applyDGDFrom (peta P) (plambda P) 6 (pnorm P) (pbatch P)) [6%Z]) data
           (mkD (start 7 net) (repeat 0%Z (length Y))).

(** learn/discriminative.go:148-160; d = 0, p = 1, u = 2. *)
Definition dhbgdInstance (s : dstate) (I : varset) : res (dstate * varset) :=
  let t := ds s in
  r <- storeInference (tnet t) fuelT S0 I 2 (tst t);
  g <- hardCounts (mkD (mkT (fst (reset F (fst r) 2)) (tnet t) (tcnt t)) (dy s)) I;
  let '(st, J, y) := g in
  Ok (mkD (mkT st (tnet t) (S (tcnt t))) y, J).
(** learn/discriminative.go:138-175. *)
Definition discriminativeHardBGD (data : list varset) (net : network A) : res (network A * list varset) :=
  dBatches dhbgdInstance (flushD (applyHDGD (peta P) (plambda P) 0 1 (pnorm P) (pbatch P)) [0; 1]%Z) data
           (mkD (start 3 net) (repeat 0%Z (length Y))).

(** learn/discriminative.go:15-31. *)
Definition discriminative (data : list varset) (net : network A) : res (network A * list varset) :=
  if isHard (ptype P)
  then (if (1 <? pbatch P)%Z then discriminativeHardBGD data net else discriminativeHardGD data net)
  else (if (1 <? pbatch P)%Z then discriminativeBGD data net else discriminativeGD data net).
End Discriminative.
End Train.
Arguments params A : clear implicits.
Arguments tstate A : clear implicits.
Arguments dstate A : clear implicits.
