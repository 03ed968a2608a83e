(** The structure learner of Gens and Domingos: /repo/learn/gens/gens.go, with DataToVarData and
    ExtractInstance of /repo/learn/variable.go and KMeansDataI of /repo/utils/cluster/kmeans.go.

    Every node gens allocates gets exactly one parent and is not changed after it was handed to
    it, so the pointers form a tree; [place] lays a tree out as allocated nodes.

    Everything the runtime or a foreign package decides is an oracle that is told where in the
    recursion it is asked: the path of child numbers from the first call. Every position of the
    recursion is visited once, so this does not restrict the answers. *)
From Verif Require Import Base Res Arith GraphSpec Spn Build GoMap Tables Leaves Stats Indep Dbscan.
Local Open Scope Z_scope.

(** learn/variable.go:15-22: Varid and Categories of a learn.Variable; Name is not used. *)
Record lvar := mkVar { v_id : Z; v_cat : Z }.
(** map[int]*learn.Variable. *)
Definition scope := list (Z * lvar).
Definition lookup (Sc : scope) (k : Z) : option lvar := option_map snd (List.find (fun e => fst e =? k) Sc).

(** learn/variable.go:40-46. *)
Definition extractInstance (v : Z) (D : list gmap) : list Z := map (fun I => get0 I v) D.

(** learn/variable.go:177-190; [vs] are the variables in the order of the range loop. *)
Definition dataToVarData (D : list gmap) (vs : scope) : list vardata :=
  map (fun e => mkVD (v_id (snd e)) (v_cat (snd e)) (extractInstance (v_id (snd e)) D)) vs.

(** gens.go:72-76 and 95-98: how often a variable has each of its values. *)
Definition countValues (v : lvar) (D : list gmap) : res (list Z) :=
  c0 <- makeInts (v_cat v);
  foldr_ (fun c I => n <- idxZ c (get0 I (v_id v)); Ok (set_nth (Z.to_nat (get0 I (v_id v))) (n + 1) c)) D c0.

(** gens.go:122-130: the instances restricted to the variables [ks]. *)
Definition restrictTo (ks : list Z) (I : gmap) : gmap := fold_left (fun t k => put t k (get0 I k)) ks [].

(** gens.go:131-135: the variables [ks]; Sc[t] of an absent t is nil. *)
Definition subScope (Sc : scope) (ks : list Z) : res scope :=
  mapi (fun _ t => v <- orPanic (lookup Sc t); Ok (t, mkVar t (v_cat v))) ks.

Section Gens.
Context {A : arith}.
Local Notation F := (F A).

(** The nodes below a pointer. *)
Inductive tree : Type :=
| TLeaf (l : leaf A)
| TSum (cs : list (F * tree))
| TProd (cs : list tree).

(** The nodes of a tree, children before parents; the root is the last. *)
Fixpoint place (t : tree) (H : nodes A) {struct t} : nodes A * nat :=
  match t with
  | TLeaf l => newNode (mkNode (KLeaf l) []) H
  | TSum cs =>
      let (H', zs) := (fix go (cs : list (F * tree)) (H : nodes A) : nodes A * list nat :=
        match cs with
        | [] => (H, [])
        | (_, c) :: cs => let (H1, z) := place c H in let (H2, zs) := go cs H1 in (H2, z :: zs)
        end) cs H in
      newNode (mkNode (KSum (map fst cs)) zs) H'
  | TProd cs =>
      let (H', zs) := (fix go (cs : list tree) (H : nodes A) : nodes A * list nat :=
        match cs with
        | [] => (H, [])
        | c :: cs => let (H1, z) := place c H in let (H2, zs) := go cs H1 in (H2, z :: zs)
        end) cs H in
      newNode (mkNode KProd zs) H'
  end.

Variable ordS : list nat -> nat -> scope -> scope.  (* ranging over a scope: path, occasion *)
Variable ordD : list nat -> nat -> gmap -> gmap.    (* ranging over row i in DataToMatrix: path, i *)
Variable km : list nat -> list (list F) -> res (list Z). (* PartitionPoints; Panic on an error *)
Variable rnd : list nat -> nat -> nat -> nat.       (* RandIntn(n): path, occasion, n *)
Variable chi2 : F -> Z -> F.
Variable toInt : F -> Z.
Variable logProb : F -> F -> F -> F.
Variables trunc round : F -> Z.
Variable ufuel : nat.                               (* for the loops of union-find and DBSCAN *)

Variables (k mp : Z) (pval eps : F).

(** gens.go:72-78. *)
Definition newMultinom (r : nat -> nat) (v : lvar) (D : list gmap) : res tree :=
  c <- countValues v D; m <- newCountingMultinomial r (v_id v) c; Ok (TLeaf (multiLeaf m)).

(** gens.go:80-88 and 104-109. *)
Definition newGaussMix (v g : Z) (D : list gmap) : res tree :=
  Q <- partitionQuantiles (extractInstance v D) g;
  Ok (TSum (map (fun q => (fdiv (fz 1) (fz (Z.of_nat (length Q))),
                           TLeaf (gaussLeaf logProb trunc round v (fst (fst q)) (snd (fst q))))) Q)).

(** gens.go:90-114. *)
Definition newFullyFactorized (p : list nat) (g : Z) (D : list gmap) (Sc : scope) : res tree :=
  cs <- mapi (fun i e => if g <=? 0 then newMultinom (rnd p i) (snd e) D else newGaussMix (v_id (snd e)) g D) (ordS p 1 Sc);
  Ok (TProd cs).

(** utils/cluster/kmeans.go:115-119. DataToMatrixF (learn/variable.go:117-147) differs from
    DataToMatrix in the conversion of the entries only. *)
Definition kMeansDataI (p : list nat) (D : list gmap) : res (list (list gmap)) :=
  MS <- dataToMatrix (ordD p) (Some D);
  let M := copyMatrixF (fst MS) in
  G <- km p M;
  guessToData toInt (Z.to_nat k) G M (snd MS).

(** gens.go:162-170. *)
Definition clustersOf (p : list nat) (D : list gmap) : res (list (list gmap)) :=
  if 0 <? k then kMeansDataI p D else dbscanData toInt (ordD p) ufuel D eps mp.

(** The children in the order in which their tasks enter the critical section (gens.go:142-144,
    183-185); [None] if they run one after the other (np = 1). *)
Definition arrange {T} (sched : option (list nat)) (cs : list T) : res (list T) :=
  match sched with None => Ok cs | Some l => mapi (fun _ i => idx cs i) l end.

Section Steps.
(** Learn or LearnGauss, by the argument g: gens.go:136-141, 177-182. *)
Variable learn : list nat -> scope -> list gmap -> res tree.

(** gens.go:116-157. *)
Definition indepStep (sched : option (list nat)) (p : list nat) (D : list gmap) (Sc : scope) (K : list (list Z)) : res tree :=
  cs <- mapi (fun i ks => nsc <- subScope Sc ks; learn (i :: p) nsc (map (restrictTo ks) D)) K;
  cs <- arrange sched cs;
  Ok (TProd cs).

(** gens.go:159-198. ReflectScope (learn/variable.go:161-167) copies the map. *)
Definition clusterStep (sched : option (list nat)) (p : list nat) (g : Z) (D : list gmap) (Sc : scope) : res tree :=
  if (0 <? k) && (Z.of_nat (length D) <? k) then newFullyFactorized p g D Sc else
  C <- clustersOf p D;
  if Nat.eqb (length C) 1 then newFullyFactorized p g D Sc else
  cs <- mapi (fun i cl => t <- learn (i :: p) Sc cl;
                          Ok (fdiv (fz (Z.of_nat (length cl))) (fz (Z.of_nat (length D))), t)) C;
  cs <- arrange sched cs;
  Ok (TSum cs).

(** gens.go:45-70, 21-38 (with [sched]), 201-238 (with [gauss]). *)
Definition learnOnce (sched : option (list nat)) (gauss : bool) (g : Z) (p : list nat) (Sc : scope) (D : list gmap) : res tree :=
  match Sc with
  | [(_, v)] => if gauss then newGaussMix (v_id v) g D else newMultinom (rnd p 0%nat) v D
  | _ =>
      G <- newUFIndepGraph chi2 (dataToVarData D (ordS p 0%nat Sc)) pval ufuel;
      if (1 <? length (snd G))%nat then indepStep sched p D Sc (snd G) else clusterStep sched p g D Sc
  end.
End Steps.

(** The recursive calls. *)
Fixpoint learnAt (fuel : nat) (gauss : bool) (g : Z) (p : list nat) (Sc : scope) (D : list gmap) : res tree :=
  match fuel with
  | O => Fuel
  | S f => learnOnce (learnAt f (0 <? g) g) None gauss g p Sc D
  end.

(** gens.go:45-70 and 221-238. *)
Definition learn (fuel : nat) (Sc : scope) (D : list gmap) : res tree := learnAt fuel false 0 [] Sc D.
Definition learnGauss (fuel : nat) (g : Z) (Sc : scope) (D : list gmap) : res tree := learnAt fuel true g [] Sc D.

(** gens.go:21-38 and 201-218, with np <> 1. *)
Definition learnConcurrent (fuel : nat) (sched : list nat) (Sc : scope) (D : list gmap) : res tree :=
  learnOnce (learnAt fuel false 0) (Some sched) false 0 [] Sc D.
Definition learnGaussConcurrent (fuel : nat) (g : Z) (sched : list nat) (Sc : scope) (D : list gmap) : res tree :=
  learnOnce (learnAt fuel (0 <? g) g) (Some sched) true g [] Sc D.
End Gens.
Arguments tree A : clear implicits.
