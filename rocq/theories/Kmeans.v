(** k-means of /repo/utils/cluster/kmeans.go: OldKMeansF, and the wrappers of the external package
    kmeans (KMeansMuesli, KMeansMuesliF, KMeans, KMeansF, KMeansData, KMeansFData). *)
From Verif Require Import Base Res Arith GoMap Tables Cluster Dbscan.
Local Open Scope Z_scope.

Section Kmeans.
Context {A : arith}.
Local Notation F := (F A).

(** map[int][]float64. *)
Definition frows := list (Z * list F).
Definition fput (m : frows) (i : Z) (v : list F) : frows := filter (fun e => negb (fst e =? i)) m ++ [(i, v)].

(** copy(dst, src). *)
Definition copyF {T} (dst src : list T) : list T := firstn (length dst) src ++ skipn (length src) dst.

Section Old.
Variable inf : F. (* math.Inf(1) *)
Variable metric : list F -> list F -> res F. (* the argument F *)
Variable rnd : nat -> nat -> nat. (* the c-th answer of sys.RandIntn *)

(** kmeans.go:246-254: cluster [i]; the state is the count of draws, the rows drawn, C and M. *)
Definition forgyF (fuelR : nat) (D : list (list F)) (st : nat * list nat * list Z * list (list F)) (i : nat)
    : res (nat * list nat * list Z * list (list F)) :=
  let '(c, R, C, M) := st in
  d <- draw rnd fuelR c R (length D);
  let r := fst d in
  row <- idx D r; _ <- idx C r; Mi <- idx M i;
  Ok (snd d, r :: R, set_nth r (Z.of_nat i) C, set_nth i (copyF Mi row) M).

(** kmeans.go:263-272: the cluster of a row, now in cluster [c] (-1: none). *)
Definition nearestF (M : list (list F)) (d : list F) (c : Z) : res Z :=
  mn <- (if c =? -1 then Ok inf else m <- idxZ M c; metric d m);
  st <- foldi (fun j (st : Z * F) m => u <- metric d m; Ok (if fgt (snd st) u then (Z.of_nat j, u) else st)) M (c, mn);
  Ok (fst st).

(** kmeans.go:262-277: C afterwards, and whether it changed. *)
Definition assign (M : list (list F)) (D : list (list F)) (C : list Z) : res (list Z * bool) :=
  foldi (fun i (st : list Z * bool) d =>
    c <- idx (fst st) i; k <- nearestF M d c;
    Ok (if c =? k then st else (set_nth i k (fst st), true))) D (C, false).

(** kmeans.go:288-290: M[p][j] += D[i][j] for every j. *)
Definition addRow (n : nat) (Mp row : list F) : res (list F) :=
  foldr_ (fun Mp j => x <- idx Mp j; y <- idx row j; Ok (set_nth j (fadd x y) Mp)) (seq 0 n) Mp.

(** kmeans.go:279-298: the new means, and S. *)
Definition means2 (n k : nat) (D : list (list F)) (C : list Z) : res (list (list F)) :=
  st <- foldi (fun i (st : list (list F) * list Z) row =>
          p <- idx C i; s <- idxZ (snd st) p; Mp <- idxZ (fst st) p; Mp <- addRow n Mp row;
          Ok (set_nth (Z.to_nat p) Mp (fst st), set_nth (Z.to_nat p) (s + 1) (snd st)))
        D (repeat (repeat (fz 0) n) k, repeat 0 k);
  mapi (fun i Mi => s <- idx (snd st) i; Ok (if 0 <? s then map (fun x => fdiv x (fz s)) Mi else Mi)) (fst st).

(** kmeans.go:259-299. *)
Fixpoint lloyd (fuel n k : nat) (D : list (list F)) (C : list Z) (M : list (list F)) : res (list Z) :=
  match fuel with
  | O => Fuel
  | S f =>
    a <- assign M D C;
    M' <- means2 n k D (fst a);
    if snd a then lloyd f n k D (fst a) M' else Ok (fst a)
  end.

(** kmeans.go:227-313. *)
Definition oldKMeansF (fuelR fuel k : nat) (D : list (list F)) : res (list frows) :=
  if (length D <? k)%nat then Panic else
  d0 <- idx D 0;
  let n := length d0 in
  st <- foldr_ (forgyF fuelR D) (seq 0 k) (0%nat, [], repeat (-1) (length D), repeat (repeat (fz 0) n) k);
  let '(_, _, C, M) := st in
  C <- lloyd fuel n k D C M;
  foldi (fun i O row => c <- idx C i; m <- idxZ O c;
           Ok (set_nth (Z.to_nat c) (fput m (Z.of_nat i) (copyF (repeat (fz 0) n) row)) O)) D (repeat [] k).
End Old.

(** PartitionPoints(O, k) of the external package: the cluster of every point; Panic on an error. *)
Variable km : list (list F) -> Z -> res (list Z).

(** kmeans.go:52-78, 80-109: row [i] is stored under the key sc[i]. *)
Definition keyOf (sc : option gmap) (i : nat) : Z := match sc with None => Z.of_nat i | Some s => get0 s (Z.of_nat i) end.
Definition kMeansMuesliF (k : nat) (D : list (list F)) (sc : option gmap) : res (list frows) :=
  C <- km D (Z.of_nat k);
  foldi (fun i G c => J <- idx D i; m <- idxZ G c; Ok (set_nth (Z.to_nat c) (fput m (keyOf sc i) J) G)) C (repeat [] k).

Variable toInt : F -> Z. (* int(v) *)
Definition zput (m : list (Z * list Z)) (i : Z) (v : list Z) : list (Z * list Z) := filter (fun e => negb (fst e =? i)) m ++ [(i, v)].
(** kmeans.go:80-109. *)
Definition kMeansMuesli (k : nat) (M : list (list Z)) (sc : option gmap) : res (list (list (Z * list Z))) :=
  let D := copyMatrixF M in
  C <- km D (Z.of_nat k);
  foldi (fun i G c => J <- idx D i; m <- idxZ G c; Ok (set_nth (Z.to_nat c) (zput m (keyOf sc i) (map toInt J)) G)) C (repeat [] k).

(** kmeans.go:121-123. *)
Definition kMeans (k : nat) (data : list (list Z)) : res (list (list (Z * list Z))) := kMeansMuesli k data None.
(** kmeans.go:218-220: the third argument is not used. *)
Definition kMeansF (k : nat) (D : list (list F)) (sc : option gmap) : res (list frows) := kMeansMuesliF k D None.
(** kmeans.go:125-128. *)
Definition kMeansData (ord : nat -> gmap -> gmap) (k : nat) (data : list gmap) : res (list (list (Z * list Z))) :=
  MS <- dataToMatrix ord (Some data); kMeansMuesli k (fst MS) (Some (snd MS)).
(** kmeans.go:222-225. DataToMatrixF is DataToMatrix with every entry converted to float64. *)
Definition kMeansFData (ord : nat -> gmap -> gmap) (k : nat) (data : list gmap) : res (list frows) :=
  MS <- dataToMatrix ord (Some data); kMeansMuesliF k (copyMatrixF (fst MS)) (Some (snd MS)).
End Kmeans.
