(** Density-based clustering: /repo/utils/cluster/dbscan.go, guessToData and copyMatrixF of
    /repo/utils/cluster/cluster.go, EuclideanF of /repo/utils/cluster/metrics/euclid.go. *)
From Verif Require Import Base Res Arith GoMap Tables UnionFind Cluster.
Local Open Scope Z_scope.

Section Dbscan.
Context {A : arith}.
Local Notation F := (F A).

(** metrics/euclid.go:16-23. *)
Definition euclideanF (p q : list F) : res F :=
  s <- foldi (fun i s u => v <- idx q i; let l := fsub u v in Ok (fadd s (fmul l l))) p (fz 0);
  Ok (fsqrt s).

(** dbscan.go:16-22. *)
Definition distances (data : list (list F)) : res (list (list F)) :=
  mapi (fun _ a => mapi (fun _ b => euclideanF a b) data) data.

(** dbscan.go:25-28. The fresh pointers are 0, 1, ... *)
Definition singletons (n : nat) : uf := fold_left (fun s i => fst (makeSet s (Z.of_nat i))) (seq 0 n) newHeap.

Section Run.
Variable eps : F.
Variable mp : Z.
Variable fuel : nat.
Variable n : nat.
Variable dm : list (list F).

(** dbscan.go:41-52: whether row [i] joins the neighbourhood of [p]; Find compresses paths. *)
Definition scan (p : nat) (st : uf * list nat) (i : nat) : res (uf * list nat) :=
  let (s, nbh) := st in
  if Nat.eqb i p then Ok st else
  row <- idx dm p; d <- idx row i;
  if fge eps d then
    a <- find fuel s i; b <- find fuel (fst a) p;
    Ok (fst b, if Nat.eqb (snd a) (snd b) then nbh else nbh ++ [i])
  else Ok st.

(** dbscan.go:56-61. *)
Definition join (p : nat) (st : uf * (nat -> bool) * list nat) (q : nat) : res (uf * (nat -> bool) * list nat) :=
  let '(s, vst, queue) := st in
  u <- union fuel s p q;
  Ok (fst u, upd (upd vst p true) q true, queue ++ [q]).

(** dbscan.go:65-72: enqueue the rows from vindex on that were not visited. *)
Definition refill (vst : nat -> bool) (vindex : nat) : list nat * nat :=
  fold_left (fun (st : list nat * nat) i => if vst i then st else (fst st ++ [i], S i))
            (seq vindex (n - vindex)) ([], vindex).

(** dbscan.go:34-73. The collections are modelled by lists; Collections.v shows they are queues. *)
Fixpoint sweep (fu : nat) (s : uf) (vst : nat -> bool) (vindex : nat) (queue : list nat) : res uf :=
  match queue with
  | [] => Ok s
  | p :: queue =>
    match fu with
    | O => Fuel
    | S fu =>
      r <- foldr_ (scan p) (seq 0 n) (s, []);
      st <- (if mp <=? Z.of_nat (length (snd r)) then foldr_ (join p) (snd r) (fst r, vst, queue)
             else Ok (fst r, vst, queue));
      let '(s, vst, queue) := st in
      match queue with
      | [] => let (q, v) := refill vst vindex in sweep fu s vst v q
      | _ => sweep fu s vst vindex queue
      end
    end
  end.
End Run.

(** dbscan.go:10-76. *)
Definition dbscanInternal (fuel : nat) (data : list (list F)) (eps : F) (mp : Z) : res uf :=
  let n := length data in
  dm <- distances data;
  sweep eps mp fuel n dm fuel (singletons n) (fun _ => false) 0 [0%nat].

(** cluster.go:3-13. *)
Definition copyMatrixF (D : list (list Z)) : list (list F) := map (map fz) D.

(** make([]int, m) filled by copy. *)
Definition copyTo (m : nat) (row : list Z) : list Z := firstn m row ++ repeat 0 (m - length row).

(** dbscan.go:82-104. *)
Definition dbscan (fuel : nat) (data : list (list Z)) (eps : F) (mp : Z) : res (list rowmap) :=
  s <- dbscanInternal fuel (copyMatrixF data) eps mp;
  d0 <- idx data 0;
  foldr_ (fun C i =>
    if Nat.eqb (pa s i) i then
      chs <- ufVarids fuel s i;
      cl <- foldr_ (fun m l => row <- idxZ data l; Ok (rput m (Z.to_nat l) (copyTo (length d0) row))) chs [];
      Ok (C ++ [cl])
    else Ok C) (seq 0 (length data)) [].

(** Conversion of a float64 to int. *)
Variable toInt : F -> Z.

(** cluster.go:57-67. *)
Definition guessToData (k : nat) (G : list Z) (M : list (list F)) (Sc : gmap) : res (list (list gmap)) :=
  foldi (fun i C g =>
    row <- idx M i;
    let I := fold_left (fun m (je : nat * F) => put m (get0 Sc (Z.of_nat (fst je))) (toInt (snd je)))
                       (combine (seq 0 (length row)) row) [] in
    cl <- idxZ C g;
    Ok (set_nth (Z.to_nat g) (cl ++ [I]) C)) G (repeat [] k).

(** dbscan.go:112-119: the cluster of every row, and the number of clusters. *)
Definition labels (fuel : nat) (s : uf) (n : nat) : res (list Z * nat) :=
  foldr_ (fun (st : list Z * nat) i =>
    if Nat.eqb (pa s i) i then
      ch <- ufVarids fuel s i;
      G <- foldr_ (fun G c => _ <- idxZ G c; Ok (set_nth (Z.to_nat c) (Z.of_nat i) G)) ch (fst st);
      Ok (G, S (snd st))
    else Ok st) (seq 0 n) (repeat 0 n, O).

(** dbscan.go:106-121. DataToMatrixF (learn/variable.go:117-147) is DataToMatrix with every entry
    converted to float64. *)
Definition dbscanData (ord : nat -> gmap -> gmap) (fuel : nat) (data : list gmap) (eps : F) (mp : Z) : res (list (list gmap)) :=
  MS <- dataToMatrix ord (Some data);
  let M := copyMatrixF (fst MS) in
  s <- dbscanInternal fuel M eps mp;
  Gk <- labels fuel s (length M);
  guessToData (snd Gk) (fst Gk) M (snd MS).
End Dbscan.
