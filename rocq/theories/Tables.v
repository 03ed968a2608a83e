(** Matrix conversions of /repo/learn/variable.go and ParsePartitionedData of /repo/io/input.go. *)
From Coq Require Import SpecFloat.
From Verif Require Import Base Res GoMap.
Local Open Scope Z_scope.

Definition matrix := list (list Z).

Section Matrix.
(** The order in which range yields the entries of row [i]. *)
Variable ord : nat -> gmap -> gmap.

(** M[i][k] = v on a row made by make([]int, m): out of range panics. *)
Definition setCell (row : list Z) (k v : Z) : res (list Z) :=
  _ <- idxZ row k; Ok (set_nth (Z.to_nat k) v row).

(** learn/variable.go:51-65. nil is None. *)
Definition completeDataToMatrix (D : option (list gmap)) : res matrix :=
  match D with
  | None => Ok []
  | Some D =>
      d0 <- idx D 0;
      mapi (fun i Ir => foldr_ (fun row e => setCell row (fst e) (snd e)) (ord i Ir) (repeat 0 (length d0))) D
  end.

(** learn/variable.go:83-92: one entry of a row. [u] is the next identifier, [Z_] maps varid to
    newid, [S_] newid to varid. *)
Record numbering := mkNum { nnext : Z; nnew : gmap; nold : gmap }.
Definition matrixEntry (st : numbering * list Z) (e : Z * Z) : res (numbering * list Z) :=
  let (nb, row) := st in
  match get (nnew nb) (fst e) with
  | None =>
      row' <- setCell row (nnext nb) (snd e);
      Ok (mkNum (nnext nb + 1) (put (nnew nb) (fst e) (nnext nb)) (put (nold nb) (nnext nb) (fst e)), row')
  | Some t => row' <- setCell row t (snd e); Ok (nb, row')
  end.

(** learn/variable.go:81-93, row by row. *)
Fixpoint matrixRows (m : nat) (i : nat) (D : list gmap) (nb : numbering) : res (numbering * matrix) :=
  match D with
  | [] => Ok (nb, [])
  | Ir :: D' =>
      r <- foldr_ matrixEntry (ord i Ir) (nb, repeat 0 m);
      rs <- matrixRows m (S i) D' (fst r);
      Ok (fst rs, snd r :: snd rs)
  end.

(** learn/variable.go:68-95. *)
Definition dataToMatrix (D : option (list gmap)) : res (matrix * gmap) :=
  match D with
  | None => Ok ([], [])
  | Some D =>
      d0 <- idx D 0;
      r <- matrixRows (length d0) 0 D (mkNum 0 [] []);
      Ok (snd r, nold (fst r))
  end.
End Matrix.

(** learn/variable.go:150-159. *)
Definition matrixToData (M : matrix) : list gmap :=
  map (fun L => fold_left (fun m je => put m (Z.of_nat (fst je)) (snd je)) (combine (seq 0 (length L)) L) []) M.

Section Partition.
(** [rnd c n] is the c-th answer of rint, called with n. *)
Variable rnd : nat -> nat -> nat.

(** io/input.go:310-313: draw until an instance is found that is not nil. *)
Fixpoint pick (fuel c : nat) (fdata : list (option gmap)) : res (nat * gmap * nat) :=
  match fuel with
  | O => Fuel
  | S f =>
      if Nat.eqb (length fdata) 0 then Panic else
      let l := rnd c (length fdata) in
      x <- idx fdata l;
      match x with Some row => Ok (l, row, S c) | None => pick f (S c) fdata end
  end.

(** io/input.go:309-317: marking m instances. *)
Fixpoint mark (fuel m c : nat) (fdata : list (option gmap)) : res (list (option gmap) * list (nat * gmap)) :=
  match m with
  | O => Ok (fdata, [])
  | S m' =>
      p <- pick fuel c fdata;
      r <- mark fuel m' (snd p) (set_nth (fst (fst p)) None fdata);
      Ok (fst r, fst p :: snd r)
  end.

(** sort.Ints. *)
Fixpoint insertInt (x : nat) (l : list nat) : list nat :=
  match l with [] => [x] | y :: t => if Nat.leb x y then x :: l else y :: insertInt x t end.
Definition sortInts (l : list nat) : list nat := fold_right insertInt [] l.

(** io/input.go:321-324: j := dels[i] - i; fdata = append(fdata[:j], fdata[j+1:]...). *)
Definition discard (dels : list nat) (fdata : list (option gmap)) : res (list (option gmap)) :=
  foldi (fun i fd d => if Nat.ltb d i then Panic else if Nat.ltb (d - i) (length fd) then Ok (firstn (d - i) fd ++ skipn (d - i + 1) fd) else Panic)
        dels fdata.

(** io/input.go:289-335 after ParseData and the computation of m; [nv] = len(vartable). *)
Definition partition (fuel : nat) (rows : list gmap) (m nv : nat) : res (list (option gmap) * list gmap * list Z) :=
  r <- mark fuel m 0 (map Some rows);
  train <- discard (sortInts (map fst (snd r))) (fst r);
  let k := Z.of_nat nv - 1 in
  Ok (train, map (fun t => del (snd t) k) (snd r), map (fun t => get0 (snd t) k) (snd r)).
End Partition.

(** io/input.go:304: m := int((1 - p) * float64(n)) in binary64. *)
Definition f64 (z : Z) : spec_float := binary_normalize 53 1024 z 0 false.
(** int(x) for finite x. *)
Definition truncF (x : spec_float) : Z :=
  match x with
  | S754_finite s m e => let a := if 0 <=? e then Z.pos m * 2 ^ e else Z.pos m / 2 ^ (- e) in if s then - a else a
  | _ => 0
  end.
Definition testSize (p : spec_float) (n : nat) : Z :=
  truncF (SFmul 53 1024 (SFsub 53 1024 (f64 1) p) (f64 (Z.of_nat n))).
