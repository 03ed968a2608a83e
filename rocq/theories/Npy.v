(** The .npy reader of io/npy.go. Reading balanced batches one row at a time is also in Misc.v. *)
From Coq Require Import String Ascii.
From Verif Require Import Base Res GoMap Misc.
Local Open Scope string_scope.

(** io/npy.go:10-19. *)
Definition validTypes : list string :=
  ["u1"; "<u1"; "|u1"; "uint8";
   "u2"; "<u2"; "|u2"; ">u2"; "uint16";
   "u4"; "<u4"; "|u4"; ">u4"; "uint32";
   "u8"; "<u8"; "|u8"; ">u8"; "uint64";
   "i1"; "<i1"; "|i1"; ">i1"; "int8";
   "i2"; "<i2"; "|i2"; ">i2"; "int16";
   "i4"; "<i4"; "|i4"; ">i4"; "int32";
   "i8"; "<i8"; "|i8"; ">i8"; "int64"].

(** io/npy.go:25-30. *)
Definition integerType (t : nat) : nat := if Nat.ltb t 4 then 0 else (t + 1) / 5.

(** The loop of io/npy.go:33-37 from index i on. *)
Fixpoint isValid_from (i : nat) (vs : list string) (t : string) : option nat :=
  match vs with
  | [] => None
  | v :: vs' => if String.eqb t v then Some (integerType i) else isValid_from (S i) vs' t
  end.
(** io/npy.go:32-39. -1 is [None]. *)
Definition isValid (t : string) : option nat := isValid_from 0 validTypes t.

(** The element type of the slice made in each case of the switches at io/npy.go:93-214 and
    226-371: (signed, bits). A number without a case is [None]. *)
Definition caseType (t : nat) : option (bool * nat) :=
  match t with
  | 0 => Some (false, 8) | 1 => Some (false, 16) | 2 => Some (false, 32) | 3 => Some (false, 64)
  | 4 => Some (true, 8) | 5 => Some (true, 16) | 6 => Some (true, 32) | 7 => Some (true, 64)
  | _ => None
  end.

(** io/npy.go:21-22, and any error of os.Open or npyio.NewReader. *)
Inductive npyErr := ErrLibrary | ErrNonIntegerType | ErrNonDatasetShape.

(** io/npy.go:50-68. [hdr] is what os.Open and npyio.NewReader give: None for an error, otherwise the
    shape and type name of the header. The result keeps t and s of io/npy.go:42-47. *)
Definition newNpyReader (hdr : option (list nat * string)) : npyErr + (nat * (nat * nat)) :=
  match hdr with
  | None => inl ErrLibrary
  | Some (s, ty) =>
      match s with
      | [s0; s1] =>
          match isValid ty with None => inl ErrNonIntegerType | Some t => inr (t, (s0, s1)) end
      | _ => inl ErrNonDatasetShape
      end
  end.

(** One step of the loops over m at io/npy.go:233-244 (and the seven copies below it). Values are the
    ones after the conversion to int. i / y panics for y = 0. *)
Definition placeStep (y i : nat) (ul : list (option gmap) * list Z) (v : Z)
  : res (list (option gmap) * list Z) :=
  let (u, l) := ul in
  if Nat.eqb y 0 then Panic else
  let p := i / y in
  up <- idx u p;
  let m := match up with None => [] | Some m => m end in
  let u := set_nth p (Some m) u in
  let j := i mod y in
  if Nat.eqb j (y - 1)
  then (_ <- idx l p; Ok (u, set_nth p v l))
  else Ok (set_nth p (Some (put m (Z.of_nat j) v)) u, l).

(** io/npy.go:223-224 and 233-244, once m has been read. *)
Definition place (y n : nat) (m : list Z) : res (list (option gmap) * list Z) :=
  foldi (placeStep y) m (repeat None n, repeat 0%Z n).

(** A result: what Read returns, the error return, or the error of Reset (true if none). *)
Inductive npyRes := RData (u : list (option gmap)) (l : list Z) | RErr | RReset (ok : bool).

(** io/npy.go:376-397: the methods. *)
Inductive npyOp := ORead (n : nat) | OReadAll | OBalanced (n c : nat) | OReset.

Section Reader.
(** The state of npyio's reader, its Read into a slice of the given length (None is an error; the
    slice may come back with another length, Read having its address), and the state of
    npyio.NewReader after Seek(0, 0), with whether it failed. External code: io/npy.go:96, 229, 394. *)
Variable St : Type.
Variable rd : St -> nat -> St * option (list Z).
Variable reopen : St -> St * bool.
(** r.s *)
Variables rows cols : nat.

(** io/npy.go:221-373; sizes are not negative. *)
Definition npyRead (s : St) (n : nat) : res (St * npyRes) :=
  let (s', r) := rd s (n * cols) in
  match r with
  | None => Ok (s', RErr)
  | Some m => ul <- place cols n m; Ok (s', RData (fst ul) (snd ul))
  end.

(** D[i][j] = int(m[j]) for j < y-1, io/npy.go:101-103; m[y-1] was in range. *)
Definition rowFields (row : list Z) : gmap :=
  combine (map Z.of_nat (seq 0 (cols - 1))) (firstn (cols - 1) row).

(** The loop of io/npy.go:92-215, [k] = n - i, one row of y values at a time. *)
Fixpoint balLoop (fuel : nat) (s : St) (k : nat) (C : list nat) : res (St * option (list (gmap * Z))) :=
  match k with
  | O => Ok (s, Some [])
  | S k' =>
      match fuel with
      | O => Fuel
      | S fuel' =>
          let (s', r) := rd s cols in
          match r with
          | None => Ok (s', None)
          | Some row =>
              l <- (if Nat.eqb cols 0 then Panic else idx row (cols - 1));
              cl <- idxZ C l;
              match cl with
              | O => balLoop fuel' s' (S k') C
              | S cl' =>
                  r <- balLoop fuel' s' k' (set_nth (Z.to_nat l) cl' C);
                  Ok (fst r, match snd r with Some D => Some ((rowFields row, l) :: D) | None => None end)
              end
          end
      end
  end.

(** io/npy.go:87-218. *)
Definition npyBalanced (fuel : nat) (s : St) (n c : nat) : res (St * npyRes) :=
  C <- newCounts n c;
  r <- balLoop fuel s n C;
  Ok (fst r, match snd r with
             | None => RErr
             | Some D => RData (map (fun e => Some (fst e)) D) (map snd D)
             end).

(** io/npy.go:376-397. *)
Definition npyStep (fuel : nat) (s : St) (o : npyOp) : res (St * npyRes) :=
  match o with
  | ORead n => npyRead s n
  | OReadAll => npyRead s rows
  | OBalanced n c => npyBalanced fuel s n c
  | OReset => let (s', ok) := reopen s in Ok (s', RReset ok)
  end.

(** A client calling the methods one after the other. *)
Fixpoint npyRun (fuel : nat) (s : St) (os : list npyOp) : res (St * list npyRes) :=
  match os with
  | [] => Ok (s, [])
  | o :: os' =>
      r <- npyStep fuel s o;
      q <- npyRun fuel (fst r) os';
      Ok (fst q, snd r :: snd q)
  end.
End Reader.
