(** The encoding of variables, /repo/learn/variable.go. Text is a list of code points (valid UTF-8). *)
From Verif Require Import Base Res Codec.
Local Open Scope Z_scope.

(** learn/variable.go:15-22. *)
Record variable := mkVar { varid : Z; categories : Z; vname : list Z }.

(** fmt, an int: an optional minus sign and the decimal digits. *)
Fixpoint uintRunes (u : Decimal.uint) : list Z :=
  match u with
  | Decimal.Nil => []
  | Decimal.D0 u => 48 :: uintRunes u | Decimal.D1 u => 49 :: uintRunes u
  | Decimal.D2 u => 50 :: uintRunes u | Decimal.D3 u => 51 :: uintRunes u
  | Decimal.D4 u => 52 :: uintRunes u | Decimal.D5 u => 53 :: uintRunes u
  | Decimal.D6 u => 54 :: uintRunes u | Decimal.D7 u => 55 :: uintRunes u
  | Decimal.D8 u => 56 :: uintRunes u | Decimal.D9 u => 57 :: uintRunes u
  end.
Definition intRunes (z : Z) : list Z :=
  match Z.to_int z with Decimal.Pos u => uintRunes u | Decimal.Neg u => 45 :: uintRunes u end.

(** learn/variable.go:24-28: Fprintln puts a blank between two operands and a newline at the end. *)
Definition gobEncodeVar (v : variable) : list Z :=
  intRunes (varid v) ++ 32 :: intRunes (categories v) ++ 32 :: vname v ++ [10].

(** fmt/scan.go, isSpace. *)
Definition isSpace (r : Z) : bool :=
  ((9 <=? r) && (r <=? 13)) || (r =? 32) || (r =? 133) || (r =? 160) || (r =? 5760) || ((8192 <=? r) && (r <=? 8202))
  || (r =? 8232) || (r =? 8233) || (r =? 8239) || (r =? 8287) || (r =? 12288).

(** fmt/scan.go, SkipSpace for Fscanln: a newline is an error (None), a carriage return before one is skipped. *)
Fixpoint skipSp (t : list Z) : option (list Z) :=
  match t with
  | [] => Some []
  | r :: l => if r =? 10 then None else if isSpace r then skipSp l else Some t
  end.

Definition isDigit (r : Z) : bool := (48 <=? r) && (r <=? 57).
Fixpoint takeWhile (p : Z -> bool) (t : list Z) : list Z * list Z :=
  match t with
  | [] => ([], [])
  | r :: l => if p r then let (a, b) := takeWhile p l in (r :: a, b) else ([], t)
  end.

(** fmt/scan.go, scanInt for an int: None is an error. Prefixes of other bases and underscores, which
    GobEncode does not write, are left out. *)
Definition scanIntR (t : list Z) : option (Z * list Z) :=
  match skipSp t with
  | None => None
  | Some t1 =>
      let (neg, t2) := match t1 with 45 :: r => (true, r) | 43 :: r => (false, r) | _ => (false, t1) end in
      let (ds, t3) := takeWhile isDigit t2 in
      match ds with
      | [] => None
      | _ => let n := ofDigits (map (fun r => r - 48) ds) in
             let z := if neg then - n else n in
             if isInt z then Some (z, t3) else None
      end
  end.

(** fmt/scan.go, convertString: a word; the end of the text is an error. *)
Definition scanWord (t : list Z) : option (list Z * list Z) :=
  match skipSp t with
  | None | Some [] => None
  | Some t1 => Some (takeWhile (fun r => negb (isSpace r)) t1)
  end.

(** fmt/scan.go, the end of doScan for Fscanln: only blanks until the newline or the end. *)
Fixpoint lineEnd (t : list Z) : bool :=
  match t with
  | [] => true
  | r :: l => if r =? 10 then true else if isSpace r then lineEnd l else false
  end.

(** learn/variable.go:30-34, into the variable [v]: what it is afterwards, and whether the error is nil. *)
Definition gobDecodeVar (v : variable) (data : list Z) : variable * bool :=
  match scanIntR data with
  | None => (v, false)
  | Some (i, t1) =>
      let v := mkVar i (categories v) (vname v) in
      match scanIntR t1 with
      | None => (v, false)
      | Some (c, t2) =>
          let v := mkVar (varid v) c (vname v) in
          match scanWord t2 with
          | None => (v, false)
          | Some (n, t3) => (mkVar (varid v) (categories v) n, lineEnd t3)
          end
      end
  end.

(** io/input.go:62, 134, 231: the variables read from a data file. *)
Definition parsedVar (id cats : Z) : variable := mkVar id cats [].
(** The variable encoding/gob decodes into. *)
Definition newVar : variable := mkVar 0 0 [].
