(** Text of data files: the functions of Go's strconv, fmt, strings and regexp that the parsers of
    /repo/io call, on ASCII text. They are modelled from the documentation and source of the Go
    standard library; the code of /repo itself is in Parse.v and Arff.v. *)
From Coq Require Import Ascii String DecimalString.
From Verif Require Import Base.
Local Open Scope string_scope.
Local Open Scope Z_scope.

(** strconv.Itoa and the verb %d, called in io/arff.go:90, 129 and wherever a data file is written. *)
Definition itoa (z : Z) : string := NilZero.string_of_int (Z.to_int z).

Definition digitOf (c : ascii) : option Z :=
  let n := Z.of_nat (nat_of_ascii c) in if (48 <=? n) && (n <=? 57) then Some (n - 48) else None.

(** strconv.ParseUint, base 10: the value, a bad character, or more than 64 bits. *)
Inductive uintRes := UVal (v : Z) | UBad | UOver.
Fixpoint parseDigits (s : string) (acc : Z) : uintRes :=
  match s with
  | EmptyString => UVal acc
  | String c t =>
      match digitOf c with
      | None => UBad
      | Some d => if 2 ^ 64 <=? 10 * acc + d then UOver else parseDigits t (10 * acc + d)
      end
  end.
Definition signOf (s : string) : bool * string :=
  match s with
  | String "-" t => (true, t)
  | String "+" t => (false, t)
  | _ => (false, s)
  end.
(** strconv.Atoi (io/input.go:73, 89, 149, 154, 211): the value and whether there was no error. *)
Definition atoi (s : string) : Z * bool :=
  let (neg, t) := signOf s in
  let top := if neg then - 2 ^ 63 else 2 ^ 63 - 1 in
  match t with
  | EmptyString => (0, false)
  | _ => match parseDigits t 0 with
         | UBad => (0, false)
         | UOver => (top, false)
         | UVal v => let z := if neg then - v else v in
                     if (- 2 ^ 63 <=? z) && (z <? 2 ^ 63) then (z, true) else (top, false)
         end
  end.

(** unicode.IsSpace on ASCII: tab to carriage return, and blank. *)
Definition isSpace (c : ascii) : bool :=
  let n := nat_of_ascii c in ((9 <=? n) && (n <=? 13) || (n =? 32))%nat.
(** The class of the regular expression [\,\s]+ (io/input.go:67): \s has no vertical tab. *)
Definition isSep (c : ascii) : bool :=
  let n := nat_of_ascii c in ((n =? 44) || (n =? 9) || (n =? 10) || (n =? 12) || (n =? 13) || (n =? 32))%nat.

(** regexp.Split(line, -1) for that expression: runs of separators divide; a leading or trailing run
    leaves an empty string. [run]: the previous character was a separator. *)
Fixpoint splitRuns (run : bool) (s : string) : list string :=
  match s with
  | EmptyString => [EmptyString]
  | String c t =>
      if isSep c then (if run then splitRuns true t else EmptyString :: splitRuns true t)
      else match splitRuns false t with h :: r => String c h :: r | [] => [String c EmptyString] end
  end.
Definition regexSplit (s : string) : list string := splitRuns false s.

(** strings.Split(s, sep) for a one-character separator. *)
Fixpoint splitChar (sep : ascii) (s : string) : list string :=
  match s with
  | EmptyString => [EmptyString]
  | String c t =>
      if Ascii.eqb c sep then EmptyString :: splitChar sep t
      else match splitChar sep t with h :: r => String c h :: r | [] => [String c EmptyString] end
  end.

(** strings.FieldsFunc: the maximal runs of characters that are not separators. *)
Fixpoint fieldsAcc (p : ascii -> bool) (s : string) : string * list string :=
  match s with
  | EmptyString => (EmptyString, [])
  | String c t =>
      let (h, r) := fieldsAcc p t in
      if p c then (EmptyString, match h with EmptyString => r | _ => h :: r end) else (String c h, r)
  end.
Definition fieldsFunc (p : ascii -> bool) (s : string) : list string :=
  let (h, r) := fieldsAcc p s in match h with EmptyString => r | _ => h :: r end.
(** strings.Fields. *)
Definition fields (s : string) : list string := fieldsFunc isSpace s.

(** strings.ToLower. *)
Definition lowerChar (c : ascii) : ascii :=
  let n := nat_of_ascii c in if ((65 <=? n) && (n <=? 90))%nat then ascii_of_nat (n + 32) else c.
Fixpoint toLower (s : string) : string :=
  match s with EmptyString => EmptyString | String c t => String (lowerChar c) (toLower t) end.

(** strings.HasPrefix, with the rest. *)
Fixpoint stripPrefix (p s : string) : option string :=
  match p, s with
  | EmptyString, _ => Some s
  | String a p', String b s' => if Ascii.eqb a b then stripPrefix p' s' else None
  | _, _ => None
  end.
Definition hasPrefix (p s : string) : bool := match stripPrefix p s with Some _ => true | None => false end.

(** fmt.Sscanf, the verb %d: skip space, then a sign and digits. None is an error. *)
Fixpoint skipSpaces (s : string) : string :=
  match s with String c t => if isSpace c then skipSpaces t else s | EmptyString => s end.
Fixpoint takeDigitRun (s : string) : string * string :=
  match s with
  | String c t => match digitOf c with
                  | Some _ => let (ds, r) := takeDigitRun t in (String c ds, r)
                  | None => (EmptyString, s)
                  end
  | EmptyString => (EmptyString, EmptyString)
  end.
Definition scanD (s : string) : option (Z * string) :=
  let s1 := skipSpaces s in
  let (neg, s2) := signOf s1 in
  let (ds, r) := takeDigitRun s2 in
  match ds with
  | EmptyString => None
  | _ => match parseDigits ds 0 with
         | UVal v => let z := if neg then - v else v in
                     if (- 2 ^ 63 <=? z) && (z <? 2 ^ 63) then Some (z, r) else None
         | _ => None
         end
  end.
(** fmt.Sscanf, a blank in the format: at least one space, or the end of the text. *)
Definition scanBlank (s : string) : option string :=
  match s with
  | EmptyString => Some EmptyString
  | String c t => if isSpace c then Some (skipSpaces t) else None
  end.
