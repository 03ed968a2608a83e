(** ParseArff and ARFFToData of /repo/io/arff.go, on lists of lines (see Parse.v) of ASCII text. *)
From Coq Require Import Ascii String.
From Verif Require Import Base Res GoMap Text.
Local Open Scope string_scope.
Local Open Scope Z_scope.

(** map[string]int. *)
Definition smap := list (string * Z).
Fixpoint sget (m : smap) (k : string) : option Z :=
  match m with [] => None | (k', v) :: t => if String.eqb k' k then Some v else sget t k end.
Definition sput (m : smap) (k : string) (v : Z) : smap := (k, v) :: m.

(** io/arff.go:209-213: what is known of attribute i: typs[i], sc[i].Categories, sc[i].Name,
    labels[i] and counts[i]. *)
Inductive colType := TNumeric | TString | TClass.
Record column := mkCol { ctyp : colType; ccat : Z; cname : string; clab : smap; ccount : Z }.

(** The variables of ParseArff. In the header i is the number of attributes, after @data the number
    of instances. *)
Record arff := mkArff { aname : string; acols : list column; adata : bool; avals : list gmap }.

(** io/arff.go:219-223. *)
Definition isComment (line : string) : bool := match line with String c _ => Ascii.eqb c "%" | EmptyString => false end.

Definition blankComma (c : ascii) : bool := Ascii.eqb c " " || Ascii.eqb c ",".
Definition classSep (c : ascii) : bool := blankComma c || Ascii.eqb c "{" || Ascii.eqb c "}".

Definition joinAll (l : list string) : string := fold_right append "" l.

(** io/arff.go:233-258. *)
Definition newColumn (n typ : string) : column :=
  let t := toLower typ in
  if String.eqb t "numeric" then mkCol TNumeric 0 n [] 0
  else if String.eqb t "string" then mkCol TString 0 n [] 0
  else
    let l := fieldsFunc classSep typ in
    mkCol TClass (Z.of_nat (List.length l)) n
      (fold_left (fun m jt => sput m (snd jt) (Z.of_nat (fst jt))) (combine (seq 0 (List.length l)) l) []) 0.

(** io/arff.go:272-299: token [tk] in column [c]: the column afterwards and the value. The largest
    int plus one wraps around and is not larger. *)
Definition arffToken (c : column) (tk : string) : res (column * Z) :=
  match ctyp c with
  | TNumeric =>
      let (v, ok) := atoi tk in
      if ok then
        Ok (if (v <? 2 ^ 63 - 1) && (ccat c <? v + 1) then mkCol TNumeric (v + 1) (cname c) (clab c) (ccount c) else c, v)
      else Panic
  | TString =>
      match sget (clab c) tk with
      | Some x => Ok (c, x)
      | None => Ok (mkCol TString (ccat c + 1) (cname c) (sput (clab c) tk (ccount c)) (ccount c + 1), ccount c)
      end
  | TClass =>
      match sget (clab c) tk with
      | Some x => Ok (c, x)
      | None => Ok (mkCol TClass (ccat c) (cname c) (sput (clab c) tk (ccount c)) (ccount c + 1), ccount c)
      end
  end.

(** io/arff.go:270-300: the tokens of an instance, column by column; typs[j] out of range panics. *)
Definition arffRow (cols : list column) (v : list string) : res (list column * gmap) :=
  foldi (fun j st tk =>
           c <- idx (fst st) j;
           r <- arffToken c tk;
           Ok (set_nth j (fst r) (fst st), put (snd st) (Z.of_nat j) (snd r))) v (cols, []).

(** io/arff.go:215-302: one line. *)
Definition arffLine (st : arff) (line : string) : res arff :=
  if isComment line then Ok st
  else if negb (adata st) then
    let l := toLower line in
    if hasPrefix "@relation" l then
      n <- idx (fields line) 1; Ok (mkArff n (acols st) false (avals st))
    else if hasPrefix "@attribute" l then
      n <- idx (fields line) 1;
      Ok (mkArff (aname st) (acols st ++ [newColumn n (joinAll (skipn 2 (fields line)))]) false (avals st))
    else if hasPrefix "@data" l then Ok (mkArff (aname st) (acols st) true (avals st))
    else Ok st
  else
    r <- arffRow (acols st) (fieldsFunc blankComma line);
    Ok (mkArff (aname st) (fst r) true (avals st ++ [snd r])).

(** io/arff.go:197-303. *)
Definition parseArff (lines : list string) : res arff := foldr_ arffLine lines (mkArff "" [] false []).

(** io/arff.go:43-46: the variables of ARFFToData. *)
Record compile := mkCompile { kdata : bool; kclasses : list (list string); kinst : list (list string) }.

(** io/arff.go:84-94: the position of the value among the classes, the last one that matches. *)
Definition classIndex (cls : list string) (att : string) : string :=
  fold_left (fun acc jc => if String.eqb att (snd jc) then itoa (Z.of_nat (fst jc)) else acc) (combine (seq 0 (List.length cls)) cls) att.

(** io/arff.go:49-101: one line. *)
Definition compileLine (st : compile) (line : string) : res compile :=
  if kdata st then
    inst <- mapi (fun i att => cls <- idx (kclasses st) i; Ok (classIndex cls att)) (splitChar "," line);
    Ok (mkCompile true (kclasses st) (kinst st ++ [inst]))
  else
    match splitChar " " line with
    | [h] => Ok (mkCompile (String.eqb h "@data") (kclasses st) (kinst st))
    | h :: _ =>
        if String.eqb h "@attribute" then
          t1 <- idx (splitChar "{" line) 1;
          t2 <- idx (splitChar "}" t1) 0;
          Ok (mkCompile false (kclasses st ++ [splitChar "," t2]) (kinst st))
        else Ok st
    | [] => Panic
    end.

(** io/arff.go:124-142: the compiled file, line by line; the last value is written twice. *)
Definition compiledRow (inst : list string) : res string :=
  l <- idx inst (List.length inst - 1);
  Ok (joinAll (map (fun v => v ++ " ") inst) ++ l ++ " ").

(** io/arff.go:16-153, without the directories. *)
Definition arffToData (lines : list string) : res (list string) :=
  st <- foldr_ compileLine lines (mkCompile false [] []);
  rows <- mapi (fun _ inst => compiledRow inst) (kinst st);
  Ok (map (fun ic => ("var " ++ itoa (Z.of_nat (fst ic)) ++ " " ++ itoa (Z.of_nat (List.length (snd ic))))%string)
        (combine (seq 0 (List.length (kclasses st))) (kclasses st)) ++ rows)%list.
