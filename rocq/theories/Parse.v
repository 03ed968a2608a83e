(** ParseData, ParseDataNL and ParseEvidence of /repo/io/input.go. A file is the list of lines that
    bufio.Scanner delivers (it stops at a line of 64 KiB or more); opening the file is not modelled. *)
From Coq Require Import Ascii String.
From Verif Require Import Base Res GoMap Text.
Local Open Scope string_scope.
Local Open Scope Z_scope.

(** io/input.go:61 (131, 236): fmt.Sscanf(line, "var %d %d", &varid, &cats) with its error ignored:
    what was not read stays zero. *)
Definition scanVar (line : string) : Z * Z :=
  match stripPrefix "var" line with
  | None => (0, 0)
  | Some r =>
      match scanBlank r with
      | None => (0, 0)
      | Some r1 =>
          match scanD r1 with
          | None => (0, 0)
          | Some (id, r2) =>
              match scanBlank r2 with
              | None => (id, 0)
              | Some r3 => match scanD r3 with None => (id, 0) | Some (c, _) => (id, c) end
              end
          end
      end
  end.

(** io/input.go:52-63 (122-133, 227-238): declarations up to the first other line. Result: the
    variables (identifier to categories), the last line read, the lines not read. line[0] of an
    empty line panics. *)
Fixpoint header (lines : list string) (sc : gmap) (line : string) : res (gmap * string * list string) :=
  match lines with
  | [] => Ok (sc, line, [])
  | l :: t =>
      match l with
      | EmptyString => Panic
      | String c _ =>
          if Ascii.eqb c "v" then let (id, cats) := scanVar l in header t (put sc id cats) l
          else Ok (sc, l, t)
      end
  end.

(** io/input.go:70-80 (141-151, 246-256): the first n fields of a line as integers. *)
Definition parseRow (n : nat) (s : list string) : res (list Z) :=
  mapi (fun _ j => x <- idx s j; let (v, ok) := atoi x in if ok then Ok v else Panic) (seq 0 n).

(** io/input.go:69-93: every line but the last inside the loop, the last after it. *)
Fixpoint dataRows (n : nat) (line : string) (rest : list string) : res (list (list Z)) :=
  r <- parseRow n (regexSplit line);
  match rest with
  | [] => Ok [r]
  | l :: t => rs <- dataRows n l t; Ok (r :: rs)
  end.

(** io/input.go:95-102: rows as maps from column to value. *)
Definition toMaps (data : list (list Z)) : list gmap :=
  map (fun r => fold_left (fun m je => put m (Z.of_nat (fst je)) (snd je)) (combine (seq 0 (List.length r)) r) []) data.

(** io/input.go:37-105. *)
Definition parseData (lines : list string) : res (gmap * list gmap) :=
  h <- header lines [] "";
  let '(sc, line, rest) := h in
  data <- dataRows (List.length sc) line rest;
  Ok (sc, toMaps data).

(** io/input.go:137-168: as dataRows, with the field after the first n as label; its error is
    ignored. *)
Definition parseRowL (n : nat) (s : list string) : res (list Z * Z) :=
  r <- parseRow n s; x <- idx s n; Ok (r, fst (atoi x)).
Fixpoint dataRowsL (n : nat) (line : string) (rest : list string) : res (list (list Z * Z)) :=
  r <- parseRowL n (regexSplit line);
  match rest with
  | [] => Ok [r]
  | l :: t => rs <- dataRowsL n l t; Ok (r :: rs)
  end.

(** io/input.go:109-184. Without declarations n is -1 and make panics. *)
Definition parseDataNL (lines : list string) : res (gmap * list gmap * list Z) :=
  h <- header lines [] "";
  let '(sc, line, rest) := h in
  match List.length sc with
  | O => Panic
  | S n =>
      rows <- dataRowsL n line rest;
      Ok (del sc (Z.of_nat n), toMaps (map fst rows), map snd rows)
  end.

(** io/input.go:208-222: the line of labels. A negative count makes make panic. *)
Definition labelLine (line : string) : res (list Z) :=
  let n := match stripPrefix "labels" line with
           | None => 0
           | Some r => match scanBlank r with
                       | None => 0
                       | Some r1 => match scanD r1 with None => 0 | Some (n, _) => n end
                       end
           end in
  if n <? 0 then Panic else
  mapi (fun _ i => x <- idx (splitChar " " line) (i + 2)%nat; let (v, ok) := atoi x in if ok then Ok v else Panic) (seq 0 (Z.to_nat n)).

(** io/input.go:191-274. *)
Definition parseEvidence (lines : list string) : res (gmap * list gmap * list Z) :=
  let line := match lines with [] => "" | l :: _ => l end in
  lbls <- labelLine line;
  h <- header (tl lines) [] line;
  let '(sc, line, rest) := h in
  data <- dataRows (List.length sc) line rest;
  Ok (sc, toMaps data, lbls).
