(** Image folders: PGMFToData and PGMFToEvidence of /repo/io/pgm.go, PBMFToData, PBMToData and
    PBMFToEvidence of /repo/io/pbm.go, and VarSetToPGM, VarSetToPBM and VarSetToPPM (io/ppm.go). A
    file is its ASCII text. A folder is the list of its entries in the order in which Readdirnames
    delivers them; every entry exists and can be opened. Integers do not wrap around. The file that is
    written is the text in the result; creating it and its folder is not modelled. *)
From Coq Require Import Ascii String.
From Verif Require Import Base Res GoMap Text.
Local Open Scope string_scope.
Local Open Scope Z_scope.

Definition newline : string := String "010" "".

(** bufio.Scanner with ScanLines (io/pgm.go:98, io/pbm.go:95): lines end with a newline, the last may
    lack it, and one carriage return at the end of a line is dropped. The scanner's bound of 64 KiB on
    a line is not modelled. *)
Fixpoint rawLines (s : string) : list string :=
  match s with
  | EmptyString => []
  | String c t =>
      if Ascii.eqb c "010" then "" :: rawLines t
      else match rawLines t with h :: r => String c h :: r | [] => [String c ""] end
  end.
Fixpoint dropCR (s : string) : string :=
  match s with
  | EmptyString => ""
  | String c t => match t with
                  | EmptyString => if Ascii.eqb c "013" then "" else s
                  | _ => String c (dropCR t)
                  end
  end.
Definition fileLines (s : string) : list string := map dropCR (rawLines s).

(** What Readdirnames and os.Stat tell of a folder: the name of each entry and, for a folder, the
    contents of its files. *)
Inductive entry := AFile | ADir (files : list string).
Definition listing := list (string * entry).

(** io/pgm.go:41-60 (192-211, 396-409; io/pbm.go:37-56, 264-277): the indices to remove, each less the
    number of those removed before it. *)
Definition reserved (e : string * entry) : bool :=
  String.eqb (fst e) "compiled" || match snd e with AFile => true | ADir _ => false end.
Fixpoint markLoop (l : listing) (i : Z) (mrkrm : list Z) (cmarks : Z) : list Z :=
  match l with
  | [] => mrkrm
  | e :: t =>
      if reserved e then
        match mrkrm with
        | [] => markLoop t (i + 1) [i] cmarks
        | _ => markLoop t (i + 1) (mrkrm ++ [i - cmarks])%list (cmarks + 1)
        end
      else markLoop t (i + 1) mrkrm cmarks
  end.
(** io/pgm.go:63-66 (214-217, 412-415; io/pbm.go:59-62, 280-283). An index that is out of range panics. *)
Definition removeAt (l : listing) (j : Z) : res listing :=
  if (j <? 0) || (Z.of_nat (List.length l) <=? j) then Panic
  else Ok (firstn (Z.to_nat j) l ++ skipn (S (Z.to_nat j)) l)%list.
Definition subdirs (l : listing) : res listing := foldr_ removeAt (markLoop l 0 [] 1) l.

(** io/pgm.go:71-101 (224-243, 423-451; io/pbm.go:67-97, 291-319): the files of every subfolder, with its index. Reading
    the names under a file panics. *)
Fixpoint subfiles (subs : listing) (i : Z) : res (list (string * Z)) :=
  match subs with
  | [] => Ok []
  | (_, AFile) :: _ => Panic
  | (_, ADir fs) :: t => r <- subfiles t (i + 1); Ok (map (fun f => (f, i)) fs ++ r)%list
  end.

(** io/pgm.go:131 and 133 (281, 283; 483, 485): fmt.Sscanf with its error ignored: what was not read
    stays -1. *)
Definition scanTwo (line : string) : Z * Z :=
  match scanD line with
  | None => (-1, -1)
  | Some (w, r) =>
      match scanBlank r with
      | None => (w, -1)
      | Some r1 => match scanD r1 with None => (w, -1) | Some (h, _) => (w, h) end
      end
  end.
Definition scanOne (line : string) : Z := match scanD line with None => -1 | Some (v, _) => v end.

(** The texts written by consecutive calls of fmt.Fprintf. *)
Definition prints {T} (f : T -> string) (l : list T) : string := String.concat "" (map f l).

(** 0, 1, ..., n-1; none if n is negative. *)
Definition upto (n : Z) : list Z := map Z.of_nat (seq 0 (Z.to_nat n)).

(** io/pgm.go:146, 148: one declaration. *)
Definition declare1 (id cats : Z) : string := "var " ++ itoa id ++ " " ++ itoa cats ++ newline.

(** io/pgm.go:154-161 (293-300, 342-349): the integers among the tokens of a line. *)
Definition tokenVals (line : string) : list Z :=
  flat_map (fun t => let (v, ok) := atoi t in if ok then [v] else []) (splitChar " " line).
(** io/pgm.go:152-162: the pixels of a file whose first three lines were read. A Scan after the end is
    harmless, so a shorter file has no pixels. *)
Definition pgmPixels (file : string) : list Z := flat_map tokenVals (skipn 3 (fileLines file)).
Definition printVal (v : Z) : string := itoa v ++ " ".
(** io/pgm.go:151-164. *)
Definition pgmRow (fl : string * Z) : string := prints printVal (pgmPixels (fst fl)) ++ itoa (snd fl) ++ newline.

(** io/pgm.go:126-133 (278-283, 478-485): width, height and maximum. After the last line the text is
    empty. *)
Definition pgmSizes (file : string) : Z * Z * Z :=
  let ls := fileLines file in
  let (w, h) := scanTwo (nth 1 ls "") in (w, h, scanOne (nth 2 ls "")).

(** io/pgm.go:20-168: the sizes returned and the text written. *)
Definition pgmFToData (dir : listing) : res (Z * Z * Z * string) :=
  subs <- subdirs dir;
  ins <- subfiles subs 0;
  f0 <- idx ins 0;
  let '(w, h, max) := pgmSizes (fst f0) in
  let tt := w * h in
  Ok (w, h, max,
      prints (fun i => declare1 i (max + 1)) (upto tt) ++ declare1 tt (Z.of_nat (List.length subs)) ++ prints pgmRow ins).

(** io/pgm.go:452 (io/pbm.go:320): the number of files of a subfolder times its index. *)
Fixpoint slabels (subs : listing) (i : Z) : list Z :=
  match subs with
  | [] => []
  | (_, AFile) :: t => slabels t (i + 1)
  | (_, ADir fs) :: t => Z.of_nat (List.length fs) * i :: slabels t (i + 1)
  end.
(** io/pgm.go:496-503 (io/pbm.go:361-368). *)
Fixpoint printLabels (ls : list Z) : string :=
  match ls with
  | [] => ""
  | [l] => itoa l ++ newline
  | l :: t => itoa l ++ " " ++ printLabels t
  end.
Definition labelsLine (ls : list Z) : string := "labels " ++ itoa (Z.of_nat (List.length ls)) ++ " " ++ printLabels ls.

(** io/pgm.go:514-524: here the error of Atoi is ignored, so every token gives a number. *)
Definition evidenceVals (line : string) : list Z := map (fun t => fst (atoi t)) (splitChar " " line).
Definition pgmEvidenceRow (fl : string * Z) : string :=
  prints printVal (flat_map evidenceVals (skipn 3 (fileLines (fst fl)))) ++ newline.

(** io/pgm.go:374-528. *)
Definition pgmFToEvidence (dir : listing) : res (Z * Z * Z * string) :=
  subs <- subdirs dir;
  ins <- subfiles subs 0;
  f0 <- idx ins 0;
  let '(w, h, max) := pgmSizes (fst f0) in
  Ok (w, h, max,
      labelsLine (slabels subs 0) ++ prints (fun i => declare1 i (max + 1)) (upto (w * h)) ++ prints pgmEvidenceRow ins).

(** io/pbm.go:146-152 (225-231, 379-385): every character of a line and a blank. *)
Fixpoint printChars (line : string) : string :=
  match line with EmptyString => "" | String c t => String c (String " " (printChars t)) end.
Definition pbmPixels (file : string) : string := prints printChars (skipn 2 (fileLines file)).
(** io/pbm.go:122-127 (203-208, 346-351). *)
Definition pbmSizes (file : string) : Z * Z := scanTwo (nth 1 (fileLines file) "").

(** io/pbm.go:16-156. *)
Definition pbmFToData (dir : listing) : res string :=
  subs <- subdirs dir;
  ins <- subfiles subs 0;
  f0 <- idx ins 0;
  let (w, h) := pbmSizes (fst f0) in
  let tt := w * h in
  Ok (prints (fun i => declare1 i 2) (upto tt) ++ declare1 tt (Z.of_nat (List.length subs)) ++
      prints (fun fl : string * Z => pbmPixels (fst fl) ++ itoa (snd fl) ++ newline) ins).

(** io/pbm.go:160-239, for a folder of files. *)
Definition pbmToData (files : list string) (class : Z) : res string :=
  f0 <- idx files 0;
  let (w, h) := pbmSizes f0 in
  Ok (prints (fun i => declare1 i 2) (upto (w * h)) ++
      prints (fun f => pbmPixels f ++ (if class >? 0 then itoa class ++ newline else newline)) files).

(** io/pbm.go:242-389. *)
Definition pbmFToEvidence (dir : listing) : res string :=
  subs <- subdirs dir;
  ins <- subfiles subs 0;
  f0 <- idx ins 0;
  let (w, h) := pbmSizes (fst f0) in
  Ok (labelsLine (slabels subs 0) ++ prints (fun i => declare1 i 2) (upto (w * h)) ++
      prints (fun fl : string * Z => pbmPixels (fst fl) ++ newline) ins).

(** io/pgm.go:541-547 (io/pbm.go:402-406, io/ppm.go:22-28): the values by variable, in a slice as long as
    the map; another variable panics. The entries come in the order of [state]. *)
Definition setPixel (px : list Z) (e : Z * Z) : res (list Z) :=
  if (fst e <? 0) || (Z.of_nat (List.length px) <=? fst e) then Panic else Ok (set_nth (Z.to_nat (fst e)) (snd e) px).
Definition pixelsOf (state : gmap) : res (list Z) := foldr_ setPixel state (repeat 0 (List.length state)).

(** i modulo w in Go: w = 0 panics. *)
Definition rem (i w : Z) : res Z := if w =? 0 then Panic else Ok (Z.rem i w).

(** io/pgm.go:549-555 (io/ppm.go:30-37): a newline before the pixels i with w dividing i+1. *)
Fixpoint printRows (show : Z -> string) (w i : Z) (px : list Z) : res string :=
  match px with
  | [] => Ok ""
  | p :: t =>
      r <- rem (i + 1) w;
      s <- printRows show w (i + 1) t;
      Ok ((if r =? 0 then newline else "") ++ show p ++ s)
  end.
(** io/pgm.go:531-556. *)
Definition varSetToPGM (state : gmap) (w h max : Z) : res string :=
  px <- pixelsOf state;
  body <- printRows printVal w 0 px;
  Ok ("P2" ++ newline ++ itoa w ++ " " ++ itoa h ++ newline ++ itoa max ++ newline ++ body).

(** common/color.go:169-171, and io/ppm.go:35-36. *)
Definition drawRGB (r g b : Z) : string := itoa r ++ " " ++ itoa g ++ " " ++ itoa b.
Definition printGray (p : Z) : string := drawRGB p p p ++ " ".
(** io/ppm.go:12-38. *)
Definition varSetToPPM (state : gmap) (w h max : Z) : res string :=
  px <- pixelsOf state;
  body <- printRows printGray w 0 px;
  Ok ("P6" ++ newline ++ itoa w ++ " " ++ itoa h ++ newline ++ itoa max ++ newline ++ body).

(** io/pbm.go:408-413: a newline before every 71st pixel. *)
Fixpoint printBits (i : Z) (px : list Z) : string :=
  match px with
  | [] => ""
  | p :: t => (if Z.rem i 71 =? 0 then newline else "") ++ itoa p ++ printBits (i + 1) t
  end.
(** io/pbm.go:392-414. *)
Definition varSetToPBM (state : gmap) (w h : Z) : res string :=
  px <- pixelsOf state;
  Ok ("P1" ++ newline ++ itoa w ++ " " ++ itoa h ++ newline ++ printBits 0 px).
