(** What image files and folders of them mean. *)
From Coq Require Import Ascii String.
From Verif Require Import Base GoMap TextSpec Img.
Local Open Scope string_scope.
Local Open Scope Z_scope.

(** A text without line ends. *)
Fixpoint one_line (s : string) : Prop :=
  match s with EmptyString => True | String c t => c <> "010"%char /\ c <> "013"%char /\ one_line t end.

(** [file_lines ls s]: the file [s] has the lines [ls]; they end in Unix or DOS style, the last need not. *)
Definition line_end (e : string) : Prop := e = String "010" "" \/ e = String "013" (String "010" "").
Inductive file_lines : list string -> string -> Prop :=
| fl_none : file_lines [] ""
| fl_last l : one_line l -> l <> "" -> file_lines [l] l
| fl_line l e ls s : one_line l -> line_end e -> file_lines ls s -> file_lines (l :: ls) (l ++ e ++ s).

(** [number_line vs line]: the numbers [vs] with at least one blank between them and any number of
    blanks around them. *)
Fixpoint blanks (s : string) : Prop := match s with EmptyString => True | String c t => c = " "%char /\ blanks t end.
Inductive number_line : list Z -> string -> Prop :=
| num_none s : blanks s -> number_line [] s
| num_last s v : blanks s -> number_line [v] (s ++ numeral v)
| num_next s v vs t : blanks s -> number_line vs (" " ++ t) -> number_line (v :: vs) (s ++ numeral v ++ " " ++ t).

(** Any plain text of numbers: words with white space between them, as the PGM format allows. *)
Definition white (c : ascii) : Prop := In c [" "%char; "009"%char; "010"%char; "013"%char].
Fixpoint whites (s : string) : Prop := match s with EmptyString => True | String c t => white c /\ whites t end.
Inductive words : list string -> string -> Prop :=
| words_none s : whites s -> words [] s
| words_last s x : whites s -> words [x] (s ++ x)
| words_next s x xs c t : whites s -> white c -> words xs (String c t) -> words (x :: xs) (s ++ x ++ String c t).
Definition plain_pgm (w h max : Z) (px : list Z) (s : string) : Prop :=
  words ("P2" :: map numeral (w :: h :: max :: px)) s /\ 0 <= w /\ 0 <= h /\ Z.of_nat (List.length px) = w * h.

(** The usual layout: magic number, sizes and maximum on a line each, then the pixels on any lines. *)
Definition layout (line : list Z -> string -> Prop) (w h max : Z) (px : list Z) (s : string) : Prop :=
  exists lw lm chunks body,
    file_lines ("P2" :: lw :: lm :: body) s /\ number_line [w; h] lw /\ number_line [max] lm /\
    Forall2 line chunks body /\ px = List.concat chunks /\
    0 <= w /\ 0 <= h /\ Z.of_nat (List.length px) = w * h.
Definition pgm_text := layout number_line.
(** Each line with its numbers separated by exactly one blank, and nothing else. *)
Definition tight_line (vs : list Z) (line : string) : Prop := exists v t, vs = v :: t /\ line = numeral v ++ spaced t.
Definition tight_pgm := layout tight_line.

(** Bitmaps: digits 0 and 1, with blanks and tabs anywhere. *)
Inductive bit_line : list Z -> string -> Prop :=
| bit_none : bit_line [] ""
| bit_0 vs t : bit_line vs t -> bit_line (0 :: vs) (String "0" t)
| bit_1 vs t : bit_line vs t -> bit_line (1 :: vs) (String "1" t)
| bit_blank vs c t : In c [" "%char; "009"%char] -> bit_line vs t -> bit_line vs (String c t).
Definition no_margin (line : string) : Prop := forall c t, line = String c t -> c <> " "%char /\ c <> "009"%char.
(** [pbm_text flush w h px s]: the layout with magic number and sizes on a line each; [flush]: the
    lines of pixels do not start with a blank. *)
Definition pbm_text (flush : bool) (w h : Z) (px : list Z) (s : string) : Prop :=
  exists lw chunks body,
    file_lines ("P1" :: lw :: body) s /\ number_line [w; h] lw /\
    Forall2 bit_line chunks body /\ (flush = true -> Forall no_margin body) /\ px = List.concat chunks /\
    0 <= w /\ 0 <= h /\ Z.of_nat (List.length px) = w * h.

(** The classes of a folder: its subfolders except "compiled". *)
Definition classes (dir : listing) : list (list string) :=
  flat_map (fun e => match e with
                     | (name, ADir fs) => if String.eqb name "compiled" then [] else [fs]
                     | (_, AFile) => []
                     end) dir.
(** The images of the classes, each followed by the number of its class. *)
Fixpoint labelled (i : Z) (imgs : list (list (list Z))) : list (list Z) :=
  match imgs with [] => [] | c :: t => (map (fun px => px ++ [i]) c ++ labelled (i + 1) t)%list end.
(** The number of images before each class. *)
Fixpoint starts (k : Z) (imgs : list (list (list Z))) : list Z :=
  match imgs with [] => [] | c :: t => k :: starts (k + Z.of_nat (List.length c)) t end.

(** A table with [n] pixels of [cats] values and, if [cls] is given, a class variable of so many values. *)
Definition image_vars (n cats : Z) (cls : option Z) (sc : gmap) : Prop :=
  forall k, get sc k = if (0 <=? k) && (k <? n) then Some cats else if k =? n then cls else None.

(** A state of the variables 0, 1, ... with these values. *)
Definition state_of (px : list Z) (st : gmap) : Prop := NoDup (keys st) /\ as_row px st.

(** The raw colour format: after the header exactly three bytes for each pixel (maxima below 256). *)
Definition raw_ppm (w h max : Z) (s : string) : Prop :=
  exists body, s = "P6" ++ String "010" (numeral w ++ " " ++ numeral h ++ String "010" (numeral max ++ String "010" body)) /\
    Z.of_nat (String.length body) = 3 * (w * h).
