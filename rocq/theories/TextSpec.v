(** What a data file means. *)
From Coq Require Import Ascii String DecimalString.
From Verif Require Import Base GoMap.
Local Open Scope string_scope.
Local Open Scope Z_scope.

(** The range of a Go int. *)
Definition int64 (z : Z) : Prop := - 2 ^ 63 <= z < 2 ^ 63.

(** The decimal numeral of [z]. *)
Definition numeral (z : Z) : string := NilZero.string_of_int (Z.to_int z).

(** A text of commas and blanks. *)
Definition separator (c : ascii) : Prop := In c [","%char; " "%char; "009"%char; "010"%char; "012"%char; "013"%char].
Fixpoint separators (s : string) : Prop :=
  match s with EmptyString => True | String c t => separator c /\ separators t end.

(** [row_text vs line]: the line shows the numbers [vs], separated by commas and blanks. *)
Inductive row_text : list Z -> string -> Prop :=
| row_end v s : separators s -> row_text [v] (numeral v ++ s)
| row_next v s vs line : separators s -> s <> "" -> row_text vs line -> row_text (v :: vs) (numeral v ++ s ++ line).

(** A declaration. *)
Definition var_line (v : Z * Z) : string := "var " ++ numeral (fst v) ++ " " ++ numeral (snd v).

(** The map from columns to the values of a row. *)
Definition as_row (r : list Z) (m : gmap) : Prop := forall j, get m j = if j <? 0 then None else nth_error r (Z.to_nat j).

(** The variables are numbered by column. *)
Definition by_column (vars : list (Z * Z)) : Prop :=
  NoDup (map fst vars) /\ forall k, In k (map fst vars) <-> 0 <= k < Z.of_nat (List.length vars).

(** The line that announces labels. *)
Fixpoint spaced (zs : list Z) : string := match zs with [] => "" | z :: t => " " ++ numeral z ++ spaced t end.
Definition labels_line (ls : list Z) : string := "labels" ++ spaced (Z.of_nat (List.length ls) :: ls).
