(** C60 and C73: parsing data and evidence files. *)
From Coq Require Import Ascii String.
From Verif Require Import Base Res GoMap DataSpec Text TextSpec Parse ParseLemmas.
Local Open Scope string_scope.
Local Open Scope Z_scope.

(** C60: a file of declarations for the columns (in any order) and at least one row gives exactly
    those variables and those rows; the rows have exactly the declared variables. *)
Theorem parse_data_partial :
  forall vars rows lines, by_column vars -> (forall v, In v vars -> int64 (fst v) /\ int64 (snd v)) ->
  rows <> [] -> Forall2 row_text rows lines -> (forall r, In r rows -> List.length r = List.length vars /\ forall v, In v r -> int64 v) ->
  exists sc data, parseData (map var_line vars ++ lines) = Ok (sc, data) /\ meq sc vars /\ Forall2 as_row rows data /\
    forall m, In m data -> forall k, get m k <> None <-> get sc k <> None.
Proof. exact parseData_column_l. Qed.
Print Assumptions parse_data_partial.

Example parse_data_case :
  parseData (map var_line [(1, 4); (0, 2)] ++ ["0, 3"; "1	-2 "]) = Ok ([(0, 2); (1, 4)], [[(1, 3); (0, 0)]; [(1, -2); (0, 1)]]).
Proof. vm_compute. reflexivity. Qed.
Example parse_data_hyp : by_column [(1, 4); (0, 2)] /\ row_text [0; 3] "0, 3".
Proof.
  split.
  - split; [repeat constructor; simpl; intuition lia|]. intros k. simpl. lia.
  - change "0, 3" with (numeral 0 ++ ", " ++ (numeral 3 ++ "")). apply row_next; [|discriminate|apply row_end; exact Logic.I].
    split; [left; reflexivity|]. split; [right; left; reflexivity|exact Logic.I].
Qed.

(** C60: with any other distinct identifiers the variables are right, but the rows still go by
    column. *)
Theorem parse_data_columns :
  forall vars rows lines, NoDup (map fst vars) -> (forall v, In v vars -> int64 (fst v) /\ int64 (snd v)) ->
  rows <> [] -> Forall2 row_text rows lines -> (forall r, In r rows -> List.length r = List.length vars /\ forall v, In v r -> int64 v) ->
  exists sc data, parseData (map var_line vars ++ lines) = Ok (sc, data) /\ meq sc vars /\ Forall2 as_row rows data.
Proof. exact parseData_l. Qed.
Print Assumptions parse_data_columns.

(** C60: so a declared variable can be missing from every row. *)
Theorem parse_data_ids_refuted :
  exists vars rows lines, NoDup (map fst vars) /\ (forall v, In v vars -> int64 (fst v) /\ int64 (snd v)) /\
  rows <> [] /\ Forall2 row_text rows lines /\ (forall r, In r rows -> List.length r = List.length vars /\ forall v, In v r -> int64 v) /\
  exists sc data, parseData (map var_line vars ++ lines) = Ok (sc, data) /\ exists k m, In m data /\ get sc k <> None /\ get m k = None.
Proof. exact parse_ids_refuted_l. Qed.
Print Assumptions parse_data_ids_refuted.

(** C60: a file with declarations and no rows panics. *)
Theorem parse_data_no_rows :
  forall vars, vars <> [] -> NoDup (map fst vars) -> (forall v, In v vars -> int64 (fst v) /\ int64 (snd v)) ->
  parseData (map var_line vars) = Panic.
Proof. exact parseData_norows_l. Qed.
Print Assumptions parse_data_no_rows.

(** C60: ParseDataNL gives the same without the last column, whose values are the labels. *)
Theorem parse_data_labels_partial :
  forall vars rows lines, by_column vars -> (forall v, In v vars -> int64 (fst v) /\ int64 (snd v)) ->
  rows <> [] -> Forall2 row_text rows lines -> (forall r, In r rows -> List.length r = List.length vars /\ forall v, In v r -> int64 v) ->
  exists sc data, parseDataNL (map var_line vars ++ lines) = Ok (sc, data, map (fun r => last r 0) rows) /\
    (forall k, get sc k = if k =? Z.of_nat (List.length vars) - 1 then None else get vars k) /\ Forall2 as_row (map (@removelast Z) rows) data.
Proof. exact parseDataNL_l. Qed.
Print Assumptions parse_data_labels_partial.

Example parse_data_labels_case :
  parseDataNL (map var_line [(0, 2); (1, 4); (2, 2)] ++ ["0,3,1"; "1,2,0"]) = Ok ([(1, 4); (0, 2)], [[(1, 3); (0, 0)]; [(1, 2); (0, 1)]], [1; 0]).
Proof. vm_compute. reflexivity. Qed.

(** C73: an evidence file gives its labels, variables and rows. *)
Theorem parse_evidence :
  forall ls vars rows lines, int64 (Z.of_nat (List.length ls)) -> (forall v, In v ls -> int64 v) ->
  by_column vars -> (forall v, In v vars -> int64 (fst v) /\ int64 (snd v)) ->
  rows <> [] -> Forall2 row_text rows lines -> (forall r, In r rows -> List.length r = List.length vars /\ forall v, In v r -> int64 v) ->
  exists sc data, parseEvidence (labels_line ls :: map var_line vars ++ lines) = Ok (sc, data, ls) /\ meq sc vars /\ Forall2 as_row rows data.
Proof. exact parseEvidence_l. Qed.
Print Assumptions parse_evidence.

Example parse_evidence_case :
  parseEvidence ["labels 2 1 0"; "var 0 2"; "var 1 3"; "0 2"; "1 1"] = Ok ([(1, 3); (0, 2)], [[(1, 2); (0, 0)]; [(1, 1); (0, 1)]], [1; 0]).
Proof. vm_compute. reflexivity. Qed.
