(** C62 and C72: ARFF files. *)
From Coq Require Import Ascii String.
From Verif Require Import Base Res GoMap Text TextSpec Parse Arff ArffSpec ArffLemmas ArffCatLemmas CompileLemmas.
Local Open Scope string_scope.
Local Open Scope Z_scope.

(** C62: for columns of strings, and columns of classes whose values were all declared, identifiers
    are equal exactly when the tokens are, and below the number of categories. [st0] is what the
    header alone gives. *)
Theorem arff_ids_partial :
  forall H d T D st0 st, (forall l, In l H -> ~ starts_data l) -> starts_data d -> instances T D ->
  parseArff (H ++ [d]) = Ok st0 -> parseArff (H ++ d :: T) = Ok st ->
  List.length (avals st) = List.length D /\ List.length (acols st) = List.length (acols st0) /\
  forall j c0, nth_error (acols st0) j = Some c0 ->
  (ctyp c0 = TString \/ ctyp c0 = TClass /\ (forall l tk, In l D -> nth_error (tokens l) j = Some tk -> sget (clab c0) tk <> None)) ->
  exists c, nth_error (acols st) j = Some c /\ cname c = cname c0 /\
  forall i l m t i' l' m' t', nth_error D i = Some l -> nth_error (avals st) i = Some m -> nth_error (tokens l) j = Some t ->
    nth_error D i' = Some l' -> nth_error (avals st) i' = Some m' -> nth_error (tokens l') j = Some t' ->
    exists x x', get m (Z.of_nat j) = Some x /\ get m' (Z.of_nat j) = Some x' /\ (x = x' <-> t = t') /\ 0 <= x < ccat c /\ sget (clab c) t = Some x.
Proof. exact arff_ids_l. Qed.
Print Assumptions arff_ids_partial.

(** C62: numbers are read as they are written, and are below the number of categories. *)
Theorem arff_numeric :
  forall H d T D st0 st, (forall l, In l H -> ~ starts_data l) -> starts_data d -> instances T D ->
  parseArff (H ++ [d]) = Ok st0 -> parseArff (H ++ d :: T) = Ok st ->
  forall j c0, nth_error (acols st0) j = Some c0 -> ctyp c0 = TNumeric ->
  exists c, nth_error (acols st) j = Some c /\ cname c = cname c0 /\
  forall i l m v, nth_error D i = Some l -> nth_error (avals st) i = Some m -> int64 v -> nth_error (tokens l) j = Some (numeral v) ->
    get m (Z.of_nat j) = Some v /\ (v < 2 ^ 63 - 1 -> v < ccat c).
Proof. exact arff_numeric_l. Qed.
Print Assumptions arff_numeric.

(** C62: equal tokens always get equal identifiers. *)
Theorem arff_equal_tokens :
  forall H d T D st0 st, (forall l, In l H -> ~ starts_data l) -> starts_data d -> instances T D ->
  parseArff (H ++ [d]) = Ok st0 -> parseArff (H ++ d :: T) = Ok st ->
  forall j c0, nth_error (acols st0) j = Some c0 -> ctyp c0 <> TNumeric ->
  forall i l m i' l' m' t, nth_error D i = Some l -> nth_error (avals st) i = Some m -> nth_error (tokens l) j = Some t ->
    nth_error D i' = Some l' -> nth_error (avals st) i' = Some m' -> nth_error (tokens l') j = Some t ->
    exists x, get m (Z.of_nat j) = Some x /\ get m' (Z.of_nat j) = Some x.
Proof. exact arff_equal_l. Qed.
Print Assumptions arff_equal_tokens.

(** C62: and the number of categories is no larger than that: one more than some value of a column of
    numbers (or zero), every identifier of a column of strings is used, and a column of classes keeps
    what it declared. *)
Theorem arff_categories :
  forall H d T D st0 st, (forall l, In l H -> ~ starts_data l) -> starts_data d -> instances T D ->
  parseArff (H ++ [d]) = Ok st0 -> parseArff (H ++ d :: T) = Ok st ->
  forall j c0, nth_error (acols st0) j = Some c0 ->
  exists c, nth_error (acols st) j = Some c /\ ctyp c = ctyp c0 /\ (ctyp c0 <> TClass -> 0 <= ccat c) /\
    (ctyp c0 = TNumeric -> ccat c = 0 \/ exists m, In m (avals st) /\ get m (Z.of_nat j) = Some (ccat c - 1)) /\
    (ctyp c0 = TString -> forall x, 0 <= x < ccat c -> exists m, In m (avals st) /\ get m (Z.of_nat j) = Some x) /\
    (ctyp c0 = TClass -> ccat c = ccat c0).
Proof. exact arff_categories_l. Qed.
Print Assumptions arff_categories.

Example arff_case :
  parseArff (["% a comment"; "@RELATION w"; "@attribute s NUMERIC"; "@attribute r {true, false}"; "@attribute g string"]
             ++ "@data" :: ["0,true,x"; "%"; "3, false,y"; "1,true, x"])
  = Ok (mkArff "w" [mkCol TNumeric 4 "s" [] 0; mkCol TClass 2 "r" [("false", 1); ("true", 0)] 0; mkCol TString 2 "g" [("y", 1); ("x", 0)] 2] true
         [[(2, 0); (1, 0); (0, 0)]; [(2, 1); (1, 1); (0, 3)]; [(2, 0); (1, 0); (0, 1)]]).
Proof. vm_compute. reflexivity. Qed.

(** C62: but an undeclared class value is numbered from zero like the declared ones: two different
    tokens share an identifier, and a further one is not below the number of categories. *)
Theorem arff_ids_refuted :
  exists H d T st0 st c0, (forall l, In l H -> ~ starts_data l) /\ starts_data d /\ instances T T /\
  parseArff (H ++ [d]) = Ok st0 /\ parseArff (H ++ d :: T) = Ok st /\ nth_error (acols st0) 0 = Some c0 /\ ctyp c0 = TClass /\
  (exists i i' l l' m m' t t' x, nth_error T i = Some l /\ nth_error T i' = Some l' /\ nth_error (avals st) i = Some m /\ nth_error (avals st) i' = Some m' /\
     nth_error (tokens l) 0 = Some t /\ nth_error (tokens l') 0 = Some t' /\ t <> t' /\ get m 0 = Some x /\ get m' 0 = Some x) /\
  (exists m c x, In m (avals st) /\ nth_error (acols st) 0 = Some c /\ get m 0 = Some x /\ ccat c <= x).
Proof. exact arff_refuted_l. Qed.
Print Assumptions arff_ids_refuted.

(** C72: a nominal ARFF file compiled by ARFFToData and read by ParseData gives, for every value, its
    position among the values declared for its attribute. *)
Theorem arff_compile :
  forall attrs rows, attrs <> [] -> (forall a, In a attrs -> nominal a) -> rows <> [] ->
  int64 (Z.of_nat (List.length attrs)) -> (forall a, In a attrs -> int64 (Z.of_nat (List.length (snd a)))) ->
  (forall row, In row rows -> Forall2 (fun a v => In v (snd a)) attrs row) ->
  exists out sc data, arffToData (map attribute_line attrs ++ "@data" :: map (joined ",") rows) = Ok out /\ parseData out = Ok (sc, data) /\
    (forall i a, nth_error attrs i = Some a -> get sc (Z.of_nat i) = Some (Z.of_nat (List.length (snd a)))) /\
    Forall2 (fun row m => forall i a v, nth_error attrs i = Some a -> nth_error row i = Some v ->
               exists j, get m (Z.of_nat i) = Some (Z.of_nat j) /\ nth_error (snd a) j = Some v) rows data.
Proof. exact compile_l. Qed.
Print Assumptions arff_compile.

Example arff_compile_case :
  arffToData (map attribute_line [("colour", ["red"; "dark green"]); ("size", ["s"; "m"; "l"])] ++ "@data" :: map (joined ",") [["dark green"; "l"]; ["red"; "s"]])
  = Ok ["var 0 2"; "var 1 3"; "1 2 2 "; "0 0 0 "]
  /\ parseData ["var 0 2"; "var 1 3"; "1 2 2 "; "0 0 0 "] = Ok ([(1, 3); (0, 2)], [[(1, 2); (0, 1)]; [(1, 0); (0, 0)]]).
Proof. split; vm_compute; reflexivity. Qed.
