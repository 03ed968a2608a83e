(** C128: ParseArff reads what an ARFF file says. *)
From Coq Require Import Ascii String.
From Verif Require Import Base Res GoMap Text TextSpec Parse Arff ArffSpec ArffReadSpec ArffReadLemmas.
Local Open Scope string_scope.
Local Open Scope Z_scope.

(** C128: one column for every declaration, in order, with its name and kind; one instance for every row, in order.
    A number is read as it is written, a nominal value as its position among the declared ones. *)
Theorem arff_reads :
  forall kw dk attrs rows, toLower kw = "@attribute" -> toLower dk = "@data" ->
  (forall a, In a attrs -> declares a) -> (forall row, In row rows -> Forall2 fits attrs row /\ ~ comment (joined "," row)) ->
  exists st, parseArff (map (declaration kw) attrs ++ dk :: map (joined ",") rows) = Ok st /\
    Forall2 (fun a c => cname c = fst a /\ match snd a with
       | Numeric _ => ctyp c = TNumeric | Free _ => ctyp c = TString | Nominal vs => ctyp c = TClass /\ ccat c = Z.of_nat (List.length vs) end) attrs (acols st) /\
    Forall2 (fun row m => forall j a v, nth_error attrs j = Some a -> nth_error row j = Some v ->
       exists x, get m (Z.of_nat j) = Some x /\ match snd a with
         | Numeric _ => v = numeral x | Free _ => True | Nominal vs => 0 <= x /\ nth_error vs (Z.to_nat x) = Some v end) rows (avals st).
Proof. exact arff_reads_l. Qed.
Print Assumptions arff_reads.

Example arff_reads_case :
  (forall a, In a readAttrs -> declares a) /\ (forall row, In row readRows -> Forall2 fits readAttrs row /\ ~ comment (joined "," row)) /\
  parseArff (map (declaration "@Attribute") readAttrs ++ "@DATA" :: map (joined ",") readRows) =
  Ok (mkArff "" [mkCol TNumeric 4 "Rating" [] 0; mkCol TString 2 "tag" [("y", 1); ("x", 0)] 2; mkCol TClass 2 "Size" [("large", 1); ("small", 0)] 0] true
        [[(2, 1); (1, 0); (0, 3)]; [(2, 0); (1, 1); (0, -1)]]).
Proof. exact arff_reads_case_l. Qed.
