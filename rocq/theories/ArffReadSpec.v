(** ARFF files with numeric, string and nominal attributes, as text. *)
From Coq Require Import Ascii String.
From Verif Require Import Base Text TextSpec ArffSpec.
Local Open Scope string_scope.

(** Words: no blanks, commas or braces. *)
Definition special : list ascii := [" "%char; "009"%char; "010"%char; "011"%char; "012"%char; "013"%char; ","%char; "{"%char; "}"%char].
Fixpoint plain (s : string) : Prop := match s with EmptyString => True | String c t => ~ In c special /\ plain t end.
Definition word (s : string) : Prop := s <> "" /\ plain s.

(** [Numeric t], [Free t]: the words numeric and string, spelt with small or capital letters. *)
Inductive kind := Numeric (t : string) | Free (t : string) | Nominal (vs : list string).
Definition kind_text (k : kind) : string :=
  match k with Numeric t | Free t => t | Nominal vs => "{" ++ joined "," vs ++ "}" end.
(** An attribute: its name and kind. [kw] is a spelling of @attribute. *)
Definition declaration (kw : string) (a : string * kind) : string := kw ++ " " ++ fst a ++ " " ++ kind_text (snd a).
Definition declares (a : string * kind) : Prop :=
  word (fst a) /\ match snd a with
                  | Numeric t => toLower t = "numeric" | Free t => toLower t = "string"
                  | Nominal vs => NoDup vs /\ forall v, In v vs -> word v end.
(** The values an attribute may have. *)
Definition fits (a : string * kind) (v : string) : Prop :=
  match snd a with Numeric _ => exists z, int64 z /\ v = numeral z | Free _ => word v | Nominal vs => In v vs end.
