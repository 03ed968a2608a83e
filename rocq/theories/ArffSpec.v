(** What an ARFF file means. *)
From Coq Require Import Ascii String.
From Verif Require Import Base GoMap Text.
Local Open Scope string_scope.
Local Open Scope Z_scope.

(** Comments and the line that starts the instances. *)
Definition comment (l : string) : Prop := exists t, l = String "%" t.
Definition starts_data (l : string) : Prop := ~ comment l /\ exists t, toLower l = "@data" ++ t.

(** [instances T D]: the lines of [D] are those of [T] that are not comments. *)
Inductive instances : list string -> list string -> Prop :=
| inst_nil : instances [] []
| inst_skip l T D : comment l -> instances T D -> instances (l :: T) D
| inst_take l T D : ~ comment l -> instances T D -> instances (l :: T) (l :: D).

(** The tokens of an instance: what is between blanks and commas. *)
Definition tokens (l : string) : list string := fieldsFunc (fun c => Ascii.eqb c " " || Ascii.eqb c ",") l.

(** A nominal ARFF file as text. *)
Fixpoint joined (sep : string) (l : list string) : string :=
  match l with [] => "" | [x] => x | x :: t => x ++ sep ++ joined sep t end.
Definition attribute_line (a : string * list string) : string := "@attribute " ++ fst a ++ " {" ++ joined "," (snd a) ++ "}".
Fixpoint free_of (c : ascii) (s : string) : Prop := match s with EmptyString => True | String d t => d <> c /\ free_of c t end.
(** A name without braces and a non-empty list of values without commas and braces. *)
Definition nominal (a : string * list string) : Prop :=
  free_of "{" (fst a) /\ snd a <> [] /\ forall v, In v (snd a) -> free_of "," v /\ free_of "{" v /\ free_of "}" v.
