(** Names that are one word, independently of the code. *)
From Verif Require Import Base.
Local Open Scope Z_scope.

(** White space of Unicode. *)
Definition white (r : Z) : Prop :=
  9 <= r <= 13 \/ In r [32; 133; 160; 5760] \/ 8192 <= r <= 8202 \/ In r [8232; 8233; 8239; 8287; 12288].
Definition one_word (l : list Z) : Prop := l <> [] /\ forall r, In r l -> ~ white r.
