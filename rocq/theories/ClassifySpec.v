(** Vocabulary of ImgClassify. *)
From Verif Require Import Base.
Local Open Scope Z_scope.

(** The number of predictions that are the label. *)
Definition agreeing (ps lbls : list Z) : Z := Z.of_nat (length (filter (fun pl => fst pl =? snd pl) (combine ps lbls))).
