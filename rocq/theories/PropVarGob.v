(** C112: variables survive encoding. *)
From Verif Require Import Base Res Codec SerialSpec VarGob VarGobSpec VarGobLemmas.
Local Open Scope Z_scope.

(** A variable is decoded as it was, without an error, exactly when its name is one word. *)
Theorem variable_roundtrip_partial : forall v0 v, go_int (varid v) -> go_int (categories v) ->
  (gobDecodeVar v0 (gobEncodeVar v) = (v, true) <-> one_word (vname v)).
Proof. exact roundtrip_words. Qed.
Print Assumptions variable_roundtrip_partial.

Example variable_case : gobEncodeVar (mkVar 3 (-2) [112; 120]) = [51; 32; 45; 50; 32; 112; 120; 10] /\ one_word [112; 120] /\
  gobDecodeVar newVar [51; 32; 45; 50; 32; 112; 120; 10] = (mkVar 3 (-2) [112; 120], true).
Proof.
  split; [reflexivity|]. split; [|reflexivity]. split; [discriminate|]. unfold white. cbn [In]. intros r Hr. repeat destruct Hr as [<-|Hr]; try contradiction; lia.
Qed.

(** The property asked for, for all variables. False: those read from data files have no name, and decoding
    any of them is an error. *)
Theorem variable_unnamed_refuted : forall v0 id cats, go_int id -> go_int cats ->
  snd (gobDecodeVar v0 (gobEncodeVar (parsedVar id cats))) = false.
Proof. exact (fun v0 id cats H1 H2 => f_equal snd (unnamed_l v0 id cats H1 H2)). Qed.
Print Assumptions variable_unnamed_refuted.
Example variable_unnamed_case : gobDecodeVar newVar (gobEncodeVar (parsedVar 0 2)) = (parsedVar 0 2, false).
Proof. reflexivity. Qed.

(** A name of two words is cut, with an error. *)
Theorem variable_two_words : forall v0 id cats w r rest, go_int id -> go_int cats -> one_word w -> white r -> r <> 10 -> one_word rest ->
  gobDecodeVar v0 (gobEncodeVar (mkVar id cats (w ++ r :: rest))) = (mkVar id cats w, false).
Proof. exact blank_words. Qed.
Print Assumptions variable_two_words.

(** What follows a newline is lost without an error. *)
Theorem variable_newline_refuted : forall v0 id cats w rest, go_int id -> go_int cats -> one_word w ->
  gobDecodeVar v0 (gobEncodeVar (mkVar id cats (w ++ 10 :: rest))) = (mkVar id cats w, true).
Proof. exact truncated_words. Qed.
Print Assumptions variable_newline_refuted.
Example variable_newline_case : gobDecodeVar newVar (gobEncodeVar (mkVar 1 2 [97; 10; 98])) = (mkVar 1 2 [97], true) /\
  gobDecodeVar newVar (gobEncodeVar (mkVar 1 2 [97; 32; 98])) = (mkVar 1 2 [97], false).
Proof. split; reflexivity. Qed.
