(** C101: classification of images. *)
From Coq Require Import Reals.
From Verif Require Import Base Res GoMap Arith Score ScoreSpec Classify ClassifySpec ClassifyLemmas.
Local Open Scope Z_scope.

(** C101, for every network, test set and labels in range: the first number is that of the test rows whose label
    is the most probable class given their pixels, the first such class if there are several; the second is
    that of all test rows. *)
Theorem classify_counts_partial : forall (value : gmap -> res (F XR)) vars nclass test lbls,
  get vars (Z.of_nat (length vars) - 1) = Some nclass -> 1 <= nclass -> length lbls = length test ->
  (forall row, In row test -> get row (Z.of_nat (length vars) - 1) = None /\ possible value (Z.of_nat (length vars) - 1) (Z.to_nat nclass) row) ->
  Forall (fun l => 0 <= l < nclass) lbls ->
  exists ps, imgClassify value vars test lbls = Ok (agreeing ps lbls, Z.of_nat (length test)) /\
    Forall2 (classified value (Z.of_nat (length vars) - 1) (Z.to_nat nclass)) test ps.
Proof. exact classify_ok. Qed.
Print Assumptions classify_counts_partial.

(** C101: the prediction is unique. *)
Theorem classify_unique : forall value v c row l l', classified value v c row l -> classified value v c row l' -> l = l'.
Proof. exact classified_unique. Qed.
Print Assumptions classify_unique.

(** C101: a row whose pixels have probability zero is never counted as correct. *)
Theorem classify_impossible : forall (value : gmap -> res (F XR)) v c row, value row = Ok NInf ->
  (forall j, (j < c)%nat -> value (put row v (Z.of_nat j)) = Ok NInf) -> exists row', imgPredict value v c row = Ok (row', -1).
Proof. exact impossible_l. Qed.
Print Assumptions classify_impossible.

(** C101: a label outside the classes of the class variable makes it panic, after all rows are classified. *)
Theorem classify_label_panics : forall (value : gmap -> res (F XR)) vars nclass test lbls,
  get vars (Z.of_nat (length vars) - 1) = Some nclass -> 1 <= nclass -> length lbls = length test ->
  (forall row, In row test -> get row (Z.of_nat (length vars) - 1) = None /\ possible value (Z.of_nat (length vars) - 1) (Z.to_nat nclass) row) ->
  ~ Forall (fun l => 0 <= l < nclass) lbls -> imgClassify value vars test lbls = Panic.
Proof. exact classify_panics. Qed.
Print Assumptions classify_label_panics.
Theorem classify_returns_refuted : exists (value : gmap -> res (F XR)) vars nclass test lbls,
  get vars (Z.of_nat (length vars) - 1) = Some nclass /\ 1 <= nclass /\ length lbls = length test /\ imgClassify value vars test lbls = Panic.
Proof. exact (ex_intro _ copies unknown_case). Qed.
Print Assumptions classify_returns_refuted.

Example classify_case : @imgClassify XR copies [(0, 2); (1, 2)] [[(0, 1)]; [(0, 0)]; [(0, 1)]] [1; 1; 1] = Ok (2, 3).
Proof. exact copies_case. Qed.
