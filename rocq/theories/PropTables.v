(** C59 and C61: matrix conversions and random partitions. *)
From Coq Require Import Permutation SpecFloat.
From Verif Require Import Base Res GoMap DataSpec DataLemmas Tables TablesSpec TablesLemmas PartitionLemmas.
Local Open Scope Z_scope.

(** C59: DataToMatrix lists every variable once and tabulates the dataset by that list. *)
Theorem data_to_matrix :
  forall ord vars D, visits_all ord -> NoDup vars -> same_variables vars D -> D <> [] ->
  exists M S vs, dataToMatrix ord (Some D) = Ok (M, S) /\ Permutation vs vars /\ listed_as vs S /\ tabulates vs D M.
Proof. exact dataToMatrix_l. Qed.
Print Assumptions data_to_matrix.

(** C59: there and back, every value is found under the new identifier of its variable. *)
Theorem matrix_roundtrip_partial :
  forall ord vars D, visits_all ord -> NoDup vars -> same_variables vars D -> D <> [] ->
  exists M S, dataToMatrix ord (Some D) = Ok (M, S) /\
    (forall k, In k vars <-> exists j, get S j = Some k) /\ (forall j j' k, get S j = Some k -> get S j' = Some k -> j = j') /\
    Forall2 (fun I J => forall j k, get S j = Some k -> get J j = get I k) D (matrixToData M) /\
    Forall (fun J => forall j, get J j <> None <-> get S j <> None) (matrixToData M).
Proof. exact matrix_roundtrip_l. Qed.
Print Assumptions matrix_roundtrip_partial.

Example matrix_case :
  dataToMatrix (fun i m => if Nat.even i then m else rev m) (Some [[(3, 5); (7, 6)]; [(3, 1); (7, 2)]])
  = Ok ([[5; 6]; [1; 2]], [(1, 7); (0, 3)]).
Proof. vm_compute. reflexivity. Qed.
Example matrix_case_hyp : same_variables [7; 3] [[(3, 5); (7, 6)]; [(3, 1); (7, 2)]].
Proof. intros I [<-|[<-|[]]]; (split; [repeat constructor; simpl; intuition lia|]); intros k; simpl; tauto. Qed.

(** C59: but the dataset does not come back, even with identifiers 0 and 1. *)
Theorem matrix_roundtrip_refuted :
  exists ord D M S, visits_all ord /\ same_variables [0; 1] D /\ dataToMatrix ord (Some D) = Ok (M, S) /\
  ~ Forall2 meq D (matrixToData M).
Proof. exact matrix_refuted_l. Qed.
Print Assumptions matrix_roundtrip_refuted.

(** C59: CompleteDataToMatrix, for identifiers 0 .. n-1, is undone by MatrixToData. *)
Theorem complete_roundtrip :
  forall ord n D, visits_all ord -> D <> [] -> same_variables (map Z.of_nat (seq 0 n)) D ->
  exists M, completeDataToMatrix ord (Some D) = Ok M /\ Forall2 meq D (matrixToData M).
Proof. exact complete_roundtrip_l. Qed.
Print Assumptions complete_roundtrip.

Example complete_case : completeDataToMatrix (fun _ m => rev m) (Some [[(1, 6); (0, 5)]; [(0, 1); (1, 2)]]) = Ok [[5; 6]; [1; 2]].
Proof. reflexivity. Qed.

(** C61: whatever is drawn, when ParsePartitionedData returns, the test set consists of m different
    rows without their label, the labels are theirs, and the training set is the other rows in order. *)
Theorem partition_partition :
  forall rnd fuel rows m nv train test lbls, partition rnd fuel rows m nv = Ok (train, test, lbls) ->
  exists drawn, NoDup drawn /\ length drawn = m /\ (forall i, In i drawn -> (i < length rows)%nat) /\
    train = map (nth_error rows) (remaining (length rows) drawn) /\
    Forall2 (fun i t => exists row, nth_error rows i = Some row /\ without (Z.of_nat nv - 1) row t) drawn test /\
    Forall2 (fun i l => exists row, nth_error rows i = Some row /\ get0 row (Z.of_nat nv - 1) = l) drawn lbls.
Proof. exact partition_ok_l. Qed.
Print Assumptions partition_partition.

(** C61: it does return, if the generator neglects no row. *)
Theorem partition_returns :
  forall rnd rows m nv, fair rnd (length rows) -> (m <= length rows)%nat ->
  exists fuel r, partition rnd fuel rows m nv = Ok r.
Proof. exact partition_total_l. Qed.
Print Assumptions partition_returns.

(** C61: asked for more test rows than there are (p < 0), it never returns. *)
Theorem partition_too_many :
  forall rnd fuel rows m nv, (length rows < m)%nat -> forall r, partition rnd fuel rows m nv <> Ok r.
Proof. exact partition_toomany_l. Qed.
Print Assumptions partition_too_many.

Example partition_case :
  partition (fun c n => ((2 * c) mod n)%nat) 5 [[(0, 5); (1, 0)]; [(0, 6); (1, 1)]; [(0, 7); (1, 0)]; [(0, 8); (1, 1)]; [(0, 9); (1, 1)]] 3 2
  = Ok ([Some [(0, 6); (1, 1)]; Some [(0, 8); (1, 1)]], [[(0, 5)]; [(0, 7)]; [(0, 9)]], [0; 0; 1]).
Proof. reflexivity. Qed.
Example partition_fair : fair (fun c n => (c mod n)%nat) 5.
Proof.
  split; [intros c; apply Nat.mod_upper_bound; lia|]. intros c i Hi. exists (i + c * 5)%nat. split; [lia|].
  rewrite Nat.mod_add by lia. apply Nat.mod_small; auto.
Qed.

(** C61: the requested size is not always met: p = 0.9 and ten rows give no test row at all,
    because (1 - 0.9) * 10 is below 1 in binary64. *)
Theorem partition_size_refuted : exists p n, nearest p 9 10 /\ n = 10%nat /\ testSize p n = 0.
Proof. exact size_refuted_l. Qed.
Print Assumptions partition_size_refuted.

Example partition_size_case : testSize (SFdiv 53 1024 (f64 7) (f64 10)) 1000 = 300.
Proof. reflexivity. Qed.
