(** Properties of the dataset functions (C43-C48). *)
From Coq Require Import Reals Lra.
From Verif Require Import Base Res Arith LogSpec GoMap Data DataSpec DataLemmas DataLoops DataRows DataParts DataByLabel DataCases.

(** C43: with positive proportions summing to one. Missing: a proportion of exactly zero (refuted
    below). *)
Theorem partition_partial : forall (fround : F XR -> Z) (Hround : forall r, fround (Fin r) = go_round r) ord h D R p,
  visits_all ord -> good_heap h -> rows_exist h D -> Permutation R (seq 0 (length D)) -> (forall x, In x p -> 0 < x)%R -> Rsum p = 1%R ->
  exists h' idxs M, @partition ord XR fround h D R (map Fin p) = Ok (h', M) /\
    divided h D h' idxs M /\ concat idxs = R /\ exactly_once (length D) idxs /\ length M = length p /\ totals_close (length D) p M.
Proof. exact partition_ok. Qed.
Print Assumptions partition_partial.

Example partition_case : exists fround : F XR -> Z, (forall r, fround (Fin r) = go_round r) /\ visits_all backwards /\ good_heap three /\ rows_exist three [0; 1; 2] /\
  Permutation [2; 0; 1] (seq 0 3) /\ (forall x, In x [1 / 4; 3 / 4]%R -> 0 < x)%R /\ Rsum [1 / 4; 3 / 4]%R = 1%R.
Proof.
  exists (fun x => match x with Fin r => go_round r | _ => 0%Z end). split; [reflexivity|]. split; [apply backwards_ok|]. split; [apply three_good|]. split; [apply three_rows|].
  split; [apply NoDup_Permutation; [repeat constructor; simpl; intuition lia|apply seq_NoDup|]; intros x; simpl; intuition lia|].
  split; [intros x [<-|[<-|[]]]; lra|simpl; lra].
Qed.

(** C43: a proportion of zero can make Partition panic. *)
Theorem partition_refuted : exists ord h D R p,
  visits_all ord /\ good_heap h /\ rows_exist h D /\ Permutation R (seq 0 (length D)) /\ (forall x, In x p -> 0 <= x)%R /\ Rsum p = 1%R /\
  forall fround : F XR -> Z, (forall r, fround (Fin r) = go_round r) -> @partition ord XR fround h D R (map Fin p) = Panic.
Proof. exact partition_refuted_w. Qed.
Print Assumptions partition_refuted.

(** C44: when the shares of every class add up to the whole class, nothing is left over and the
    parts are exact. Missing: leftovers (refuted below). *)
Theorem partition_by_labels_partial : forall (fround : F XR -> Z) (Hround : forall r, fround (Fin r) = go_round r)
  (ffloor : F XR -> F XR) (Hfloor : forall r, ffloor (Fin r) = Fin (IZR (Int_part r))) (fabs : F XR -> F XR) ord h D L c p Rs,
  visits_all ord -> good_heap h -> rows_exist h D -> length L = length D -> (0 <= c)%Z ->
  (forall l, In l L -> 0 <= l < c)%Z -> length Rs = Z.to_nat c ->
  (forall j, j < Z.to_nat c -> Permutation (nth j Rs []) (seq 0 (length (where_label (Z.eqb (Z.of_nat j)) L)))) ->
  (forall x, In x p -> (0 <= x)%R) ->
  (forall j, j < Z.to_nat c -> fold_right Z.add 0%Z (map (fun x => Int_part (INR (length (where_label (Z.eqb (Z.of_nat j)) L)) * x)) p) = Z.of_nat (length (where_label (Z.eqb (Z.of_nat j)) L))) ->
  exists h' idxs M U, @partitionByLabels ord XR fround ffloor fabs h D L c (map Fin p) Rs = Ok (h', M, U) /\
    divided h D h' idxs M /\ Forall2 (labels_of L) idxs U /\ exactly_once (length D) idxs /\ length M = length p /\ class_shares L (Z.to_nat c) p U.
Proof. exact byLabels_ok. Qed.
Print Assumptions partition_by_labels_partial.

(** Class 0 has one instance, class 1 has two; the only part takes everything. *)
Example partition_by_labels_case : forall j, j < 2 ->
  fold_right Z.add 0%Z (map (fun x => Int_part (INR (length (where_label (Z.eqb (Z.of_nat j)) [1%Z; 0%Z; 1%Z])) * x)) [1; 0]%R) = Z.of_nat (length (where_label (Z.eqb (Z.of_nat j)) [1%Z; 0%Z; 1%Z])) /\
  Permutation (nth j [[0]; [1; 0]] []) (seq 0 (length (where_label (Z.eqb (Z.of_nat j)) [1%Z; 0%Z; 1%Z]))).
Proof.
  intros [|[|j]] Hj; try lia; cbn [map fold_right].
  - split; [|apply Permutation_refl]. rewrite (Int_part_is _ 1), (Int_part_is _ 0); [reflexivity| |]; simpl; lra.
  - split; [|apply perm_swap]. rewrite (Int_part_is _ 2), (Int_part_is _ 0); [reflexivity| |]; simpl; lra.
Qed.

(** C44: with leftovers an instance is lost and another one returned twice. *)
Theorem partition_by_labels_refuted : exists ord h D L c p Rs, visits_all ord /\ good_heap h /\ rows_exist h D /\ length L = length D /\ (forall l, In l L -> 0 <= l < c)%Z /\
  length Rs = Z.to_nat c /\ (forall j, j < Z.to_nat c -> Permutation (nth j Rs []) (seq 0 (length (where_label (Z.eqb (Z.of_nat j)) L)))) /\
  (forall x, In x p -> 0 <= x)%R /\ Rsum p = 1%R /\
  forall (fround : F XR -> Z) (ffloor fabs : F XR -> F XR), (forall r, fround (Fin r) = go_round r) -> (forall r, ffloor (Fin r) = Fin (IZR (Int_part r))) ->
  exists h' M U, @partitionByLabels ord XR fround ffloor fabs h D L c (map Fin p) Rs = Ok (h', M, U) /\
    ~ exists idxs, exactly_once (length D) idxs /\ Forall2 (copies h D h') idxs M.
Proof. exact byLabels_refuted_w. Qed.
Print Assumptions partition_by_labels_refuted.

(** C45: at least as many instances as parts. Missing: fewer (refuted below). *)
Theorem divide_partial : forall ord (Hord : visits_all ord) h (G : good_heap h) D (HD : rows_exist h D) L (HL : length L = length D) n,
  (0 < n <= Z.of_nat (length D))%Z ->
  exists h' idxs Gd Gl, divide ord h D L n = Ok (h', Gd, Gl) /\ divided h D h' idxs Gd /\ Forall2 (labels_of L) idxs Gl /\
    exactly_once (length D) idxs /\ length Gd = Z.to_nat n /\ balanced (length D / Z.to_nat n) (length D mod Z.to_nat n) Gd.
Proof. exact divide_ok. Qed.
Print Assumptions divide_partial.

Example divide_case : match divide backwards three [0; 1; 2] [7; 8; 9]%Z 2 with
  | Ok (h', Gd, Gl) => Gd = [[3; 5]; [4]] /\ Gl = [[7; 9]; [8]]%Z /\ get (mem h' 5) 1 = Some 6%Z | _ => False end.
Proof. vm_compute. auto. Qed.

Theorem divide_refuted : exists ord h D L n, visits_all ord /\ good_heap h /\ rows_exist h D /\ length L = length D /\ (0 < n)%Z /\ divide ord h D L n = Panic.
Proof. exact divide_refuted_w. Qed.
Print Assumptions divide_refuted.

(** C46: Split. *)
Theorem split_by_label : forall ord (Hord : visits_all ord) h (G : good_heap h) D (HD : rows_exist h D) L c,
  length L = length D -> (0 <= c)%Z -> (forall l, In l L -> 0 <= l < c)%Z ->
  exists h' M, split ord h D c L = Ok (h', M) /\
    divided h D h' (map (fun j => where_label (Z.eqb (Z.of_nat j)) L) (seq 0 (Z.to_nat c))) M.
Proof. exact split_ok. Qed.
Print Assumptions split_by_label.

Example split_case : match split inorder three [0; 1; 2] 3 [2; 0; 2]%Z with Ok (h', M) => M = [[4]; []; [3; 5]] | _ => False end.
Proof. vm_compute. auto. Qed.

(** C46: SubtractLabel. *)
Theorem subtract_label : forall ord (Hord : visits_all ord) h (G : good_heap h) D (HD : rows_exist h D) L l,
  length L = length D ->
  exists h' Sl P T Q, subtractLabel ord h D L l = Ok (h', Sl, P, T, Q) /\
    divided h D h' [where_label (fun x => negb (Z.eqb x l)) L; where_label (fun x => Z.eqb x l) L] [Sl; T] /\
    labels_of L (where_label (fun x => negb (Z.eqb x l)) L) P /\ labels_of L (where_label (fun x => Z.eqb x l) L) Q.
Proof. exact subtractLabel_ok. Qed.
Print Assumptions subtract_label.

Example subtract_label_case : match subtractLabel inorder three [0; 1; 2] [2; 5; 2]%Z 5 with
  | Ok (_, Sl, P, T, Q) => Sl = [3; 5] /\ P = [2; 2]%Z /\ T = [4] /\ Q = [5]%Z | _ => False end.
Proof. vm_compute. auto. Qed.

(** C46: Copy. *)
Theorem copy_equal_and_new : forall ord (Hord : visits_all ord) h (G : good_heap h) D (HD : rows_exist h D) L,
  (forall l, L = Some l -> length l = length D) ->
  exists h' E, copy ord h D L = Ok (h', E, L) /\ divided h D h' [seq 0 (length D)] [E].
Proof. exact copy_ok. Qed.
Print Assumptions copy_equal_and_new.

Example copy_case : match copy backwards three [0; 2] (Some [1; 4]%Z) with Ok (h', E, L) => E = [3; 4] /\ get (mem h' 4) 0 = Some 7%Z | _ => False end.
Proof. vm_compute. auto. Qed.

(** C46: Join. *)
Theorem join_concatenates : forall ord h D E L M, visits_all ord -> good_heap h -> rows_exist h D -> rows_exist h E ->
  (forall l m, L = Some l -> M = Some m -> length l = length D /\ length m = length E) ->
  exists h' F, join ord h D E L M = Ok (h', F, match L, M with Some l, Some m => Some (l ++ m) | _, _ => None end) /\
    divided h (D ++ E) h' [seq 0 (length (D ++ E))] [F].
Proof. exact join_ok. Qed.
Print Assumptions join_concatenates.

Example join_case : match join backwards three [0] [2; 1] (Some [1]%Z) (Some [4; 5]%Z) with Ok (h', E, L) => E = [3; 4; 5] /\ L = Some [1; 4; 5]%Z /\ get (mem h' 4) 0 = Some 7%Z | _ => False end.
Proof. vm_compute. auto. Qed.

(** C46: Shuffle, for every sequence of swaps. *)
Theorem shuffle_together : forall D L swaps, (forall l, L = Some l -> length l = length D) -> (forall ij, In ij swaps -> fst ij < length D /\ snd ij < length D) ->
  exists is D' L', shuffle D L swaps = Ok (D', L') /\ Permutation is (seq 0 (length D)) /\
    Forall2 (fun i r => nth_error D i = Some r) is D' /\ match L, L' with Some l, Some l' => labels_of l is l' | None, None => True | _, _ => False end.
Proof. exact shuffle_ok. Qed.
Print Assumptions shuffle_together.

Example shuffle_case : shuffle [0; 1; 2] (Some [7; 8; 9]%Z) [(0, 1); (1, 2)] = Ok ([1; 2; 0], Some [8; 9; 7]%Z).
Proof. vm_compute. auto. Qed.

(** C46: MergeLabel then SubtractVariable. *)
Theorem merge_then_subtract : forall ord (Hord : visits_all ord) h D L v, good_heap h -> rows_exist h D -> length L = length D ->
  (forall r, In r D -> get (mem h r) v = None) ->
  exists h' T h'' E, mergeLabel ord h D L v = Ok (h', T) /\ subtractVariable ord h' T v = (h'', E) /\
    unchanged h h'' /\ newly_made h h'' E /\ Forall2 (fun r r' => meq (mem h r) (mem h'' r')) D E.
Proof. exact merge_subtract_ok. Qed.
Print Assumptions merge_then_subtract.

Example merge_case : match mergeLabel backwards three [0; 1; 2] [7; 8; 9]%Z 2 with
  | Ok (h', T) => T = [3; 4; 5] /\ get (mem h' 4) 2 = Some 8%Z /\ get (mem h' 4) 0 = Some 5%Z | _ => False end.
Proof. vm_compute. auto. Qed.

(** C47. *)
Theorem extract_inverts_merge : forall ord (Hord : visits_all ord) h D L v, good_heap h -> rows_exist h D -> length L = length D -> (0 <= v)%Z ->
  (forall r x, In r D -> In x (keys (mem h r)) -> x < v)%Z ->
  exists h' T h'' M, mergeLabel ord h D L v = Ok (h', T) /\ extractLabels ord h' T = (h'', M, L) /\
    unchanged h h'' /\ newly_made h h'' M /\ Forall2 (fun r r' => meq (mem h r) (mem h'' r')) D M.
Proof. exact extract_merge_ok. Qed.
Print Assumptions extract_inverts_merge.

Example extract_case : match mergeLabel backwards three [0; 1; 2] [7; 8; 9]%Z 2 with
  | Ok (h', T) => match extractLabels inorder h' T with (h'', M, L) => L = [7; 8; 9]%Z /\ get (mem h'' 6) 1 = Some 4%Z end | _ => False end.
Proof. vm_compute. auto. Qed.

(** C48: datasets of the same shape (same length, same variables row by row). Missing: other pairs
    (refuted below). *)
Theorem identical_partial : forall ord h D E L M, visits_all ord -> good_heap h -> length D = length E ->
  (match L, M with Some l, Some m => length l = length D /\ length m = length E | None, None => True | _, _ => False end) ->
  (Forall2 (fun r s => forall k, get (mem h r) k = None <-> get (mem h s) k = None) D E) ->
  exists b, identical ord h D E L M = Ok b /\ (b = true <-> Forall2 (fun r s => meq (mem h r) (mem h s)) D E /\ L = M).
Proof. exact identical_ok. Qed.
Print Assumptions identical_partial.

Example identical_case : identical backwards three [0; 1] [0; 1] (Some [1; 2]%Z) (Some [1; 2]%Z) = Ok true /\ identical backwards three [0; 1] [2; 1] None None = Ok false.
Proof. vm_compute. auto. Qed.

Theorem identical_refuted : exists ord h D E, visits_all ord /\ good_heap h /\ rows_exist h D /\ rows_exist h E /\ length D = length E /\
  identical ord h D E None None = Ok true /\ ~ Forall2 (fun r s => meq (mem h r) (mem h s)) D E.
Proof. exact identical_refuted_w. Qed.
Print Assumptions identical_refuted.
