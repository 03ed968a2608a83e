(** C99, C100: image completion jobs. *)
From Coq Require Import Ascii String.
From Verif Require Import Base Res GoMap TextSpec Misc ImgCmpl Conc Jobs JobsSpec JobsLemmas JobsCases.
Local Open Scope string_scope.
Local Open Scope Z_scope.

(** C99, for every data set, learner, number of processors and schedule: when ImgCompletion returns, the file of
    each instance and orientation shows that instance, completed by the network learned from the instances with
    other labels. *)
Theorem completion_files : forall learn rows w h max n m s id row l v,
  1 <= n -> completionSteps learn rows w h max n m s -> jobsDone s -> nth_error rows id = Some (row, l) ->
  exists cmpl half, halfImg (learn id (othersOf rows l)) row v w h = Ok (cmpl, half) /\
    lookup (disk s) (instanceFile id v) = Some (imgCmplToPGM half cmpl v (Z.of_nat w) (Z.of_nat h) max).
Proof. exact completion_files_l. Qed.
Print Assumptions completion_files.

(** C99: at any moment, there are no other files. *)
Theorem completion_only : forall learn rows w h max n m s nm,
  completionSteps learn rows w h max n m s -> lookup (disk s) nm <> None ->
  exists id v, (id < List.length rows)%nat /\ nm = instanceFile id v.
Proof. exact completion_only_l. Qed.
Print Assumptions completion_only.

(** C99: if completing does not panic, every execution can be continued to the end, *)
Theorem completion_returns : forall learn rows w h max n m s, 1 <= n ->
  (forall id row l v, nth_error rows id = Some (row, l) -> exists r, halfImg (learn id (othersOf rows l)) row v w h = Ok r) ->
  completionSteps learn rows w h max n m s -> exists m' s', completionSteps learn rows w h max n (m' + m) s' /\ jobsDone s'.
Proof. exact completion_progress_l. Qed.
Print Assumptions completion_returns.
(** and there are no infinite ones. *)
Theorem completion_finite : forall learn rows w h max n m s,
  completionSteps learn rows w h max n m s -> (m <= 28 * List.length rows + 12)%nat.
Proof. exact completion_bound_l. Qed.
Print Assumptions completion_finite.

(** C99 fails for ImgTestParallel, whose goroutines take the number in the name from the variable of the loop that
    starts them: no instance has a file of its own, and the completion of the first one is in no file. *)
Theorem parallel_files_refuted : exists learn rows w h max n m s,
  1 <= n /\ parallelSteps learn rows w h max n m s /\ jobsDone s /\
  (forall id v, (id < List.length rows)%nat -> lookup (disk s) (quadrantFile id v) = None) /\
  exists row l cmpl half, nth_error rows 0 = Some (row, l) /\ halfImg (learn 0%nat (allBut rows 0)) row Top w h = Ok (cmpl, half) /\
    forall nm, lookup (disk s) nm <> Some (imgCmplToPGM half cmpl Top (Z.of_nat w) (Z.of_nat h) max).
Proof. exact parallel_refuted_l. Qed.
Print Assumptions parallel_files_refuted.
(** What holds: every file shows the completion of some instance, trained on all the others, with a number from
    that of the instance to the number of instances. *)
Theorem parallel_files_partial : forall learn rows w h max n m s nm c,
  parallelSteps learn rows w h max n m s -> lookup (disk s) nm = Some c ->
  exists id row l v k cmpl half, nth_error rows id = Some (row, l) /\ halfImg (learn id (allBut rows id)) row v w h = Ok (cmpl, half) /\
    c = imgCmplToPGM half cmpl v (Z.of_nat w) (Z.of_nat h) max /\ nm = quadrantFile k v /\ (id <= k <= List.length rows)%nat.
Proof. exact parallel_files_l. Qed.
Print Assumptions parallel_files_partial.

Example completion_case : exists m s, completionSteps same twoRows 1 1 8 2 m s /\ jobsDone s /\
  lookup (disk s) "cmpl_0-TOP.pgm" = Some (imgCmplToPGM [(0, 1)] [] Top 1 1 8) /\
  lookup (disk s) "cmpl_1-TOP.pgm" = Some (imgCmplToPGM [(0, 5)] [] Top 1 1 8) /\
  lookup (disk s) "cmpl_1-BOTTOM.pgm" = Some (imgCmplToPGM [] [] Bottom 1 1 8).
Proof. exact completion_case_l. Qed.

(** C100 fails: ImgTest draws the line for the left half whatever half it completed. *)
Theorem imgTest_picture_refuted : exists learn rows w h max d row l cmpl half,
  imgTest learn rows w h max = Ok d /\ nth_error rows 0 = Some (row, l) /\
  halfImg (learn 0%nat (allBut rows 0)) row Top w h = Ok (cmpl, half) /\ cmpl <> [] /\ half <> [] /\
  exists c, lookup d (quadrantFile 0 Top) = Some c /\ c <> imgCmplToPGM half cmpl Top (Z.of_nat w) (Z.of_nat h) max.
Proof. exact imgTest_refuted_l. Qed.
Print Assumptions imgTest_picture_refuted.
(** C100, what holds: the file of each instance and quadrant has both parts of that instance, completed by the network
    learned from all the others, in the layout of the left half, *)
Theorem imgTest_files_partial : forall learn rows w h max d id row l v,
  imgTest learn rows w h max = Ok d -> nth_error rows id = Some (row, l) ->
  exists cmpl half, halfImg (learn id (allBut rows id)) row v w h = Ok (cmpl, half) /\
    lookup d (quadrantFile id v) = Some (imgCmplToPGM half cmpl Left (Z.of_nat w) (Z.of_nat h) max).
Proof. exact imgTest_files_l. Qed.
Print Assumptions imgTest_files_partial.
(** there are no other files, *)
Theorem imgTest_only : forall learn rows w h max d nm, imgTest learn rows w h max = Ok d -> lookup d nm <> None ->
  exists id v, (id < List.length rows)%nat /\ nm = quadrantFile id v.
Proof. exact imgTest_only_l. Qed.
Print Assumptions imgTest_only.
(** and it returns if completing does not panic. *)
Theorem imgTest_returns : forall learn rows w h max,
  (forall id row l v, nth_error rows id = Some (row, l) -> exists r, halfImg (learn id (allBut rows id)) row v w h = Ok r) ->
  exists d, imgTest learn rows w h max = Ok d.
Proof. exact imgTest_total_l. Qed.
Print Assumptions imgTest_returns.

Example imgTest_case : exists d, imgTest fillTop [(square, 0)] 2 2 8 = Ok d /\
  lookup d "cmpl_LEFT_0.pgm" = Some (imgCmplToPGM [(1, 2); (3, 4)] [(0, 7); (2, 7)] Left 2 2 8).
Proof. eexists. split; vm_compute; reflexivity. Qed.
