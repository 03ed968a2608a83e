(** C98: the concurrent conversion of a folder of images. *)
From Coq Require Import Ascii String.
From Verif Require Import Base Res GoMap TextSpec Text Parse Conc Img ImgSpec ImgConc ImgConcSpec ImgConcLemmas ImgConcData ImgCases.
Local Open Scope string_scope.
Local Open Scope Z_scope.

(** C98, for every folder, number of processors and schedule: when BufferedPGMFToData returns, its file has the
    lines of the file of PGMFToData, none broken up, in some order. *)
Theorem buffered_same_lines : forall dir w h max head rest n m s, bufferedHead dir = Ok (w, h, max, head, rest) -> 1 <= n ->
  bsteps n rest m (binitial rest head) s -> returned s ->
  exists text tail, pgmFToData dir = Ok (w, h, max, text) /\ out s = head ++ tail /\ Permutation (fileLines text) (fileLines (out s)).
Proof. exact buffered_same_l. Qed.
Print Assumptions buffered_same_lines.

(** C98: it panics for the same folders, those without files. *)
Theorem buffered_panics : forall dir, bufferedHead dir = Panic <-> pgmFToData dir = Panic.
Proof. exact buffered_panics_l. Qed.
Print Assumptions buffered_panics.

(** C98, for images in the usual layout: ParseData gives the images and classes, in some order. *)
Theorem buffered_data : forall dir w h max imgs n,
  Forall2 (Forall2 (pgm_text w h max)) imgs (classes dir) -> List.concat imgs <> [] ->
  int64 w -> int64 h -> int64 (w * h) -> int64 max -> int64 (max + 1) -> int64 (Z.of_nat (List.length imgs)) ->
  (forall px, In px (List.concat imgs) -> forall v, In v px -> int64 v) -> 1 <= n ->
  exists head rest, bufferedHead dir = Ok (w, h, max, head, rest) /\
    forall m s, bsteps n rest m (binitial rest head) s -> returned s ->
    exists sc data rows, parseData (fileLines (out s)) = Ok (sc, data) /\ image_vars (w * h) (max + 1) (Some (Z.of_nat (List.length imgs))) sc /\
      Permutation (labelled 0 imgs) rows /\ Forall2 as_row rows data.
Proof. exact buffered_data_l. Qed.
Print Assumptions buffered_data.

(** C98: it never deadlocks, *)
Theorem buffered_no_deadlock : forall n files head m s, 1 <= n -> bsteps n files m (binitial files head) s ->
  returned s \/ exists s', bstep n files s s'.
Proof. exact buffered_progress_l. Qed.
Print Assumptions buffered_no_deadlock.
(** every execution is finite, *)
Theorem buffered_finite : forall dir w h max head rest, bufferedHead dir = Ok (w, h, max, head, rest) ->
  exists bound, forall n m s, bsteps n rest m (binitial rest head) s -> (m <= bound)%nat.
Proof. exact buffered_bound_l. Qed.
Print Assumptions buffered_finite.
(** and can be continued until it returns. *)
Theorem buffered_returns : forall n files head m s, 1 <= n -> bsteps n files m (binitial files head) s ->
  exists m' s', bsteps n files m' s s' /\ returned s'.
Proof. exact buffered_ends_l. Qed.
Print Assumptions buffered_returns.

(** C98: the order of the rows is not that of PGMFToData; the statement with equal files would be false. *)
Theorem buffered_order_refuted : exists dir w h max head rest n m s text, bufferedHead dir = Ok (w, h, max, head, rest) /\ 1 <= n /\
  bsteps n rest m (binitial rest head) s /\ returned s /\ pgmFToData dir = Ok (w, h, max, text) /\ out s <> text.
Proof. exact order_differs_l. Qed.
Print Assumptions buffered_order_refuted.

Example buffered_case : Forall2 (Forall2 (pgm_text 1 1 9)) [[[1]; [2]]; [[3]]] (classes dots) /\
  bufferedHead dots = Ok (1, 1, 9, "var 0 10" ++ nl ++ "var 1 2" ++ nl ++ "1 0" ++ nl, rest2) /\
  exists m s, bsteps 2 rest2 m (binitial rest2 ("var 0 10" ++ nl ++ "var 1 2" ++ nl ++ "1 0" ++ nl)) s /\ returned s /\
    out s = "var 0 10" ++ nl ++ "var 1 2" ++ nl ++ "1 0" ++ nl ++ "3 1" ++ nl ++ "2 0" ++ nl.
Proof. exact dots_case. Qed.
