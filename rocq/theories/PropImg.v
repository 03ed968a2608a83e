(** C93 to C96: folders of images turned into data and evidence, and images written. *)
From Coq Require Import Ascii String.
From Verif Require Import Base Res GoMap Text TextSpec Parse Img ImgSpec ImgLemmas ImgData ImgWrite ImgCases.
Local Open Scope string_scope.
Local Open Scope Z_scope.

(** C93: whatever PGM images a folder has, ParseData of what PGMFToData compiles gives the pixels of each image
    and its class. Refuted: two pixels with a tab between them are dropped. *)
Theorem pgm_data_refuted : exists dir w h max imgs,
  Forall2 (Forall2 (plain_pgm w h max)) imgs (classes dir) /\ List.concat imgs <> [] /\
  int64 w /\ int64 h /\ int64 (w * h) /\ int64 max /\ int64 (max + 1) /\ int64 (Z.of_nat (List.length imgs)) /\
  (forall px, In px (List.concat imgs) -> forall v, In v px -> int64 v) /\
  ~ exists out sc data, pgmFToData dir = Ok (w, h, max, out) /\ parseData (fileLines out) = Ok (sc, data) /\ Forall2 as_row (labelled 0 imgs) data.
Proof. exact pgm_tabs_refuted_l. Qed.
Print Assumptions pgm_data_refuted.

(** C93, for images in the usual layout: the rows are the images in order, each followed by its class; variable k
    has max+1 values and the last variable as many as there are classes. *)
Theorem pgm_data_partial : forall dir w h max imgs,
  Forall2 (Forall2 (pgm_text w h max)) imgs (classes dir) -> List.concat imgs <> [] ->
  int64 w -> int64 h -> int64 (w * h) -> int64 max -> int64 (max + 1) -> int64 (Z.of_nat (List.length imgs)) ->
  (forall px, In px (List.concat imgs) -> forall v, In v px -> int64 v) ->
  exists out sc data, pgmFToData dir = Ok (w, h, max, out) /\ parseData (fileLines out) = Ok (sc, data) /\
    image_vars (w * h) (max + 1) (Some (Z.of_nat (List.length imgs))) sc /\ Forall2 as_row (labelled 0 imgs) data.
Proof. exact pgm_data_l. Qed.
Print Assumptions pgm_data_partial.

(** C93: such a table assigns every variable a value that its declaration allows. *)
Theorem pgm_data_in_range : forall n cats cls imgs sc data, 0 <= n -> image_vars n cats (Some cls) sc -> cls = Z.of_nat (List.length imgs) ->
  Forall2 as_row (labelled 0 imgs) data ->
  (forall px, In px (List.concat imgs) -> Z.of_nat (List.length px) = n /\ forall v, In v px -> 0 <= v < cats) ->
  forall m, In m data -> forall k c, get sc k = Some c -> exists v, get m k = Some v /\ 0 <= v < c.
Proof. exact pgm_range_l. Qed.
Print Assumptions pgm_data_in_range.

Example pgm_data_case : Forall2 (Forall2 (pgm_text 2 2 9)) [[[1; 2; 3; 4]]; [[5; 6; 7; 8]; [1; 2; 3; 4]]] (classes folder) /\
  exists out sc data, pgmFToData folder = Ok (2, 2, 9, out) /\ parseData (fileLines out) = Ok (sc, data) /\ keys sc = [4; 3; 2; 1; 0] /\
    get sc 0 = Some 10 /\ get sc 4 = Some 2 /\
    map (fun m => map (fun k => get0 m k) [0; 1; 2; 3; 4]) data = [[1; 2; 3; 4; 0]; [5; 6; 7; 8; 1]; [1; 2; 3; 4; 1]].
Proof. exact folder_case. Qed.

(** C94: the labels in an evidence file say where each class starts. Refuted: with one image in the first class and
    two in the second. *)
Theorem evidence_labels_refuted : exists dir w h max imgs,
  Forall2 (Forall2 (tight_pgm w h max)) imgs (classes dir) /\ List.concat imgs <> [] /\
  int64 w /\ int64 h /\ int64 (w * h) /\ int64 max /\ int64 (max + 1) /\
  (forall px, In px (List.concat imgs) -> forall v, In v px -> int64 v) /\
  ~ exists out sc data, pgmFToEvidence dir = Ok (w, h, max, out) /\ parseEvidence (fileLines out) = Ok (sc, data, starts 0 imgs).
Proof. exact sizes_refuted_l. Qed.
Print Assumptions evidence_labels_refuted.

(** C94: the evidence has the pixels of the images. Refuted even for images that VarSetToPGM has written. *)
Theorem evidence_pixels_refuted : exists px st w h max f, state_of px st /\ Z.of_nat (List.length px) = w * h /\ varSetToPGM st w h max = Ok f /\
  exists out sc data, pgmFToEvidence [("a", ADir [f])] = Ok (w, h, max, out) /\ parseEvidence (fileLines out) = Ok (sc, data, [0]) /\
    ~ Forall2 as_row [px] data.
Proof. exact blanks_refuted_l. Qed.
Print Assumptions evidence_pixels_refuted.

(** C94, for classes of one size whose images have exactly one blank between numbers. *)
Theorem pgm_evidence_partial : forall dir w h max m imgs,
  Forall2 (Forall2 (tight_pgm w h max)) imgs (classes dir) -> List.concat imgs <> [] -> (forall c, In c imgs -> List.length c = m) ->
  0 < w * h -> int64 w -> int64 h -> int64 (w * h) -> int64 max -> int64 (max + 1) ->
  int64 (Z.of_nat (List.length imgs)) -> int64 (Z.of_nat (List.length (List.concat imgs))) ->
  (forall px, In px (List.concat imgs) -> forall v, In v px -> int64 v) ->
  exists out sc data, pgmFToEvidence dir = Ok (w, h, max, out) /\ parseEvidence (fileLines out) = Ok (sc, data, starts 0 imgs) /\
    image_vars (w * h) (max + 1) None sc /\ Forall2 as_row (List.concat imgs) data.
Proof. exact pgm_evidence_l. Qed.
Print Assumptions pgm_evidence_partial.

(** C94, the same for bitmaps. *)
Theorem pbm_evidence_partial : forall dir w h m imgs,
  Forall2 (Forall2 (pbm_text true w h)) imgs (classes dir) -> List.concat imgs <> [] -> (forall c, In c imgs -> List.length c = m) ->
  0 < w * h -> int64 w -> int64 h -> int64 (w * h) ->
  int64 (Z.of_nat (List.length imgs)) -> int64 (Z.of_nat (List.length (List.concat imgs))) ->
  exists out sc data, pbmFToEvidence dir = Ok out /\ parseEvidence (fileLines out) = Ok (sc, data, starts 0 imgs) /\
    image_vars (w * h) 2 None sc /\ Forall2 as_row (List.concat imgs) data.
Proof. exact pbm_evidence_l. Qed.
Print Assumptions pbm_evidence_partial.

Example evidence_case : Forall2 (Forall2 (tight_pgm 2 2 9)) [[[1; 2; 3; 4]; [1; 2; 3; 4]]; [[1; 2; 3; 4]; [1; 2; 3; 4]]] (classes evidence_folder) /\
  exists out sc data, pgmFToEvidence evidence_folder = Ok (2, 2, 9, out) /\ parseEvidence (fileLines out) = Ok (sc, data, [0; 2]) /\ keys sc = [3; 2; 1; 0] /\
    map (fun m => map (fun k => get0 m k) [0; 1; 2; 3]) data = [[1; 2; 3; 4]; [1; 2; 3; 4]; [1; 2; 3; 4]; [1; 2; 3; 4]].
Proof. exact ImgCases.evidence_case. Qed.

(** C95: bitmaps become data with their pixels and class. Refuted: a blank at the start of a line of pixels makes the
    compiled file unreadable. *)
Theorem pbm_data_refuted : exists dir w h imgs,
  Forall2 (Forall2 (pbm_text false w h)) imgs (classes dir) /\ List.concat imgs <> [] /\ int64 w /\ int64 h /\ int64 (w * h) /\
  exists out, pbmFToData dir = Ok out /\ parseData (fileLines out) = Panic.
Proof. exact margin_refuted_l. Qed.
Print Assumptions pbm_data_refuted.

(** C95: PBMToData with a class gives each image that class. Refuted: the class is not declared and so not read. *)
Theorem pbm_class_refuted : exists files w h class imgs,
  Forall2 (pbm_text true w h) imgs files /\ imgs <> [] /\ 0 < class /\ int64 class /\ 0 < w * h /\ int64 w /\ int64 h /\ int64 (w * h) /\
  ~ exists out sc data, pbmToData files class = Ok out /\ parseData (fileLines out) = Ok (sc, data) /\
      get sc (w * h) <> None /\ Forall2 as_row (map (fun px => px ++ [class])%list imgs) data.
Proof. exact class_refuted_l. Qed.
Print Assumptions pbm_class_refuted.

(** C95, for bitmaps whose lines do not start with a blank. *)
Theorem pbm_data_partial : forall dir w h imgs,
  Forall2 (Forall2 (pbm_text true w h)) imgs (classes dir) -> List.concat imgs <> [] ->
  int64 w -> int64 h -> int64 (w * h) -> int64 (Z.of_nat (List.length imgs)) ->
  exists out sc data, pbmFToData dir = Ok out /\ parseData (fileLines out) = Ok (sc, data) /\
    image_vars (w * h) 2 (Some (Z.of_nat (List.length imgs))) sc /\ Forall2 as_row (labelled 0 imgs) data.
Proof. exact pbm_data_l. Qed.
Print Assumptions pbm_data_partial.

(** C95: PBMToData gives the pixels, whatever the class. *)
Theorem pbm_pixels_partial : forall files w h class imgs,
  Forall2 (pbm_text true w h) imgs files -> imgs <> [] -> 0 < w * h -> int64 w -> int64 h -> int64 (w * h) -> int64 class ->
  exists out sc data, pbmToData files class = Ok out /\ parseData (fileLines out) = Ok (sc, data) /\
    image_vars (w * h) 2 None sc /\ Forall2 as_row imgs data.
Proof. exact pbm_one_l. Qed.
Print Assumptions pbm_pixels_partial.

Example pbm_case : Forall2 (Forall2 (pbm_text true 3 2)) [[[0; 1; 1; 1; 0; 0]]; [[0; 1; 1; 1; 0; 0]]] (classes bit_folder) /\
  (exists out sc data, pbmFToData bit_folder = Ok out /\ parseData (fileLines out) = Ok (sc, data) /\
    map (fun m => map (fun k => get0 m k) [0; 1; 2; 3; 4; 5; 6]) data = [[0; 1; 1; 1; 0; 0; 0]; [0; 1; 1; 1; 0; 0; 1]]) /\
  (exists out sc data, pbmFToEvidence bit_folder = Ok out /\ parseEvidence (fileLines out) = Ok (sc, data, [0; 1]) /\
    map (fun m => map (fun k => get0 m k) [0; 1; 2; 3; 4; 5]) data = [[0; 1; 1; 1; 0; 0]; [0; 1; 1; 1; 0; 0]]).
Proof. exact bit_case. Qed.

(** C96: VarSetToPPM writes a raw PPM image. Refuted, and false of every image with pixels. *)
Theorem ppm_writer_refuted : exists px st w h max s, state_of px st /\ Z.of_nat (List.length px) = w * h /\ 0 < w /\ 0 < h /\
  (forall v, In v px -> 0 <= v <= max) /\ varSetToPPM st w h max = Ok s /\ ~ raw_ppm w h max s.
Proof. exact ppm_refuted_l. Qed.
Print Assumptions ppm_writer_refuted.
Theorem ppm_writer_never : forall px st w h max s, state_of px st -> px <> [] -> Z.of_nat (List.length px) = w * h ->
  varSetToPPM st w h max = Ok s -> ~ raw_ppm w h max s.
Proof. exact ppm_never_l. Qed.
Print Assumptions ppm_writer_never.

(** C96: VarSetToPGM writes an image with the values of a state, whatever the order of the map. *)
Theorem pgm_writer_partial : forall px st w h max, state_of px st -> 0 < w -> 0 <= h -> Z.of_nat (List.length px) = w * h ->
  exists s, varSetToPGM st w h max = Ok s /\ pgm_text w h max px s.
Proof. exact pgm_writer_l. Qed.
Print Assumptions pgm_writer_partial.
(** C96: a state whose variables are not 0, 1, ... makes it panic. *)
Theorem pgm_writer_gap : forall st w h max k, In k (keys st) -> k < 0 \/ Z.of_nat (List.length st) <= k -> varSetToPGM st w h max = Panic.
Proof. exact pgm_writer_panic_l. Qed.
Print Assumptions pgm_writer_gap.
(** C96: VarSetToPBM writes a bitmap with the values of a state. *)
Theorem pbm_writer_partial : forall px st w h, state_of px st -> (forall v, In v px -> v = 0 \/ v = 1) -> 0 <= w -> 0 <= h -> Z.of_nat (List.length px) = w * h ->
  exists s, varSetToPBM st w h = Ok s /\ pbm_text true w h px s.
Proof. exact pbm_writer_l. Qed.
Print Assumptions pbm_writer_partial.

(** C96: images written by VarSetToPGM, compiled by PGMFToData and read by ParseData are the states again. *)
Theorem pgm_round_trip_partial : forall dir w h max imgs,
  Forall2 (Forall2 (fun px f => exists st, state_of px st /\ varSetToPGM st w h max = Ok f)) imgs (classes dir) -> List.concat imgs <> [] ->
  0 < w -> 0 <= h -> int64 w -> int64 h -> int64 (w * h) -> int64 max -> int64 (max + 1) -> int64 (Z.of_nat (List.length imgs)) ->
  (forall px, In px (List.concat imgs) -> Z.of_nat (List.length px) = w * h /\ forall v, In v px -> int64 v) ->
  exists out sc data, pgmFToData dir = Ok (w, h, max, out) /\ parseData (fileLines out) = Ok (sc, data) /\
    image_vars (w * h) (max + 1) (Some (Z.of_nat (List.length imgs))) sc /\ Forall2 as_row (labelled 0 imgs) data.
Proof. exact round_trip_l. Qed.
Print Assumptions pgm_round_trip_partial.
Theorem pbm_round_trip_partial : forall dir w h imgs,
  Forall2 (Forall2 (fun px f => exists st, state_of px st /\ varSetToPBM st w h = Ok f)) imgs (classes dir) -> List.concat imgs <> [] ->
  0 <= w -> 0 <= h -> int64 w -> int64 h -> int64 (w * h) -> int64 (Z.of_nat (List.length imgs)) ->
  (forall px, In px (List.concat imgs) -> Z.of_nat (List.length px) = w * h /\ forall v, In v px -> v = 0 \/ v = 1) ->
  exists out sc data, pbmFToData dir = Ok out /\ parseData (fileLines out) = Ok (sc, data) /\
    image_vars (w * h) 2 (Some (Z.of_nat (List.length imgs))) sc /\ Forall2 as_row (labelled 0 imgs) data.
Proof. exact pbm_round_trip_l. Qed.
Print Assumptions pbm_round_trip_partial.

Example writer_case : state_of [1; 2; 3; 4] stateA /\
  varSetToPGM stateA 2 2 9 = Ok ("P2" ++ nl ++ "2 2" ++ nl ++ "9" ++ nl ++ "1 " ++ nl ++ "2 3 " ++ nl ++ "4 ") /\
  varSetToPGM [(1, 5); (4, 6)] 1 2 9 = Panic.
Proof. exact ImgCases.writer_case. Qed.
