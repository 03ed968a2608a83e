(** Witnesses for the image files. *)
From Coq Require Import Ascii String.
From Verif Require Import Base Res GoMap Misc MiscSpec Text TextSpec TextLemmas Parse Img ImgSpec ImgLemmas ImgData ImgWrite ImgCmpl ImgCmplSpec ImgCmplLemmas.
Local Open Scope string_scope.
Local Open Scope Z_scope.

(** The words of a text. *)
Lemma white_space c : white c -> isSpace c = true.
Proof. intros [<-|[<-|[<-|[<-|[]]]]]; reflexivity. Qed.
Lemma fields_white s t : whites s -> fields (s ++ t) = fields t.
Proof.
  induction s as [|c s IH]; auto. intros (Hc & Hs). rewrite <- (IH Hs). unfold fields, fieldsFunc. cbn [append fieldsAcc].
  rewrite white_space by auto. destruct (fieldsAcc isSpace (s ++ t)) as (h & r). destruct h; auto.
Qed.
Lemma fieldsAcc_word x t : allChars (fun c => isSpace c = false) x -> fieldsAcc isSpace (x ++ t) = (x ++ fst (fieldsAcc isSpace t), snd (fieldsAcc isSpace t)).
Proof.
  induction x as [|c x IH]; intros H; [cbn [append]; destruct (fieldsAcc isSpace t); auto|]. destruct H as (Hc & Hx). cbn [append fieldsAcc]. rewrite (IH Hx), Hc. auto.
Qed.
Definition word (x : string) : Prop := x <> "" /\ allChars (fun c => isSpace c = false) x.
Lemma words_fields xs s : words xs s -> (forall x, In x xs -> word x) -> fields s = xs.
Proof.
  induction 1 as [s Hs|s x Hs|s x xs c t Hs Hc Hw IH]; intros Hx.
  - rewrite <- (append_nil s), fields_white by auto. reflexivity.
  - rewrite fields_white by auto. destruct (Hx x (or_introl eq_refl)) as (Hne & Hch). unfold fields, fieldsFunc. rewrite <- (append_nil x) at 1.
    rewrite fieldsAcc_word by auto. cbn [fieldsAcc fst snd]. rewrite append_nil. destruct x; [congruence|auto].
  - rewrite fields_white by auto. specialize (IH ltac:(intros; apply Hx; right; auto)). destruct (Hx x (or_introl eq_refl)) as (Hne & Hch).
    unfold fields, fieldsFunc in *. rewrite fieldsAcc_word by auto. cbn [fieldsAcc fst snd] in *. rewrite (white_space c Hc) in *.
    destruct (fieldsAcc isSpace t) as (h & r). cbn [fst snd] in *. rewrite append_nil. rewrite IH. destruct x; [congruence|auto].
Qed.
Lemma word_numeral z : word (numeral z).
Proof.
  split; [apply numeral_nonempty|]. eapply allChars_impl; [|apply numeral_chars]. intros c [H| ->]; [apply digit_not_space; auto|reflexivity].
Qed.
Lemma word_magic : word "P2" /\ word "P3".
Proof. split; (split; [discriminate|cbn; auto]). Qed.
Lemma ppm_fields w h max px s : plain_ppm w h max px s -> fields s = "P3" :: map numeral (w :: h :: max :: flat_map (fun '(r, g, b) => [r; g; b]) px).
Proof.
  intros (H & _). apply words_fields; auto. intros x [<-|Hx]; [apply word_magic|]. apply in_map_iff in Hx as (z & <- & _). apply word_numeral.
Qed.
Lemma numeral_inj a b : numeral a = numeral b -> a = b.
Proof.
  intros E. destruct (numeral_shape a) as (na & da & Ea & Ha & Ca & Va & Sa). destruct (numeral_shape b) as (nb & db & Eb & Hb & Cb & Vb & Sb).
  rewrite Ea, Eb in E. destruct na, nb.
  - injection E as ->. lia.
  - subst db. destruct Cb as (Cb & _). exfalso. apply Cb. reflexivity.
  - subst da. destruct Ca as (Ca & _). exfalso. apply Ca. reflexivity.
  - subst db. lia.
Qed.
Lemma map_numeral_inj l : forall m, map numeral l = map numeral m -> l = m.
Proof. induction l as [|a l IH]; intros [|b m]; try discriminate; auto. cbn [map]. intros E. injection E as E1 E2. f_equal; [apply numeral_inj; auto|auto]. Qed.
Lemma colors_inj (l : list (Z * Z * Z)) : forall m, flat_map (fun '(r, g, b) => [r; g; b]) l = flat_map (fun '(r, g, b) => [r; g; b]) m -> l = m.
Proof.
  induction l as [|[[r g] b] l IH]; intros [|[[r' g'] b'] m]; try discriminate; auto. cbn [flat_map app]. intros E. injection E as -> -> -> E. f_equal. auto.
Qed.
Lemma ppm_unique w h max px s w' h' max' px' : plain_ppm w h max px s -> plain_ppm w' h' max' px' s -> px = px'.
Proof.
  intros H1 H2. apply ppm_fields in H1, H2. rewrite H1 in H2. injection H2 as _ _ _ H2. apply colors_inj, map_numeral_inj. auto.
Qed.

(** A folder of two classes. *)
Definition nl : string := newline.
Definition fileA : string := "P2" ++ nl ++ "2 2" ++ nl ++ "9" ++ nl ++ "1 2" ++ nl ++ "3 4" ++ nl.
Definition fileB : string := "P2" ++ nl ++ "2  2" ++ nl ++ " 9" ++ nl ++ "5 6 7 " ++ nl ++ " 8".
Definition folder : listing :=
  [("compiled", ADir ["x"]); ("readme", AFile); ("cats", ADir [fileA]); ("notes", AFile); ("dogs", ADir [fileB; fileA])].
Ltac ln := cbn [one_line]; repeat split; discriminate.
Lemma fileA_pgm : tight_pgm 2 2 9 [1; 2; 3; 4] fileA.
Proof.
  exists "2 2", "9", [[1; 2]; [3; 4]], ["1 2"; "3 4"]. split.
  - do 5 (apply fl_line with (e := nl); [ln|left; reflexivity|]). constructor.
  - split; [apply (num_next "" 2 [2] "2"); [exact Logic.I|apply (num_last " " 2); cbn; auto]|].
    split; [apply (num_last "" 9); exact Logic.I|]. split; [|repeat split; auto; lia].
    constructor; [exists 1, [2]; auto|]. constructor; [exists 3, [4]; auto|constructor].
Qed.
Lemma tight_number vs line : tight_line vs line -> number_line vs line.
Proof.
  intros (v & t & -> & ->). revert v. assert (G : forall s v, blanks s -> number_line (v :: t) (s ++ numeral v ++ spaced t)).
  { induction t as [|z t IH]; intros s v Hs.
    - cbn [spaced]. rewrite append_nil. constructor. auto.
    - cbn [spaced]. apply (num_next s v (z :: t) (numeral z ++ spaced t)); auto. apply (IH " "). cbn; auto. }
  intros v. apply (G ""). exact Logic.I.
Qed.
Lemma tight_text w h max px s : tight_pgm w h max px s -> pgm_text w h max px s.
Proof.
  intros (lw & lm & chunks & body & H1 & H2 & H3 & H4 & H5). exists lw, lm, chunks, body. repeat split; auto; try apply H5.
  clear - H4. induction H4; constructor; auto. apply tight_number; auto.
Qed.
Lemma fileB_pgm : pgm_text 2 2 9 [5; 6; 7; 8] fileB.
Proof.
  exists "2  2", " 9", [[5; 6; 7]; [8]], ["5 6 7 "; " 8"]. split.
  - do 4 (apply fl_line with (e := nl); [ln|left; reflexivity|]). constructor; [ln|discriminate].
  - split; [apply (num_next "" 2 [2] " 2"); [exact Logic.I|apply (num_last "  " 2); cbn; auto]|].
    split; [apply (num_last " " 9); cbn; auto|]. split; [|repeat split; auto; lia].
    constructor; [|constructor; [apply (num_last " " 8); cbn; auto|constructor]].
    apply (num_next "" 5 [6; 7] "6 7 "); [exact Logic.I|]. apply (num_next " " 6 [7] "7 "); [cbn; auto|]. apply (num_next " " 7 [] ""); [cbn; auto|].
    constructor. cbn; auto.
Qed.
Lemma folder_hyp : Forall2 (Forall2 (pgm_text 2 2 9)) [[[1; 2; 3; 4]]; [[5; 6; 7; 8]; [1; 2; 3; 4]]] (classes folder).
Proof. repeat constructor; try apply fileB_pgm; apply tight_text, fileA_pgm. Qed.

(** The same image, with a tab between two pixels. *)
Definition fileT : string := "P2" ++ nl ++ "2 2" ++ nl ++ "9" ++ nl ++ "1" ++ String "009" "2" ++ nl ++ "3 4" ++ nl.
Lemma fileT_pgm : plain_pgm 2 2 9 [1; 2; 3; 4] fileT.
Proof.
  split; [|repeat split; lia]. unfold fileT.
  apply (words_next "" "P2" _ "010"); [exact Logic.I|cbn; auto|]. apply (words_next nl "2" _ " "); [cbn; auto|cbn; auto|].
  apply (words_next " " "2" _ "010"); [cbn; auto|cbn; auto|]. apply (words_next nl "9" _ "010"); [cbn; auto|cbn; auto|].
  apply (words_next nl "1" _ "009"); [cbn; auto|cbn; auto|]. apply (words_next (String "009" "") "2" _ "010"); [cbn; auto|cbn; auto|].
  apply (words_next nl "3" _ " "); [cbn; auto|cbn; auto|]. apply (words_next " " "4" _ "010"); [cbn; auto|cbn; auto|]. constructor. cbn; auto.
Qed.
Ltac i64 := solve [unfold int64; simpl; lia | discriminate | lia].
Ltac conj := lazymatch goal with |- _ /\ _ => split; [try i64|conj] | _ => idtac end.
Lemma pgm_tabs_refuted_l : exists dir w h max imgs,
  Forall2 (Forall2 (plain_pgm w h max)) imgs (classes dir) /\ List.concat imgs <> [] /\
  int64 w /\ int64 h /\ int64 (w * h) /\ int64 max /\ int64 (max + 1) /\ int64 (Z.of_nat (List.length imgs)) /\
  (forall px, In px (List.concat imgs) -> forall v, In v px -> int64 v) /\
  ~ exists out sc data, pgmFToData dir = Ok (w, h, max, out) /\ parseData (fileLines out) = Ok (sc, data) /\ Forall2 as_row (labelled 0 imgs) data.
Proof.
  exists [("a", ADir [fileT])], 2, 2, 9, [[[1; 2; 3; 4]]]. conj.
  - constructor; [|constructor]. constructor; [apply fileT_pgm|constructor].
  - intros px [<-|[]] v Hv. simpl in Hv. unfold int64. lia.
  - intros (out & sc & data & E & Ep & _). injection E as <-. vm_compute in Ep. discriminate.
Qed.

(** Evidence: classes of different sizes. *)
Lemma sizes_refuted_l : exists dir w h max imgs,
  Forall2 (Forall2 (tight_pgm w h max)) imgs (classes dir) /\ List.concat imgs <> [] /\
  int64 w /\ int64 h /\ int64 (w * h) /\ int64 max /\ int64 (max + 1) /\
  (forall px, In px (List.concat imgs) -> forall v, In v px -> int64 v) /\
  ~ exists out sc data, pgmFToEvidence dir = Ok (w, h, max, out) /\ parseEvidence (fileLines out) = Ok (sc, data, starts 0 imgs).
Proof.
  exists [("a", ADir [fileA]); ("b", ADir [fileA; fileA])], 2, 2, 9, [[[1; 2; 3; 4]]; [[1; 2; 3; 4]; [1; 2; 3; 4]]].
  conj.
  - repeat constructor; apply fileA_pgm.
  - intros px Hpx v Hv. simpl in Hpx. destruct Hpx as [<-|[<-|[<-|[]]]]; simpl in Hv; unfold int64; lia.
  - intros (out & sc & data & E & Ep). injection E as <-. vm_compute in Ep. discriminate.
Qed.
(** Evidence: the images that VarSetToPGM writes. *)
Definition stateA : gmap := [(2, 3); (0, 1); (3, 4); (1, 2)].
Lemma stateA_state : state_of [1; 2; 3; 4] stateA.
Proof.
  split; [repeat constructor; simpl; intuition lia|]. intros j. unfold stateA. cbn [get].
  destruct (Z.ltb_spec j 0).
  - repeat match goal with |- context [?a =? j] => destruct (Z.eqb_spec a j); [lia|] end. auto.
  - destruct (Z.eqb_spec 2 j) as [<-|]; [auto|]. destruct (Z.eqb_spec 0 j) as [<-|]; [auto|]. destruct (Z.eqb_spec 3 j) as [<-|]; [auto|].
    destruct (Z.eqb_spec 1 j) as [<-|]; [auto|]. symmetry. apply nth_error_None. simpl. lia.
Qed.
Lemma blanks_refuted_l : exists px st w h max f, state_of px st /\ Z.of_nat (List.length px) = w * h /\ varSetToPGM st w h max = Ok f /\
  exists out sc data, pgmFToEvidence [("a", ADir [f])] = Ok (w, h, max, out) /\ parseEvidence (fileLines out) = Ok (sc, data, [0]) /\
    ~ Forall2 as_row [px] data.
Proof.
  exists [1; 2; 3; 4], stateA, 2, 2, 9. eexists. split; [apply stateA_state|]. split; [auto|]. split; [vm_compute; reflexivity|].
  do 3 eexists. split; [vm_compute; reflexivity|]. split; [vm_compute; reflexivity|].
  intros H. inversion H as [|? ? ? ? H1]; subst. specialize (H1 1). vm_compute in H1. discriminate.
Qed.

(** Bitmaps. *)
Definition bitA : string := "P1" ++ nl ++ "3 2" ++ nl ++ "0 1 1" ++ nl ++ "100" ++ nl.
Definition bitB : string := "P1" ++ nl ++ "3 2" ++ nl ++ " 0 1 1" ++ nl ++ " 1 0 0" ++ nl.
Lemma bit_sizes : number_line [3; 2] "3 2".
Proof. apply (num_next "" 3 [2] "2"); [exact Logic.I|apply (num_last " " 2); cbn; auto]. Qed.
Lemma bitA_pbm : pbm_text true 3 2 [0; 1; 1; 1; 0; 0] bitA.
Proof.
  exists "3 2", [[0; 1; 1]; [1; 0; 0]], ["0 1 1"; "100"]. split.
  - do 4 (apply fl_line with (e := nl); [ln|left; reflexivity|]). constructor.
  - split; [apply bit_sizes|]. split; [|split; [|repeat split; auto; lia]].
    + repeat constructor.
    + intros _. constructor; [|constructor; [|constructor]]; intros c t E; injection E as <- <-; split; discriminate.
Qed.
Lemma bitB_pbm : pbm_text false 3 2 [0; 1; 1; 1; 0; 0] bitB.
Proof.
  exists "3 2", [[0; 1; 1]; [1; 0; 0]], [" 0 1 1"; " 1 0 0"]. split.
  - do 4 (apply fl_line with (e := nl); [ln|left; reflexivity|]). constructor.
  - split; [apply bit_sizes|]. split; [|split; [discriminate|repeat split; auto; lia]].
    repeat constructor.
Qed.
Lemma margin_refuted_l : exists dir w h imgs,
  Forall2 (Forall2 (pbm_text false w h)) imgs (classes dir) /\ List.concat imgs <> [] /\ int64 w /\ int64 h /\ int64 (w * h) /\
  exists out, pbmFToData dir = Ok out /\ parseData (fileLines out) = Panic.
Proof.
  exists [("a", ADir [bitB])], 3, 2, [[[0; 1; 1; 1; 0; 0]]]. conj.
  - constructor; [|constructor]. constructor; [apply bitB_pbm|constructor].
  - eexists. split; [vm_compute; reflexivity|]. vm_compute. reflexivity.
Qed.
Lemma class_refuted_l : exists files w h class imgs,
  Forall2 (pbm_text true w h) imgs files /\ imgs <> [] /\ 0 < class /\ int64 class /\ 0 < w * h /\ int64 w /\ int64 h /\ int64 (w * h) /\
  ~ exists out sc data, pbmToData files class = Ok out /\ parseData (fileLines out) = Ok (sc, data) /\
      get sc (w * h) <> None /\ Forall2 as_row (map (fun px => px ++ [class])%list imgs) data.
Proof.
  exists [bitA], 3, 2, 1, [[0; 1; 1; 1; 0; 0]]. conj.
  - constructor; [apply bitA_pbm|constructor].
  - intros (out & sc & data & E & Ep & Hs & _). injection E as <-. vm_compute in Ep. injection Ep as <- <-. apply Hs. reflexivity.
Qed.

(** Colour files. *)
Lemma ppm_refuted_l : exists px st w h max s, state_of px st /\ Z.of_nat (List.length px) = w * h /\ 0 < w /\ 0 < h /\
  (forall v, In v px -> 0 <= v <= max) /\ varSetToPPM st w h max = Ok s /\ ~ raw_ppm w h max s.
Proof.
  exists [1; 2; 3; 4], stateA, 2, 2, 9. eexists. split; [apply stateA_state|]. split; [auto|]. split; [lia|]. split; [lia|]. split; [simpl; intros; lia|].
  split; [vm_compute; reflexivity|]. eapply ppm_never_l; [apply stateA_state|discriminate|auto|vm_compute; reflexivity].
Qed.

(** The line of a completion. *)
Lemma cmpl_odd_refuted_l : exists orig cmpl typ (w h : nat) max,
  (forall p, pixel w h p -> get orig p = None <-> region typ w h p) /\ (forall p, pixel w h p -> get cmpl p <> None <-> region typ w h p) /\
  ~ exists px, plain_ppm (full_width typ (Z.of_nat w)) (full_height typ (Z.of_nat h)) (max - 1) px (imgCmplToPGM orig cmpl typ (Z.of_nat w) (Z.of_nat h) max) /\
    exists s, forall x y, off_line typ (Z.of_nat w) (Z.of_nat h) s x y ->
      (completed_side typ s x y -> exists u, pixel_at (full_width typ (Z.of_nat w)) px x y = Some (0, u, 0)) /\
      (~ completed_side typ s x y -> exists v, pixel_at (full_width typ (Z.of_nat w)) px x y = Some (v, v, v)).
Proof.
  exists [(1, 5); (2, 6)], [(0, 4)], Top, 1%nat, 3%nat, 256. split; [|split].
  - intros p Hp. unfold pixel in Hp. cbn [Nat.mul Nat.add] in Hp. unfold region. cbn [Z.of_nat Pos.of_succ_nat Pos.succ]. rewrite Z.div_1_r. change (3 / 2) with 1.
    cbn [get]. destruct (Z.eqb_spec 1 p); [split; [discriminate|lia]|]. destruct (Z.eqb_spec 2 p); [split; [discriminate|lia]|]. split; auto. lia.
  - intros p Hp. unfold pixel in Hp. cbn [Nat.mul Nat.add] in Hp. unfold region. cbn [Z.of_nat Pos.of_succ_nat Pos.succ]. rewrite Z.div_1_r. change (3 / 2) with 1.
    cbn [get]. destruct (Z.eqb_spec 0 p); [split; [lia|discriminate]|]. split; [congruence|lia].
  - intros (px & Hp & s & Hs).
    destruct (cmpl_pgm_l [(1, 5); (2, 6)] [(0, 4)] Top 1 3 256 ltac:(lia) ltac:(lia)) as (px0 & Hp0 & Hr & _).
    assert (px = px0) by (eapply ppm_unique; eauto). subst px0. specialize (Hr (or_introl eq_refl)). clear Hp Hp0.
    destruct (Z.eq_dec s 2) as [->|Hne].
    + destruct (Hs 0 1) as (H & _); [cbn; lia|]. destruct (H ltac:(cbn; lia)) as (u & E). change (full_width Top (Z.of_nat 1)) with 1 in E.
      rewrite Hr in E by lia. vm_compute in E. discriminate.
    + destruct (Hs 0 2) as (H1 & H2); [cbn; lia|]. change (full_width Top (Z.of_nat 1)) with 1 in *.
      rewrite Hr in H1, H2 by lia. destruct (Z_lt_dec 2 s).
      * destruct (H1 ltac:(cbn; lia)) as (u & E). vm_compute in E. discriminate.
      * destruct (H2 ltac:(cbn; lia)) as (u & E). vm_compute in E. injection E as E1 E2. congruence.
Qed.
Lemma cmpl_max_refuted_l : exists orig cmpl typ w h max, 0 < w /\ 0 < h /\
  (forall p v, get orig p = Some v \/ get cmpl p = Some v -> 0 <= v < max) /\
  ~ exists px, plain_ppm (full_width typ w) (full_height typ h) (max - 1) px (imgCmplToPGM orig cmpl typ w h max) /\ within (max - 1) px.
Proof.
  exists [(1, 5)], [(0, 4)], Top, 1, 2, 8. split; [lia|]. split; [lia|]. split.
  - intros p v. cbn [get]. destruct (1 =? p), (0 =? p); intros [H|H]; try discriminate; injection H as <-; lia.
  - intros (px & Hp & Hw).
    destruct (cmpl_pgm_l [(1, 5)] [(0, 4)] Top 1 2 8 ltac:(lia) ltac:(lia)) as (px0 & Hp0 & Hr & _).
    assert (px = px0) by (eapply ppm_unique; eauto). subst px0. specialize (Hr (or_introl eq_refl) 0 1 ltac:(lia) ltac:(lia)).
    apply nth_error_In in Hr. vm_compute in Hr. apply Hw in Hr. lia.
Qed.

(** Cases that meet the hypotheses of the positive theorems. *)
Lemma folder_case : Forall2 (Forall2 (pgm_text 2 2 9)) [[[1; 2; 3; 4]]; [[5; 6; 7; 8]; [1; 2; 3; 4]]] (classes folder) /\
  exists out sc data, pgmFToData folder = Ok (2, 2, 9, out) /\ parseData (fileLines out) = Ok (sc, data) /\ keys sc = [4; 3; 2; 1; 0] /\
    get sc 0 = Some 10 /\ get sc 4 = Some 2 /\
    map (fun m => map (fun k => get0 m k) [0; 1; 2; 3; 4]) data = [[1; 2; 3; 4; 0]; [5; 6; 7; 8; 1]; [1; 2; 3; 4; 1]].
Proof.
  split; [apply folder_hyp|]. do 3 eexists. split; [vm_compute; reflexivity|]. split; [vm_compute; reflexivity|]. vm_compute. repeat split.
Qed.
Definition evidence_folder : listing := [("cats", ADir [fileA; fileA]); ("notes", AFile); ("dogs", ADir [fileA; fileA])].
Lemma evidence_case : Forall2 (Forall2 (tight_pgm 2 2 9)) [[[1; 2; 3; 4]; [1; 2; 3; 4]]; [[1; 2; 3; 4]; [1; 2; 3; 4]]] (classes evidence_folder) /\
  exists out sc data, pgmFToEvidence evidence_folder = Ok (2, 2, 9, out) /\ parseEvidence (fileLines out) = Ok (sc, data, [0; 2]) /\ keys sc = [3; 2; 1; 0] /\
    map (fun m => map (fun k => get0 m k) [0; 1; 2; 3]) data = [[1; 2; 3; 4]; [1; 2; 3; 4]; [1; 2; 3; 4]; [1; 2; 3; 4]].
Proof.
  split; [repeat constructor; apply fileA_pgm|]. do 3 eexists. split; [vm_compute; reflexivity|]. split; [vm_compute; reflexivity|]. vm_compute. repeat split.
Qed.
Definition bit_folder : listing := [("cats", ADir [bitA]); ("compiled", ADir []); ("dogs", ADir [bitA])].
Lemma bit_case : Forall2 (Forall2 (pbm_text true 3 2)) [[[0; 1; 1; 1; 0; 0]]; [[0; 1; 1; 1; 0; 0]]] (classes bit_folder) /\
  (exists out sc data, pbmFToData bit_folder = Ok out /\ parseData (fileLines out) = Ok (sc, data) /\
    map (fun m => map (fun k => get0 m k) [0; 1; 2; 3; 4; 5; 6]) data = [[0; 1; 1; 1; 0; 0; 0]; [0; 1; 1; 1; 0; 0; 1]]) /\
  (exists out sc data, pbmFToEvidence bit_folder = Ok out /\ parseEvidence (fileLines out) = Ok (sc, data, [0; 1]) /\
    map (fun m => map (fun k => get0 m k) [0; 1; 2; 3; 4; 5]) data = [[0; 1; 1; 1; 0; 0]; [0; 1; 1; 1; 0; 0]]).
Proof.
  split; [repeat constructor; apply bitA_pbm|]. split; do 3 eexists; (split; [vm_compute; reflexivity|]; split; [vm_compute; reflexivity|]; vm_compute; repeat split).
Qed.
Lemma writer_case : state_of [1; 2; 3; 4] stateA /\
  varSetToPGM stateA 2 2 9 = Ok ("P2" ++ nl ++ "2 2" ++ nl ++ "9" ++ nl ++ "1 " ++ nl ++ "2 3 " ++ nl ++ "4 ") /\
  varSetToPGM [(1, 5); (4, 6)] 1 2 9 = Panic.
Proof. split; [apply stateA_state|]. split; vm_compute; reflexivity. Qed.
Lemma cmpl_case :
  (forall p, pixel 2 2 p -> get [(1, 5); (3, 6)] p = None <-> region Left 2 2 p) /\ Z.even (halved Left 2 2) = true /\
  imgCmplToPGM [(1, 5); (3, 6)] [(0, 4); (2, 9)] Left 2 2 256 =
    "P3" ++ nl ++ "3 2" ++ nl ++ "255" ++ nl ++ "0 4 0 255 0 0 5 5 5 0 9 0 " ++ nl ++ "255 0 0 6 6 6 ".
Proof.
  split; [|split; [reflexivity|vm_compute; reflexivity]]. intros p Hp. unfold pixel in Hp. change (Z.of_nat (2 * 2)) with 4 in Hp.
  assert (p = 0 \/ p = 1 \/ p = 2 \/ p = 3) as [->|[->|[->| ->]]] by lia; vm_compute; split; intros; try discriminate; auto.
Qed.
