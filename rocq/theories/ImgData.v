(** The converters of image folders. *)
From Coq Require Import Ascii String.
From Verif Require Import Base Res GoMap DataSpec DataLemmas TablesLemmas TopoLemmas Text TextSpec TextLemmas Parse ParseLemmas Img ImgSpec ImgLemmas.
Local Open Scope string_scope.
Local Open Scope Z_scope.

Lemma f2_map_r {A B C} (P : A -> C -> Prop) (f : B -> C) l m : Forall2 (fun a b => P a (f b)) l m -> Forall2 P l (map f m).
Proof. induction 1; constructor; auto. Qed.
Lemma f2_in_r {A B} (P : A -> B -> Prop) l m b : Forall2 P l m -> In b m -> exists a, In a l /\ P a b.
Proof. induction 1 as [|x y l m H HF IH]; intros Hb; [destruct Hb|]. destruct Hb as [->|Hb]; [exists x; simpl; auto|]. destruct (IH Hb) as (a & Ha & HP). exists a. simpl; auto. Qed.
Lemma f2_in_l {A B} (P : A -> B -> Prop) l m a : Forall2 P l m -> In a l -> exists b, In b m /\ P a b.
Proof. induction 1 as [|x y l m H HF IH]; intros Hb; [destruct Hb|]. destruct Hb as [->|Hb]; [exists y; simpl; auto|]. destruct (IH Hb) as (b & Hb' & HP). exists b. simpl; auto. Qed.
Lemma labelled_in imgs : forall i r, In r (labelled i imgs) -> exists px k, In px (List.concat imgs) /\ r = (px ++ [k])%list /\ i <= k < i + Z.of_nat (List.length imgs).
Proof.
  induction imgs as [|c t IH]; intros i r H; [destruct H|]. cbn [labelled] in H. apply in_app_or in H as [H|H].
  - apply in_map_iff in H as (px & <- & H). exists px, i. repeat split; cbn [List.length]; try lia. cbn [List.concat]. apply in_or_app; auto.
  - destruct (IH _ _ H) as (px & k & H1 & -> & H2). exists px, k. repeat split; cbn [List.length]; try lia. cbn [List.concat]. apply in_or_app; auto.
Qed.

Lemma strengthen (P : list Z -> string -> Prop) (Q : list Z -> Prop) imgs cs : Forall2 (Forall2 P) imgs cs -> (forall px, In px (List.concat imgs) -> Q px) ->
  Forall2 (Forall2 (fun px f => P px f /\ Q px)) imgs cs.
Proof.
  induction 1 as [|c fs imgs cs Hc HF IH]; intros H; constructor.
  - cbn [List.concat] in H. assert (H' : forall px, In px c -> Q px) by (intros; apply H, in_or_app; auto). clear - Hc H'.
    induction Hc as [|px f c fs Hp Hc IH]; constructor; [split; auto; apply H'; left; auto|]. apply IH. intros; apply H'; right; auto.
  - apply IH. intros px Hp. apply H. cbn [List.concat]. apply in_or_app; auto.
Qed.

(** What the data file holds, as the lines of a data file. *)
Lemma rows_image_l vars rows lines n cats cls :
  0 <= n -> int64 n -> int64 cats -> int64 cls -> vars = (pixelVars n cats ++ [(n, cls)])%list ->
  rows <> [] -> Forall2 row_text rows lines ->
  (forall r, In r rows -> List.length r = List.length vars /\ forall v, In v r -> int64 v) ->
  exists sc data, parseData (map var_line vars ++ lines) = Ok (sc, data) /\ image_vars n cats (Some cls) sc /\ Forall2 as_row rows data.
Proof.
  intros Hn H64 Hc Hl -> Hne HF Hr.
  destruct (parseData_column_l (pixelVars n cats ++ [(n, cls)]) rows lines) as (sc & data & E & Hsc & Hd & _); auto.
  - apply vars_by_column; auto.
  - intros v Hv. apply in_app_or in Hv as [Hv|[<-|[]]]; [exact (pixelVars_int n cats H64 Hc v Hv)|cbn [fst snd]; split; auto].

  - exists sc, data. split; auto. split; auto. intros k. rewrite Hsc, get_app_l, get_pixelVars.
    destruct ((0 <=? k) && (k <? n)); auto. cbn [get]. rewrite Z.eqb_sym. auto.
Qed.

Lemma pgm_data_l dir w h max imgs :
  Forall2 (Forall2 (pgm_text w h max)) imgs (classes dir) -> List.concat imgs <> [] ->
  int64 w -> int64 h -> int64 (w * h) -> int64 max -> int64 (max + 1) -> int64 (Z.of_nat (List.length imgs)) ->
  (forall px, In px (List.concat imgs) -> forall v, In v px -> int64 v) ->
  exists out sc data, pgmFToData dir = Ok (w, h, max, out) /\ parseData (fileLines out) = Ok (sc, data) /\
    image_vars (w * h) (max + 1) (Some (Z.of_nat (List.length imgs))) sc /\ Forall2 as_row (labelled 0 imgs) data.
Proof.
  intros HF Hne Hw Hh Hwh Hm Hm1 Hc Hv.
  pose proof (numbered_rows imgs (classes dir) HF 0) as HN.
  unfold pgmFToData. rewrite subdirs_ok. cbn [bind]. rewrite subfiles_ok. cbn [bind].
  assert (Hpos : 0 <= w * h /\ labelled 0 imgs <> []).
  { split; [|intros E; apply Hne; exact (labelled_nil _ _ E)].
    destruct (List.concat imgs) as [|px l] eqn:E; [congruence|]. assert (In px (List.concat imgs)) as Hi by (rewrite E; left; auto).
    apply in_concat in Hi as (c & Hc1 & Hc2). destruct (f2_in_l _ _ _ _ HF Hc1) as (fs & _ & HFc). destruct (f2_in_l _ _ _ _ HFc Hc2) as (f & _ & Hp).
    destruct Hp as (? & ? & ? & ? & _ & _ & _ & _ & _ & H1 & H2 & _). nia. }
  destruct Hpos as (Hpos & Hne').
  destruct (numbered 0 (classes dir)) as [|[f0 k0] ins] eqn:En; [inversion HN; congruence|].
  assert (Hs : pgmSizes f0 = (w, h, max)).
  { inversion HN as [|r0 y rs ys H0 _]; subst. destruct H0 as (px & _ & Hp & _). eapply pgmSizes_ok; eauto. }
  unfold idx. cbn [nth_error bind fst]. rewrite Hs. rewrite classes_len, <- (f2_len _ _ _ HF).
  rewrite <- En in *. clear En.
  set (vars := (pixelVars (w * h) (max + 1) ++ [(w * h, Z.of_nat (List.length imgs))])%list).
  set (line := fun fl : string * Z => prints printVal (pgmPixels (fst fl)) ++ itoa (snd fl)).
  eexists. enough (HE : exists sc data, parseData (map var_line vars ++ map line (numbered 0 (classes dir)))%list = Ok (sc, data) /\
    image_vars (w * h) (max + 1) (Some (Z.of_nat (List.length imgs))) sc /\ Forall2 as_row (labelled 0 imgs) data).
  { destruct HE as (sc & data & E & H1 & H2). exists sc, data. split; [reflexivity|]. split; [|auto]. rewrite <- E. f_equal.
    rewrite (prints_ext _ (fun i => var_line (i, max + 1) ++ newline)) by (intros; apply declare1_line).
    rewrite fileLines_prints by (intros; apply one_line_var). rewrite declare1_line, append_ass, fileLines_cons by apply one_line_var.
    rewrite (prints_ext _ (fun fl => line fl ++ newline)) by (intros; unfold pgmRow, line; rewrite append_ass; auto).
    rewrite <- (append_nil (prints _ (numbered 0 (classes dir)))), fileLines_prints.
    2:{ intros fl _. unfold line. apply one_line_app; [apply one_line_prints|apply one_line_numeral]. }
    unfold vars, pixelVars. rewrite map_app, map_map, <- app_assoc. cbn [map app]. cbn [fileLines rawLines map]. rewrite app_nil_r. auto. }
  apply rows_image_l; auto.
  - apply f2_map_r. eapply f2_impl; [|exact (numbered_rows imgs (classes dir) (strengthen _ _ imgs (classes dir) HF Hv) 0)].
    intros r fl (px & -> & (Hp & Hi) & Hk). unfold line. rewrite (pgmPixels_ok _ _ _ _ _ Hp Hi). apply row_blank, row_label.
  - intros r Hr. destruct (labelled_in _ _ _ Hr) as (px & k & Hp & -> & Hk). rewrite app_length. unfold vars. rewrite app_length. cbn [List.length].
    split.
    + f_equal. unfold pixelVars. rewrite map_length, upto_len.
      apply in_concat in Hp as (c & Hc1 & Hc2). destruct (f2_in_l _ _ _ _ HF Hc1) as (fs & _ & HFc). destruct (f2_in_l _ _ _ _ HFc Hc2) as (f & _ & Hp).
      destruct Hp as (? & ? & ? & ? & _ & _ & _ & _ & _ & H1 & H2 & H3). lia.
    + intros v Hv'. apply in_app_or in Hv' as [Hv'|[<-|[]]]; [eapply Hv; eauto|]. unfold int64 in *. lia.
Qed.

(** Values within the declared ranges. *)
Lemma pgm_range_l n cats cls imgs sc data : 0 <= n -> image_vars n cats (Some cls) sc -> cls = Z.of_nat (List.length imgs) ->
  Forall2 as_row (labelled 0 imgs) data ->
  (forall px, In px (List.concat imgs) -> Z.of_nat (List.length px) = n /\ forall v, In v px -> 0 <= v < cats) ->
  forall m, In m data -> forall k c, get sc k = Some c -> exists v, get m k = Some v /\ 0 <= v < c.
Proof.
  intros Hn Hsc -> HF Hpx m Hm k c Hk. destruct (f2_in_r _ _ _ _ HF Hm) as (r & Hr & Hrow).
  destruct (labelled_in _ _ _ Hr) as (px & i & Hp & -> & Hi). destruct (Hpx px Hp) as (Hlen & Hv). rewrite Hsc in Hk. rewrite Hrow.
  destruct (Z.leb_spec 0 k); cbn [andb] in Hk.
  - destruct (Z.ltb_spec k n); cbn [andb] in Hk.
    + injection Hk as <-. destruct (Z.ltb_spec k 0); [lia|]. rewrite nth_error_app1 by lia.
      destruct (nth_error px (Z.to_nat k)) as [v|] eqn:E; [|apply nth_error_None in E; lia]. exists v. split; auto. apply Hv. eapply nth_error_In; eauto.
    + destruct (Z.eqb_spec k n); [|discriminate]. injection Hk as <-. destruct (Z.ltb_spec k 0); [lia|].
      rewrite nth_error_app2 by lia. replace (Z.to_nat k - List.length px)%nat with 0%nat by lia. exists i. split; auto.
  - destruct (Z.eqb_spec k n); [|discriminate]. lia.
Qed.

(** Evidence. *)
Lemma tight_vals vs line : tight_line vs line -> (forall v, In v vs -> int64 v) -> evidenceVals line = vs.
Proof.
  intros (v & t & -> & ->) Hv. unfold evidenceVals. rewrite split_spaced by apply numeral_nb. cbn [map]. rewrite atoi_numeral by (apply Hv; left; auto).
  cbn [fst]. f_equal. rewrite map_map. rewrite <- (map_id t) at 2. apply map_ext_in. intros z Hz. rewrite atoi_numeral by (apply Hv; right; auto). auto.
Qed.
Lemma tight_chunks chunks body : Forall2 tight_line chunks body -> (forall v, In v (List.concat chunks) -> int64 v) ->
  flat_map evidenceVals body = List.concat chunks.
Proof.
  induction 1 as [|vs l chunks body Hl HF IH]; intros Hv; auto. cbn [flat_map List.concat] in *.
  rewrite (tight_vals vs) by (auto; intros; apply Hv, in_or_app; auto). rewrite IH; auto.
  intros; apply Hv, in_or_app; auto.
Qed.
Lemma printLabels_spaced ls : forall l, " " ++ printLabels (l :: ls) = spaced (l :: ls) ++ newline.
Proof.
  induction ls as [|l' ls IH]; intros l.
  - cbn [printLabels spaced append]. rewrite append_nil. reflexivity.
  - change (printLabels (l :: l' :: ls)) with (itoa l ++ (" " ++ printLabels (l' :: ls))). rewrite IH.
    change (spaced (l :: l' :: ls)) with (" " ++ numeral l ++ spaced (l' :: ls)). rewrite !append_ass. reflexivity.
Qed.
Lemma labelsLine_ok ls : ls <> [] -> labelsLine ls = labels_line ls ++ newline.
Proof.
  destruct ls as [|l ls]; [congruence|]. intros _. unfold labelsLine, labels_line. rewrite printLabels_spaced.
  change (spaced (Z.of_nat (List.length (l :: ls)) :: l :: ls)) with (" " ++ numeral (Z.of_nat (List.length (l :: ls))) ++ spaced (l :: ls)).
  rewrite !append_ass. reflexivity.
Qed.
Lemma one_line_spaced zs : one_line (spaced zs).
Proof. induction zs as [|z zs IH]; [exact Logic.I|]. cbn [spaced append one_line]. repeat split; try discriminate. apply one_line_app; auto. apply one_line_numeral. Qed.
Lemma one_line_labels ls : one_line (labels_line ls).
Proof. unfold labels_line. apply one_line_app; [|apply one_line_spaced]. cbn [one_line]. repeat split; discriminate. Qed.
Lemma labels_equal m imgs : (forall c, In c imgs -> List.length c = m) -> forall cs i (P : list (list Z) -> list string -> Prop),
  (forall c fs, P c fs -> List.length c = List.length fs) -> Forall2 P imgs cs -> labelsOf i cs = starts (Z.of_nat m * i) imgs.
Proof.
  intros H cs i P HP HF. revert i H. induction HF as [|c fs imgs cs Hc HF IH]; intros i H; auto. cbn [labelsOf starts].
  rewrite <- (HP _ _ Hc), (H c (or_introl eq_refl)). f_equal. rewrite IH by (intros; apply H; right; auto). f_equal. lia.
Qed.
Lemma numbered_imgs {P : list Z -> string -> Prop} imgs cs : Forall2 (Forall2 P) imgs cs -> forall i,
  Forall2 (fun px fl => P px (fst fl)) (List.concat imgs) (numbered i cs).
Proof.
  induction 1 as [|c fs imgs cs Hc HF IH]; intros i; [constructor|]. cbn [List.concat numbered]. apply Forall2_app; auto.
  clear IH HF. induction Hc as [|px f c fs H Hc IH]; constructor; auto.
Qed.
Lemma starts_int imgs : forall k N, 0 <= k -> k + Z.of_nat (List.length (List.concat imgs)) <= N -> int64 N -> forall v, In v (starts k imgs) -> int64 v.
Proof.
  induction imgs as [|c t IH]; intros k N Hk HN H64 v Hv; [destruct Hv|]. cbn [starts List.concat] in *. rewrite app_length in HN. destruct Hv as [<-|Hv].
  - unfold int64 in *. lia.
  - eapply (IH (k + Z.of_nat (List.length c)) N); eauto; lia.
Qed.
Lemma starts_len imgs : forall k, List.length (starts k imgs) = List.length imgs.
Proof. induction imgs as [|c t IH]; intros k; auto. cbn [starts List.length]. f_equal. auto. Qed.

(** Common to the evidence converters. *)
Lemma evidence_out_l {P : list Z -> string -> Prop} dir n cats m imgs (row : string -> string) :
  Forall2 (Forall2 P) imgs (classes dir) -> List.concat imgs <> [] -> (forall c, In c imgs -> List.length c = m) ->
  0 <= n -> int64 n -> int64 cats -> int64 (Z.of_nat (List.length imgs)) -> int64 (Z.of_nat (List.length (List.concat imgs))) ->
  (forall px, In px (List.concat imgs) -> Z.of_nat (List.length px) = n /\ forall v, In v px -> int64 v) ->
  (forall px f, In px (List.concat imgs) -> P px f -> row_text px (row f) /\ one_line (row f)) ->
  exists sc data,
    parseEvidence (fileLines (labelsLine (slabels (filter keep dir) 0) ++ prints (fun i => declare1 i cats) (upto n) ++
                              prints (fun fl : string * Z => row (fst fl) ++ newline) (numbered 0 (classes dir)))) = Ok (sc, data, starts 0 imgs) /\
    image_vars n cats None sc /\ Forall2 as_row (List.concat imgs) data.
Proof.
  intros HF Hne Heq Hn H64 Hc Hl HN Hpx Hrow.
  rewrite slabels_ok, (labels_equal m imgs Heq (classes dir) 0 (Forall2 P)) by (auto; intros; eapply f2_len; eauto). rewrite Z.mul_0_r.
  assert (Hi : imgs <> []) by (intros ->; apply Hne; auto).
  rewrite labelsLine_ok by (destruct imgs; [congruence|discriminate]). rewrite append_ass, fileLines_cons by apply one_line_labels.
  rewrite (prints_ext _ (fun i => var_line (i, cats) ++ newline)) by (intros; apply declare1_line).
  rewrite fileLines_prints by (intros; apply one_line_var).
  pose proof (strengthen _ (fun px => In px (List.concat imgs)) imgs (classes dir) HF (fun px H => H)) as HF2.
  pose proof (numbered_imgs imgs (classes dir) HF2 0) as HFn.
  rewrite <- (append_nil (prints _ (numbered 0 (classes dir)))), fileLines_prints.
  2:{ intros fl Hfl. destruct (f2_in_r _ _ _ _ HFn Hfl) as (px & _ & Hp & Hin). apply (Hrow px); auto. }
  cbn [fileLines rawLines map]. rewrite app_nil_r.
  destruct (parseEvidence_l (starts 0 imgs) (pixelVars n cats) (List.concat imgs) (map (fun fl => row (fst fl)) (numbered 0 (classes dir)))) as (sc & data & E & H1 & H2).
  - rewrite starts_len. auto.
  - intros v Hv. exact (starts_int imgs 0 _ (Z.le_refl 0) (Z.le_refl _) HN v Hv).
  - apply vars_by_column0; auto.
  - exact (pixelVars_int n cats H64 Hc).
  - auto.
  - apply f2_map_r. eapply f2_impl; [|exact HFn]. intros px fl (Hp & Hin). apply (Hrow px); auto.
  - intros px Hp. destruct (Hpx px Hp) as (Hlen & Hv). split; auto. unfold pixelVars. rewrite map_length, upto_len. lia.
  - exists sc, data. unfold pixelVars in E. rewrite map_map in E. split; [exact E|]. split; auto.
    intros k. rewrite H1, get_pixelVars. destruct ((0 <=? k) && (k <? n)); auto. destruct (k =? n); auto.
Qed.

Lemma concat_in {P : list Z -> string -> Prop} imgs cs px : Forall2 (Forall2 P) imgs cs -> In px (List.concat imgs) -> exists f, P px f.
Proof.
  intros HF Hp. apply in_concat in Hp as (c & Hc1 & Hc2). destruct (f2_in_l _ _ _ _ HF Hc1) as (fs & _ & HFc). destruct (f2_in_l _ _ _ _ HFc Hc2) as (f & _ & Hp). eauto.
Qed.
Lemma pgm_evidence_l dir w h max m imgs :
  Forall2 (Forall2 (tight_pgm w h max)) imgs (classes dir) -> List.concat imgs <> [] -> (forall c, In c imgs -> List.length c = m) ->
  0 < w * h -> int64 w -> int64 h -> int64 (w * h) -> int64 max -> int64 (max + 1) ->
  int64 (Z.of_nat (List.length imgs)) -> int64 (Z.of_nat (List.length (List.concat imgs))) ->
  (forall px, In px (List.concat imgs) -> forall v, In v px -> int64 v) ->
  exists out sc data, pgmFToEvidence dir = Ok (w, h, max, out) /\ parseEvidence (fileLines out) = Ok (sc, data, starts 0 imgs) /\
    image_vars (w * h) (max + 1) None sc /\ Forall2 as_row (List.concat imgs) data.
Proof.
  intros HF Hne Heq Hpos Hw Hh Hwh Hm Hm1 Hc HN Hv.
  pose proof (numbered_imgs imgs (classes dir) HF 0) as HFn.
  unfold pgmFToEvidence. rewrite subdirs_ok. cbn [bind]. rewrite subfiles_ok. cbn [bind].
  destruct (numbered 0 (classes dir)) as [|[f0 k0] ins] eqn:En; [inversion HFn; congruence|].
  assert (Hs : pgmSizes f0 = (w, h, max)).
  { inversion HFn as [|r0 y rs ys H0 _]; subst. cbn [fst] in H0. eapply pgmSizes_ok; eauto. }
  unfold idx. cbn [nth_error bind fst]. rewrite Hs. rewrite <- En in *. clear En.
  eexists. destruct (evidence_out_l dir (w * h) (max + 1) m imgs (fun f => prints printVal (flat_map evidenceVals (skipn 3 (fileLines f)))) HF) as (sc & data & E & H1 & H2); auto.
  - lia.
  - intros px Hp. split; [|apply Hv; auto]. destruct (concat_in _ _ _ HF Hp) as (f & ? & ? & ? & ? & _ & _ & _ & _ & _ & _ & _ & H). auto.
  - intros px f Hp (lw & lm & chunks & body & Hf & _ & _ & Hc' & -> & _ & _ & Hlen). rewrite (fileLines_ok _ _ Hf). cbn [skipn].
    rewrite (tight_chunks chunks body) by (auto; apply Hv; auto). split; [|apply one_line_prints]. apply row_blank_end. intros E. rewrite E in Hlen. cbn [List.length] in Hlen. lia.
  - exists sc, data. split; [reflexivity|]. split; auto.
Qed.

(** Bitmaps: a line with its characters spaced out. *)
Lemma sep_app a b : separators a -> separators b -> separators (a ++ b).
Proof. induction a as [|c a IH]; auto. intros (H1 & H2) Hb. cbn [append separators]. auto. Qed.
Definition row_or_end (vs : list Z) (X : string) : Prop := (vs = [] /\ X = "") \/ row_text vs X.
Lemma bits_row vs line : bit_line vs line -> forall r fin, row_or_end r fin ->
  exists s X, printChars line ++ fin = s ++ X /\ separators s /\ row_or_end (vs ++ r)%list X /\ (no_margin line -> s = "").
Proof.
  assert (Hbit : forall b c t vs r fin, numeral b = String c "" ->
    (exists s X, printChars t ++ fin = s ++ X /\ separators s /\ row_or_end (vs ++ r)%list X /\ (no_margin t -> s = "")) ->
    exists s X, printChars (String c t) ++ fin = s ++ X /\ separators s /\ row_or_end ((b :: vs) ++ r)%list X /\ (no_margin (String c t) -> s = "")).
  { intros b c t vs' r fin Hb (s & X & E & Hs & HX & _). exists "", (numeral b ++ (" " ++ s) ++ X). rewrite Hb.
    split. { cbn [printChars append]. f_equal. f_equal. exact E. }
    split; [exact Logic.I|]. split; auto. right. rewrite <- Hb. cbn [app]. destruct HX as [(E1 & ->)|HX].
    - rewrite E1. rewrite append_nil. constructor. cbn [append separators]. split; auto. right; left; reflexivity.
    - apply row_next; auto; [|discriminate]. cbn [append separators]. split; auto. right; left; reflexivity. }
  induction 1 as [|vs t H IH|vs t H IH|vs c t Hc H IH]; intros r fin Hr.
  - exists "", fin. cbn [printChars append app]. repeat split; auto.
  - apply Hbit; auto.
  - apply Hbit; auto.
  - destruct (IH r fin Hr) as (s & X & E & Hs & HX & _). exists (String c (String " " s)), X.
    split. { cbn [printChars append]. rewrite E. auto. } split.
    { cbn [separators]. split; [|split; auto; right; left; reflexivity]. destruct Hc as [<-|[<-|[]]]; [right; left|right; right; left]; reflexivity. }
    split; auto. intros Hm. destruct (Hm _ _ eq_refl). destruct Hc as [<-|[<-|[]]]; congruence.
Qed.
Lemma one_line_chars2 vs line : bit_line vs line -> one_line (printChars line).
Proof.
  induction 1 as [|vs t H IH|vs t H IH|vs c t Hc H IH]; cbn [printChars one_line]; auto; repeat split; auto; try discriminate;
  destruct Hc as [<-|[<-|[]]]; discriminate.
Qed.
Lemma one_line_body chunks body : Forall2 bit_line chunks body -> one_line (prints printChars body).
Proof.
  induction 1 as [|vs l chunks body H HF IH]; [exact Logic.I|]. rewrite prints_cons. apply one_line_app; auto. eapply one_line_chars2; eauto.
Qed.
Lemma body_row chunks body : Forall2 bit_line chunks body -> Forall no_margin body -> forall r fin, row_or_end r fin ->
  row_or_end (List.concat chunks ++ r)%list (prints printChars body ++ fin).
Proof.
  intros HF. induction HF as [|vs l chunks body H HF IH]; intros Hm r fin Hr; auto. inversion Hm as [|? ? Hm1 Hm2]; subst.
  rewrite prints_cons, append_ass. cbn [List.concat]. rewrite <- app_assoc.
  destruct (bits_row vs l H _ _ (IH Hm2 r fin Hr)) as (s & X & E & Hs & HX & Hs0). rewrite E, (Hs0 Hm1). auto.
Qed.
Lemma row_or_end_row vs X : vs <> [] -> row_or_end vs X -> row_text vs X.
Proof. intros H [(E & _)|E]; [congruence|auto]. Qed.
Lemma pbmPixels_ok w h px s : pbm_text true w h px s -> one_line (pbmPixels s) /\ forall r fin, row_or_end r fin -> row_or_end (px ++ r)%list (pbmPixels s ++ fin).
Proof.
  intros (lw & chunks & body & Hf & _ & Hc & Hm & -> & _). unfold pbmPixels. rewrite (fileLines_ok _ _ Hf). cbn [skipn].
  split; [eapply one_line_body; eauto|]. apply body_row; auto.
Qed.
Lemma pbmSizes_ok b w h px s : pbm_text b w h px s -> int64 w -> int64 h -> pbmSizes s = (w, h).
Proof. intros (lw & chunks & body & Hf & Hw & _) H1 H2. unfold pbmSizes. rewrite (fileLines_ok _ _ Hf). cbn [nth]. apply scanTwo_line; auto. Qed.
Lemma bit_vals vs line : bit_line vs line -> forall v, In v vs -> v = 0 \/ v = 1.
Proof. induction 1 as [|vs t H IH|vs t H IH|vs c t Hc H IH]; intros v Hv; auto; try (destruct Hv); auto. Qed.
Lemma pbm_vals b w h px s : pbm_text b w h px s -> (Z.of_nat (List.length px) = w * h /\ 0 <= w * h) /\ forall v, In v px -> v = 0 \/ v = 1.
Proof.
  intros (lw & chunks & body & _ & _ & Hc & _ & -> & H1 & H2 & H3). split; [split; auto; nia|]. intros v Hv. apply in_concat in Hv as (c & Hc1 & Hc2).
  destruct (f2_in_l _ _ _ _ Hc Hc1) as (l & _ & Hl). eapply bit_vals; eauto.
Qed.
Lemma int64_bit v : v = 0 \/ v = 1 -> int64 v.
Proof. unfold int64. lia. Qed.

Lemma pbm_data_l dir w h imgs :
  Forall2 (Forall2 (pbm_text true w h)) imgs (classes dir) -> List.concat imgs <> [] ->
  int64 w -> int64 h -> int64 (w * h) -> int64 (Z.of_nat (List.length imgs)) ->
  exists out sc data, pbmFToData dir = Ok out /\ parseData (fileLines out) = Ok (sc, data) /\
    image_vars (w * h) 2 (Some (Z.of_nat (List.length imgs))) sc /\ Forall2 as_row (labelled 0 imgs) data.
Proof.
  intros HF Hne Hw Hh Hwh Hc.
  pose proof (numbered_rows imgs (classes dir) HF 0) as HN.
  unfold pbmFToData. rewrite subdirs_ok. cbn [bind]. rewrite subfiles_ok. cbn [bind].
  assert (Hne' : labelled 0 imgs <> []) by (intros E; apply Hne; exact (labelled_nil _ _ E)).
  assert (Hpx : forall px, In px (List.concat imgs) -> (Z.of_nat (List.length px) = w * h /\ 0 <= w * h) /\ forall v, In v px -> v = 0 \/ v = 1).
  { intros px Hp. destruct (concat_in _ _ _ HF Hp) as (f & Hf). eapply pbm_vals; eauto. }
  assert (Hpos : 0 <= w * h).
  { destruct (List.concat imgs) as [|px l]; [congruence|]. apply (Hpx px). left; auto. }
  destruct (numbered 0 (classes dir)) as [|[f0 k0] ins] eqn:En; [inversion HN; congruence|].
  assert (Hs : pbmSizes f0 = (w, h)).
  { inversion HN as [|r0 y rs ys H0 _]; subst. destruct H0 as (px & _ & Hp & _). eapply pbmSizes_ok; eauto. }
  unfold idx. cbn [nth_error bind fst]. rewrite Hs. rewrite classes_len, <- (f2_len _ _ _ HF).
  rewrite <- En in *. clear En.
  set (vars := (pixelVars (w * h) 2 ++ [(w * h, Z.of_nat (List.length imgs))])%list).
  set (line := fun fl : string * Z => pbmPixels (fst fl) ++ itoa (snd fl)).
  eexists. enough (HE : exists sc data, parseData (map var_line vars ++ map line (numbered 0 (classes dir)))%list = Ok (sc, data) /\
    image_vars (w * h) 2 (Some (Z.of_nat (List.length imgs))) sc /\ Forall2 as_row (labelled 0 imgs) data).
  { destruct HE as (sc & data & E & H1 & H2). exists sc, data. split; [reflexivity|]. split; [|auto]. rewrite <- E. f_equal.
    rewrite (prints_ext _ (fun i => var_line (i, 2) ++ newline)) by (intros; apply declare1_line).
    rewrite fileLines_prints by (intros; apply one_line_var). rewrite declare1_line, append_ass, fileLines_cons by apply one_line_var.
    rewrite (prints_ext (fun fl : string * Z => pbmPixels (fst fl) ++ itoa (snd fl) ++ newline) (fun fl => line fl ++ newline)) by (intros; unfold line; rewrite append_ass; auto).
    rewrite <- (append_nil (prints _ (numbered 0 (classes dir)))), fileLines_prints.
    2:{ intros fl Hfl. unfold line. destruct (f2_in_r _ _ _ _ HN Hfl) as (r & _ & px & _ & Hp & _). apply one_line_app; [apply (pbmPixels_ok _ _ _ _ Hp)|apply one_line_numeral]. }
    unfold vars, pixelVars. rewrite map_app, map_map, <- app_assoc. cbn [map app]. cbn [fileLines rawLines map]. rewrite app_nil_r. auto. }
  apply rows_image_l; auto.
  - unfold int64. lia.
  - apply f2_map_r. eapply f2_impl; [|exact HN].
    intros r fl (px & -> & Hp & Hk). unfold line. apply row_or_end_row; [intros E; symmetry in E; apply app_cons_not_nil in E; auto|].
    apply (pbmPixels_ok _ _ _ _ Hp). right. apply row_label.
  - intros r Hr. destruct (labelled_in _ _ _ Hr) as (px & k & Hp & -> & Hk). rewrite app_length. unfold vars. rewrite app_length. cbn [List.length].
    destruct (Hpx px Hp) as ((H1 & H2) & H3). split.
    + f_equal. unfold pixelVars. rewrite map_length, upto_len. lia.
    + intros v Hv'. apply in_app_or in Hv' as [Hv'|[<-|[]]]; [apply int64_bit; auto|]. unfold int64 in *. lia.
Qed.

Lemma pbm_evidence_l dir w h m imgs :
  Forall2 (Forall2 (pbm_text true w h)) imgs (classes dir) -> List.concat imgs <> [] -> (forall c, In c imgs -> List.length c = m) ->
  0 < w * h -> int64 w -> int64 h -> int64 (w * h) ->
  int64 (Z.of_nat (List.length imgs)) -> int64 (Z.of_nat (List.length (List.concat imgs))) ->
  exists out sc data, pbmFToEvidence dir = Ok out /\ parseEvidence (fileLines out) = Ok (sc, data, starts 0 imgs) /\
    image_vars (w * h) 2 None sc /\ Forall2 as_row (List.concat imgs) data.
Proof.
  intros HF Hne Heq Hpos Hw Hh Hwh Hc HN.
  pose proof (numbered_imgs imgs (classes dir) HF 0) as HFn.
  unfold pbmFToEvidence. rewrite subdirs_ok. cbn [bind]. rewrite subfiles_ok. cbn [bind].
  destruct (numbered 0 (classes dir)) as [|[f0 k0] ins] eqn:En; [inversion HFn; congruence|].
  assert (Hs : pbmSizes f0 = (w, h)).
  { inversion HFn as [|r0 y rs ys H0 _]; subst. cbn [fst] in H0. eapply pbmSizes_ok; eauto. }
  unfold idx. cbn [nth_error bind fst]. rewrite Hs. rewrite <- En in *. clear En.
  eexists. destruct (evidence_out_l dir (w * h) 2 m imgs pbmPixels HF) as (sc & data & E & H1 & H2); auto.
  - lia.
  - unfold int64. lia.
  - intros px Hp. destruct (concat_in _ _ _ HF Hp) as (f & Hf). destruct (pbm_vals _ _ _ _ _ Hf) as ((H1 & H2) & H3). split; auto.
    intros v Hv. apply int64_bit; auto.
  - intros px f Hp Hf. destruct (pbmPixels_ok _ _ _ _ Hf) as (H1 & H2). split; auto.
    destruct (pbm_vals _ _ _ _ _ Hf) as ((H3 & H4) & _).
    apply row_or_end_row; [intros ->; cbn [List.length] in H3; lia|]. specialize (H2 [] "" (or_introl (conj eq_refl eq_refl))).
    rewrite app_nil_r, append_nil in H2. auto.
  - exists sc, data. split; [reflexivity|]. split; auto.
Qed.

(** One folder of bitmaps. *)
Lemma pbm_one_l files w h class imgs :
  Forall2 (pbm_text true w h) imgs files -> imgs <> [] -> 0 < w * h -> int64 w -> int64 h -> int64 (w * h) -> int64 class ->
  exists out sc data, pbmToData files class = Ok out /\ parseData (fileLines out) = Ok (sc, data) /\
    image_vars (w * h) 2 None sc /\ Forall2 as_row imgs data.
Proof.
  intros HF Hne Hpos Hw Hh Hwh Hcl.
  unfold pbmToData. destruct files as [|f0 fs] eqn:En; [inversion HF; congruence|].
  assert (Hs : pbmSizes f0 = (w, h)) by (inversion HF; subst; eapply pbmSizes_ok; eauto).
  unfold idx. cbn [nth_error bind]. rewrite Hs. rewrite <- En in *. clear En.
  set (ext := fun px : list Z => if class >? 0 then (px ++ [class])%list else px).
  set (line := fun f => pbmPixels f ++ (if class >? 0 then itoa class else "")).
  assert (Hpx : forall px, In px imgs -> (Z.of_nat (List.length px) = w * h /\ 0 <= w * h) /\ forall v, In v px -> v = 0 \/ v = 1).
  { intros px Hp. destruct (f2_in_l _ _ _ _ HF Hp) as (f & _ & Hf). eapply pbm_vals; eauto. }
  eexists. destruct (parseData_extra_l (pixelVars (w * h) 2) (map ext imgs) (map line files)) as (sc & data & E & H1 & H2).
  - rewrite pixelVars_fst. apply upto_nodup.
  - apply pixelVars_int; auto. unfold int64. lia.
  - intros E. apply map_eq_nil in E. auto.
  - clear - HF Hpos. induction HF as [|px f imgs files H HF IH]; cbn [map]; constructor; auto. unfold ext, line.
    destruct (pbmPixels_ok _ _ _ _ H) as (_ & H2). destruct (pbm_vals _ _ _ _ _ H) as ((H3 & H4) & _). destruct (class >? 0).
    + apply row_or_end_row; [intros E; symmetry in E; apply app_cons_not_nil in E; auto|]. apply H2. right. apply row_label.
    + apply row_or_end_row; [intros ->; cbn [List.length] in H3; lia|]. specialize (H2 [] "" (or_introl (conj eq_refl eq_refl))). rewrite app_nil_r in H2. auto.
  - intros r Hr. apply in_map_iff in Hr as (px & <- & Hp). destruct (Hpx px Hp) as ((H1 & H2) & H3). split.
    + unfold pixelVars. rewrite map_length, upto_len. unfold ext. destruct (class >? 0); [rewrite app_length; lia|lia].
    + intros v Hv. assert (Hcase : In v px \/ v = class).
      { unfold ext in Hv. destruct (class >? 0); auto. apply in_app_or in Hv as [Hv|[<-|[]]]; auto. }
      destruct Hcase as [Hv'| ->]; auto. apply int64_bit; auto.
  - exists sc, data. split; [reflexivity|]. split.
    + rewrite <- E. f_equal.
      rewrite (prints_ext _ (fun i => var_line (i, 2) ++ newline)) by (intros; apply declare1_line).
      rewrite fileLines_prints by (intros; apply one_line_var).
      rewrite (prints_ext (fun f => pbmPixels f ++ (if class >? 0 then itoa class ++ newline else newline)) (fun f => line f ++ newline)).
      2:{ intros f _. unfold line. destruct (class >? 0); rewrite append_ass; auto. }
      rewrite <- (append_nil (prints _ files)), fileLines_prints.
      2:{ intros f Hf. destruct (f2_in_r _ _ _ _ HF Hf) as (px & _ & Hp). unfold line. apply one_line_app; [apply (pbmPixels_ok _ _ _ _ Hp)|].
          destruct (class >? 0); [apply one_line_numeral|exact Logic.I]. }
      unfold pixelVars. rewrite map_map. cbn [fileLines rawLines map]. rewrite app_nil_r. auto.
    + split.
      * intros k. rewrite H1, get_pixelVars. destruct ((0 <=? k) && (k <? w * h)); auto. destruct (k =? w * h); auto.
      * rewrite map_map in H2. rewrite <- (map_id imgs).
        rewrite (map_ext_in (fun x => x) (fun x => firstn (List.length (pixelVars (w * h) 2)) (ext x))); auto.
        intros px Hp. destruct (Hpx px Hp) as ((H3 & H4) & _). unfold pixelVars. rewrite map_length, upto_len. unfold ext.
        replace (Z.to_nat (w * h)) with (List.length px) by lia. destruct (class >? 0); [|rewrite firstn_all; auto].
        rewrite firstn_app, firstn_all, Nat.sub_diag. cbn [firstn]. rewrite app_nil_r. auto.
Qed.
