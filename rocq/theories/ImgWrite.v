(** The writers of images. *)
From Coq Require Import Ascii String Permutation.
From Verif Require Import Base Res GoMap DataSpec DataLemmas TablesLemmas TopoLemmas Text TextSpec TextLemmas Parse ParseLemmas Img ImgSpec ImgLemmas ImgData.
Local Open Scope string_scope.
Local Open Scope Z_scope.

Lemma get_in m k : get m k <> None <-> In k (keys m).
Proof.
  induction m as [|[a v] m IH]; simpl; [split; [congruence|tauto]|]. destruct (Z.eqb_spec a k).
  - split; [auto|discriminate].
  - rewrite IH. split; auto. intros [H|H]; [congruence|auto].
Qed.
Lemma state_keys px st : state_of px st -> Permutation (keys st) (upto (Z.of_nat (List.length px))).
Proof.
  intros (Hn & Hr). apply NoDup_Permutation; auto; [apply upto_nodup|]. intros k. rewrite <- get_in, upto_in, Hr.
  destruct (Z.ltb_spec k 0); [split; [congruence|lia]|]. rewrite nth_error_Some. lia.
Qed.
Lemma state_len px st : state_of px st -> List.length st = List.length px.
Proof. intros H. apply state_keys, Permutation_length in H. unfold keys in H. rewrite map_length, upto_len in H. lia. Qed.

Lemma setPixels_ok l : forall acc, NoDup (keys l) -> (forall k, In k (keys l) -> 0 <= k < Z.of_nat (List.length acc)) ->
  exists acc', foldr_ setPixel l acc = Ok acc' /\ List.length acc' = List.length acc /\
    forall i, (i < List.length acc)%nat -> nth_error acc' i = match get l (Z.of_nat i) with Some v => Some v | None => nth_error acc i end.
Proof.
  induction l as [|[k v] l IH]; intros acc Hn Hk.
  - exists acc. simpl. auto.
  - cbn [keys map fst] in Hn, Hk. inversion Hn as [|? ? Hni Hn']; subst. assert (Hk0 := Hk k (or_introl eq_refl)).
    cbn [foldr_]. unfold setPixel at 1. cbn [fst snd]. destruct (Z.ltb_spec k 0); [lia|]. destruct (Z.leb_spec (Z.of_nat (List.length acc)) k); [lia|]. cbn [orb bind].
    destruct (IH (set_nth (Z.to_nat k) v acc) Hn') as (acc' & E & L & H2).
    { intros k' Hk'. rewrite set_nth_length. apply Hk. right; auto. }
    exists acc'. split; auto. rewrite set_nth_length in L. split; auto. intros i Hi. rewrite H2 by (rewrite set_nth_length; auto). cbn [get].
    destruct (Z.eqb_spec k (Z.of_nat i)) as [->|Hne].
    + destruct (get l (Z.of_nat i)) eqn:G; [|rewrite Nat2Z.id, nth_error_set_nth_same; auto].
      exfalso. apply Hni. apply get_in. congruence.
    + destruct (get l (Z.of_nat i)); auto. apply nth_error_set_nth_diff. lia.
Qed.
Lemma nth_ext_err {T} (l : list T) : forall m, List.length l = List.length m -> (forall i, (i < List.length l)%nat -> nth_error l i = nth_error m i) -> l = m.
Proof.
  induction l as [|a l IH]; intros [|b m] L H; simpl in L; try lia; auto. pose proof (H 0%nat ltac:(simpl; lia)) as E. injection E as ->. f_equal.
  apply IH; [lia|]. intros i Hi. apply (H (S i)). simpl. lia.
Qed.
Lemma pixelsOf_ok px st : state_of px st -> pixelsOf st = Ok px.
Proof.
  intros H. pose proof (state_len _ _ H) as L. pose proof (state_keys _ _ H) as K. destruct H as (Hn & Hr).
  unfold pixelsOf. destruct (setPixels_ok st (repeat 0 (List.length st)) Hn) as (acc & E & L2 & H2).
  { intros k Hk. rewrite repeat_length, L. apply (Permutation_in _ K) in Hk. apply upto_in in Hk. auto. }
  rewrite E. f_equal. rewrite repeat_length in *. apply nth_ext_err; [lia|]. intros i Hi. rewrite H2 by lia. rewrite Hr.
  destruct (Z.ltb_spec (Z.of_nat i) 0); [lia|]. rewrite Nat2Z.id. destruct (nth_error px i) eqn:G; auto. apply nth_error_None in G. lia.
Qed.
Lemma pixelsOf_panic st k : In k (keys st) -> k < 0 \/ Z.of_nat (List.length st) <= k -> pixelsOf st = Panic.
Proof.
  intros Hk Hout. unfold pixelsOf. assert (G : forall l acc, In k (keys l) -> (Z.of_nat (List.length acc) <= k \/ k < 0) -> foldr_ setPixel l acc = Panic).
  { induction l as [|[a v] l IH]; intros acc Hin Ho; [destruct Hin|]. cbn [foldr_]. unfold setPixel at 1. cbn [fst snd].
    destruct ((a <? 0) || (Z.of_nat (List.length acc) <=? a)) eqn:B; [auto|]. cbn [bind]. destruct Hin as [Ha|Hin].
    - cbn [fst] in Ha. subst a. apply orb_false_elim in B as (B1 & B2). apply Z.ltb_ge in B1. apply Z.leb_gt in B2. lia.
    - apply IH; auto. rewrite set_nth_length. auto. }
  apply G; auto. rewrite repeat_length. lia.
Qed.

(** Rows of pixels. *)
Lemma number_prints vs : forall s, blanks s -> number_line vs (s ++ prints printVal vs).
Proof.
  induction vs as [|v vs IH]; intros s Hs.
  - rewrite prints_nil, append_nil. constructor. auto.
  - rewrite prints_cons. unfold printVal. rewrite append_ass. change (itoa v) with (numeral v). apply num_next; auto. apply (IH " "). split; auto. exact Logic.I.
Qed.
Lemma printRows_lines w px : w <> 0 -> forall i pre, exists r chunks body, printRows printVal w i px = Ok r /\
  file_lines body (prints printVal pre ++ r) /\ Forall2 number_line chunks body /\ List.concat chunks = (pre ++ px)%list.
Proof.
  intros Hw. induction px as [|p px IH]; intros i pre.
  - exists "". rewrite app_nil_r, append_nil. destruct pre as [|v pre].
    + exists [], []. split; [reflexivity|]. split; [constructor|]. split; constructor.
    + exists [v :: pre], [prints printVal (v :: pre)]. split; [reflexivity|]. split; [|split].
      * constructor; [apply one_line_prints|]. rewrite prints_cons. unfold printVal. intros E. destruct (numeral_first v (" " ++ prints (fun v => itoa v ++ " ") pre)) as (c & t & E' & _).
        rewrite append_ass in E. change (itoa v) with (numeral v) in E. congruence.
      * constructor; [|constructor]. apply (number_prints (v :: pre) ""). exact Logic.I.
      * cbn [List.concat]. rewrite app_nil_r. auto.
  - cbn [printRows]. unfold rem. destruct (Z.eqb_spec w 0); [congruence|]. cbn [bind].
    destruct (Z.eqb_spec (Z.rem (i + 1) w) 0).
    + destruct (IH (i + 1) [p]) as (r & chunks & body & E & Hf & Hc & Ec). rewrite E. cbn [bind].
      eexists. exists (pre :: chunks), (prints printVal pre :: body). split; [reflexivity|]. split; [|split].
      * rewrite prints_cons, prints_nil, append_nil in Hf. apply fl_line; auto; [apply one_line_prints|left; auto].
      * constructor; auto. apply (number_prints pre ""). exact Logic.I.
      * cbn [List.concat]. rewrite Ec. auto.
    + destruct (IH (i + 1) (pre ++ [p])%list) as (r & chunks & body & E & Hf & Hc & Ec). rewrite E. cbn [bind].
      eexists. exists chunks, body. split; [reflexivity|]. split; [|split; auto].
      * rewrite prints_app, prints_cons, prints_nil, append_nil, append_ass in Hf. exact Hf.
      * rewrite Ec, <- app_assoc. auto.
Qed.
Lemma number_two a b : number_line [a; b] (numeral a ++ " " ++ numeral b).
Proof. apply (num_next "" a [b] (numeral b)); [exact Logic.I|]. apply (num_last " " b). split; auto. exact Logic.I. Qed.
Lemma one_line_two a b : one_line (numeral a ++ " " ++ numeral b).
Proof. apply one_line_app; [apply one_line_numeral|]. apply one_line_app; [cbn [one_line]; repeat split; discriminate|apply one_line_numeral]. Qed.

Lemma pgm_writer_l px st w h max : state_of px st -> 0 < w -> 0 <= h -> Z.of_nat (List.length px) = w * h ->
  exists s, varSetToPGM st w h max = Ok s /\ pgm_text w h max px s.
Proof.
  intros Hs Hw Hh Hl. unfold varSetToPGM. rewrite (pixelsOf_ok px st Hs). cbn [bind].
  destruct (printRows_lines w px ltac:(lia) 0 []) as (r & chunks & body & E & Hf & Hc & Ec). rewrite E. cbn [bind]. eexists. split; [reflexivity|].
  exists (numeral w ++ " " ++ numeral h), (numeral max), chunks, body. rewrite prints_nil in Hf. cbn [append] in Hf. cbn [app] in Ec. split.
  - apply (fl_line "P2" newline); [cbn [one_line]; repeat split; discriminate|left; auto|].
    change (itoa w) with (numeral w). change (itoa h) with (numeral h). change (itoa max) with (numeral max).
    replace (numeral w ++ " " ++ numeral h ++ newline ++ numeral max ++ newline ++ r) with ((numeral w ++ " " ++ numeral h) ++ newline ++ numeral max ++ newline ++ r) by (rewrite !append_ass; auto).
    apply fl_line; [apply one_line_two|left; auto|]. apply fl_line; [apply one_line_numeral|left; auto|auto].
  - split; [apply number_two|]. split; [apply (num_last "" max); exact Logic.I|]. rewrite Ec. repeat split; auto. lia.
Qed.
Lemma pgm_writer_panic_l st w h max k : In k (keys st) -> k < 0 \/ Z.of_nat (List.length st) <= k -> varSetToPGM st w h max = Panic.
Proof. intros H1 H2. unfold varSetToPGM. rewrite (pixelsOf_panic st k); auto. Qed.

(** Bitmaps. *)
Lemma one_line_bits vs line : bit_line vs line -> one_line line.
Proof. induction 1 as [|vs t H IH|vs t H IH|vs c t Hc H IH]; cbn [one_line]; auto; repeat split; auto; try discriminate; destruct Hc as [<-|[<-|[]]]; discriminate. Qed.
Lemma bits_prints vs : (forall v, In v vs -> v = 0 \/ v = 1) -> bit_line vs (prints numeral vs) /\ no_margin (prints numeral vs).
Proof.
  induction vs as [|v vs IH]; intros H.
  - split; [constructor|]. intros c t E. discriminate.
  - destruct (IH ltac:(intros; apply H; right; auto)) as (H1 & _). rewrite prints_cons. destruct (H v (or_introl eq_refl)) as [->| ->].
    + change (numeral 0) with "0". cbn [append]. split; [constructor; auto|]. intros c t E. injection E as <- <-. split; discriminate.
    + change (numeral 1) with "1". cbn [append]. split; [constructor; auto|]. intros c t E. injection E as <- <-. split; discriminate.
Qed.
Lemma printBits_lines px : forall i pre, (forall v, In v (pre ++ px)%list -> v = 0 \/ v = 1) -> exists chunks body,
  file_lines body (prints numeral pre ++ printBits i px) /\ Forall2 bit_line chunks body /\ Forall no_margin body /\ List.concat chunks = (pre ++ px)%list.
Proof.
  induction px as [|p px IH]; intros i pre Hv.
  - rewrite app_nil_r in *. cbn [printBits]. rewrite append_nil. destruct (bits_prints pre Hv) as (H1 & H2). destruct pre as [|v pre].
    + exists [], []. split; [constructor|]. repeat split; constructor.
    + exists [v :: pre], [prints numeral (v :: pre)]. split; [|split; [|split]]; auto.
      * constructor; [eapply one_line_bits; eauto|]. rewrite prints_cons. destruct (numeral_first v (prints numeral pre)) as (c & t & E' & _). rewrite E'. discriminate.
      * cbn [List.concat]. apply app_nil_r.
  - cbn [printBits]. change (itoa p) with (numeral p). destruct (Z.rem i 71 =? 0).
    + destruct (IH (i + 1) [p]) as (chunks & body & Hf & Hc & Hm & Ec).
      { intros v Hin. apply Hv. apply in_or_app. right. exact Hin. }
      destruct (bits_prints pre ltac:(intros; apply Hv, in_or_app; auto)) as (H1 & H2).
      exists (pre :: chunks), (prints numeral pre :: body). split; [|split; [|split]]; auto.
      * rewrite prints_cons, prints_nil, append_nil in Hf. apply fl_line; auto; [eapply one_line_bits; eauto|left; auto].
      * cbn [List.concat]. rewrite Ec. auto.
    + destruct (IH (i + 1) (pre ++ [p])%list) as (chunks & body & Hf & Hc & Hm & Ec).
      { intros v Hin. apply Hv. rewrite <- app_assoc in Hin. exact Hin. }
      exists chunks, body. split; [|split; [|split]]; auto.
      * rewrite prints_app, prints_cons, prints_nil, append_nil, append_ass in Hf. exact Hf.
      * rewrite Ec, <- app_assoc. auto.
Qed.
Lemma pbm_writer_l px st w h : state_of px st -> (forall v, In v px -> v = 0 \/ v = 1) -> 0 <= w -> 0 <= h -> Z.of_nat (List.length px) = w * h ->
  exists s, varSetToPBM st w h = Ok s /\ pbm_text true w h px s.
Proof.
  intros Hs Hv Hw Hh Hl. unfold varSetToPBM. rewrite (pixelsOf_ok px st Hs). cbn [bind]. eexists. split; [reflexivity|].
  destruct (printBits_lines px 0 [] Hv) as (chunks & body & Hf & Hc & Hm & Ec). rewrite prints_nil in Hf. cbn [append] in Hf. cbn [app] in Ec.
  exists (numeral w ++ " " ++ numeral h), chunks, body. split.
  - apply (fl_line "P1" newline); [cbn [one_line]; repeat split; discriminate|left; auto|].
    change (itoa w) with (numeral w). change (itoa h) with (numeral h).
    replace (numeral w ++ " " ++ numeral h ++ newline ++ printBits 0 px) with ((numeral w ++ " " ++ numeral h) ++ newline ++ printBits 0 px) by (rewrite !append_ass; auto).
    apply fl_line; [apply one_line_two|left; auto|auto].
  - split; [apply number_two|]. rewrite Ec. repeat split; auto.
Qed.

(** Images written and read back. *)
Lemma round_trip_l dir w h max imgs :
  Forall2 (Forall2 (fun px f => exists st, state_of px st /\ varSetToPGM st w h max = Ok f)) imgs (classes dir) -> List.concat imgs <> [] ->
  0 < w -> 0 <= h -> int64 w -> int64 h -> int64 (w * h) -> int64 max -> int64 (max + 1) -> int64 (Z.of_nat (List.length imgs)) ->
  (forall px, In px (List.concat imgs) -> Z.of_nat (List.length px) = w * h /\ forall v, In v px -> int64 v) ->
  exists out sc data, pgmFToData dir = Ok (w, h, max, out) /\ parseData (fileLines out) = Ok (sc, data) /\
    image_vars (w * h) (max + 1) (Some (Z.of_nat (List.length imgs))) sc /\ Forall2 as_row (labelled 0 imgs) data.
Proof.
  intros HF Hne Hw Hh H1 H2 H3 H4 H5 H6 Hv. apply pgm_data_l; auto.
  - pose proof (strengthen _ _ _ _ HF Hv) as HF2. eapply f2_impl; [|exact HF2]. intros c fs. apply f2_impl. intros px f ((st & Hs & E) & Hl & _).
    destruct (pgm_writer_l px st w h max Hs Hw Hh Hl) as (s & E' & Ht). rewrite E' in E. injection E as <-. auto.
  - intros px Hp. apply Hv. auto.
Qed.

(** The raw colour format. *)
Lemma app_len a b : String.length (a ++ b) = (String.length a + String.length b)%nat.
Proof. induction a as [|c a IH]; auto. cbn [append String.length]. rewrite IH. auto. Qed.
Lemma numeral_len z : (1 <= String.length (numeral z))%nat.
Proof. pose proof (numeral_nonempty z). destruct (numeral z); [congruence|simpl; lia]. Qed.
Lemma printRows_len w px : forall i r, printRows printGray w i px = Ok r -> (6 * List.length px <= String.length r)%nat.
Proof.
  induction px as [|p px IH]; intros i r H; cbn [printRows] in H; [injection H as <-; simpl; lia|].
  apply bind_ok in H as (q & _ & H). apply bind_ok in H as (s & Hs & H). injection H as <-. specialize (IH _ _ Hs).
  unfold printGray, drawRGB. rewrite !app_len. cbn [List.length String.length]. pose proof (numeral_len p). change (itoa p) with (numeral p). lia.
Qed.
Lemma append_inj a b c : a ++ b = a ++ c -> b = c.
Proof. induction a as [|x a IH]; auto. cbn [append]. intros H. injection H. auto. Qed.
Lemma ppm_never_l px st w h max s : state_of px st -> px <> [] -> Z.of_nat (List.length px) = w * h ->
  varSetToPPM st w h max = Ok s -> ~ raw_ppm w h max s.
Proof.
  intros Hs Hne Hl H (body & -> & Hb). unfold varSetToPPM in H. rewrite (pixelsOf_ok px st Hs) in H. cbn [bind] in H.
  apply bind_ok in H as (r & Hr & H). apply printRows_len in Hr. injection H as H.
  change (itoa w) with (numeral w) in H. change (itoa h) with (numeral h) in H. change (itoa max) with (numeral max) in H.
  apply append_inj in H. injection H as H. apply append_inj in H. injection H as H. apply append_inj in H. injection H as ->.
  destruct px as [|p px]; [congruence|]. cbn [List.length] in *. lia.
Qed.

(** The same for bitmaps. *)
Lemma pbm_round_trip_l dir w h imgs :
  Forall2 (Forall2 (fun px f => exists st, state_of px st /\ varSetToPBM st w h = Ok f)) imgs (classes dir) -> List.concat imgs <> [] ->
  0 <= w -> 0 <= h -> int64 w -> int64 h -> int64 (w * h) -> int64 (Z.of_nat (List.length imgs)) ->
  (forall px, In px (List.concat imgs) -> Z.of_nat (List.length px) = w * h /\ forall v, In v px -> v = 0 \/ v = 1) ->
  exists out sc data, pbmFToData dir = Ok out /\ parseData (fileLines out) = Ok (sc, data) /\
    image_vars (w * h) 2 (Some (Z.of_nat (List.length imgs))) sc /\ Forall2 as_row (labelled 0 imgs) data.
Proof.
  intros HF Hne Hw Hh H1 H2 H3 H4 Hv. apply pbm_data_l; auto.
  pose proof (strengthen _ _ _ _ HF Hv) as HF2. eapply f2_impl; [|exact HF2]. intros c fs. apply f2_impl. intros px f ((st & Hs & E) & Hl & Hb).
  destruct (pbm_writer_l px st w h Hs Hb Hw Hh Hl) as (s & E2 & Ht). rewrite E2 in E. injection E as <-. auto.
Qed.
