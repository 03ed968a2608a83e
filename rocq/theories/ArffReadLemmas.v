From Coq Require Import Ascii String.
From Verif Require Import Base Res GoMap DataSpec DataLemmas Text TextSpec TextLemmas Parse ParseLemmas Arff ArffSpec ArffLemmas ArffCatLemmas CompileLemmas ArffReadSpec.
Local Open Scope string_scope.
Local Open Scope Z_scope.

(** Fields. *)
Definition misses (p : ascii -> bool) (s : string) : Prop := allChars (fun c => p c = false) s.
Lemma acc_word p w : forall r, misses p w -> fieldsAcc p (w ++ r) = (w ++ fst (fieldsAcc p r), snd (fieldsAcc p r)).
Proof.
  induction w as [|c w IH]; intros r H; cbn [append]; [destruct (fieldsAcc p r); auto|]. destruct H as (Hc & Hw).
  cbn [fieldsAcc]. rewrite (IH r Hw), Hc. cbn [fst snd]. auto.
Qed.
Lemma ff_cons p s r : p s = true -> fieldsFunc p (String s r) = fieldsFunc p r.
Proof. intros H. unfold fieldsFunc. cbn [fieldsAcc]. destruct (fieldsAcc p r) as [h q]. rewrite H. auto. Qed.
Lemma ff_cut p w s r : w <> "" -> misses p w -> p s = true -> fieldsFunc p (w ++ String s r) = w :: fieldsFunc p r.
Proof.
  intros Hw Hm Hs. unfold fieldsFunc. rewrite acc_word by auto. cbn [fieldsAcc]. destruct (fieldsAcc p r) as [h q]. rewrite Hs. cbn [fst snd].
  rewrite append_nil. destruct w; [congruence|auto].
Qed.
Lemma ff_word p w : w <> "" -> misses p w -> fieldsFunc p w = [w].
Proof.
  intros Hw Hm. unfold fieldsFunc. rewrite <- (append_nil w) at 1. rewrite acc_word by auto. cbn [fieldsAcc fst snd]. rewrite append_nil. destruct w; [congruence|auto].
Qed.
Lemma ff_joined p l r : p ","%char = true -> (forall v, In v l -> v <> "" /\ misses p v) -> (r = "" \/ exists s t, r = String s t /\ p s = true /\ fieldsFunc p t = []) ->
  fieldsFunc p (joined "," l ++ r) = l.
Proof.
  intros Hp. induction l as [|x l IH]; intros H Hr.
  - cbn [joined append]. destruct Hr as [->|(s & t & -> & Hs & Ht)]; [reflexivity|]. rewrite ff_cons by auto. auto.
  - destruct (H x (or_introl eq_refl)) as (Hx & Hmx). destruct l as [|y l].
    + cbn [joined]. destruct Hr as [->|(s & t & -> & Hs & Ht)]; [rewrite append_nil; apply ff_word; auto|]. rewrite ff_cut, Ht by auto. auto.
    + change (joined "," (x :: y :: l)) with (x ++ "," ++ joined "," (y :: l)). rewrite !append_ass.
      change (x ++ "," ++ joined "," (y :: l) ++ r) with (x ++ String "," (joined "," (y :: l) ++ r)).
      rewrite ff_cut by auto. f_equal. apply IH; auto. intros v Hv. apply H. right; auto.
Qed.

(** Words. *)
Lemma space_special c : isSpace c = true -> In c special.
Proof. destruct c as [[] [] [] [] [] [] [] []]; vm_compute; intros H; try discriminate H; tauto. Qed.
Lemma class_special c : classSep c = true -> In c special.
Proof. destruct c as [[] [] [] [] [] [] [] []]; vm_compute; intros H; try discriminate H; tauto. Qed.
Lemma plain_misses p s : (forall c, p c = true -> In c special) -> plain s -> misses p s.
Proof. intros Hp. induction s as [|c s IH]; [intros _; exact Logic.I|]. intros (Hc & Hs). split; [destruct (p c) eqn:E; [exfalso; apply Hc; auto|auto]|apply IH; auto]. Qed.
Lemma num_misses z : misses (fun c => Ascii.eqb c " " || Ascii.eqb c ",") (numeral z).
Proof.
  eapply allChars_impl; [|apply numeral_chars]. intros c Hc.
  destruct (Ascii.eqb_spec c " ") as [->|]; [exfalso; eapply numChar_not_blank; eauto|]. cbn [orb].
  destruct (Ascii.eqb_spec c ",") as [->|]; auto. apply numChar_not_sep in Hc. discriminate Hc.
Qed.
Lemma misses_app p a b : misses p a -> misses p b -> misses p (a ++ b).
Proof. induction a as [|c a IH]; cbn [append]; auto. intros (H1 & H2) H3. split; auto. apply IH; auto. Qed.
Lemma space_misses_joined vs : (forall v, In v vs -> word v) -> misses isSpace (joined "," vs).
Proof.
  induction vs as [|x vs IH]; intros H; [exact Logic.I|]. assert (Hx : misses isSpace x) by (apply plain_misses; [exact space_special|apply H; left; auto]).
  destruct vs as [|y vs]; auto. change (joined "," (x :: y :: vs)) with (x ++ String "," (joined "," (y :: vs))).
  assert (Hr : misses isSpace (String "," (joined "," (y :: vs)))) by (split; [reflexivity|apply IH; intros; apply H; right; auto]).
  apply misses_app; auto.
Qed.

Lemma lower_app a b : toLower (a ++ b) = toLower a ++ toLower b.
Proof. induction a as [|c a IH]; cbn [append toLower]; [auto|]. rewrite IH. auto. Qed.
Lemma lower_space c : isSpace (lowerChar c) = isSpace c.
Proof. destruct c as [[] [] [] [] [] [] [] []]; reflexivity. Qed.
Lemma lower_misses t : forall u, toLower t = u -> misses isSpace u -> misses isSpace t.
Proof.
  induction t as [|c t IH]; intros u <- H; [exact Logic.I|]. cbn [toLower] in H. destruct H as (H1 & H2). split; [rewrite <- lower_space; auto|]. eapply IH; eauto.
Qed.
Lemma lower_at c : lowerChar c = "@"%char -> c = "@"%char.
Proof. destruct c as [[] [] [] [] [] [] [] []]; vm_compute; intros H; congruence. Qed.
Lemma lower_keyword kw t r : toLower kw = String "@" t -> isComment (kw ++ r) = false.
Proof. destruct kw as [|c kw]; [discriminate|]. cbn [toLower]. intros H. injection H as Hc _. apply lower_at in Hc as ->. reflexivity. Qed.

Lemma kind_misses a : declares a -> kind_text (snd a) <> "" /\ misses isSpace (kind_text (snd a)).
Proof.
  intros (_ & H). destruct (snd a) as [t|t|vs]; cbn [kind_text].
  - split; [intros ->; discriminate|]. eapply lower_misses; [exact H|repeat split].
  - split; [intros ->; discriminate|]. eapply lower_misses; [exact H|repeat split].
  - split; [discriminate|]. cbn [append]. split; [reflexivity|]. apply misses_app; [apply space_misses_joined; apply H|repeat split].
Qed.

(** The header. *)
Lemma declaration_line kw st a : toLower kw = "@attribute" -> declares a -> adata st = false ->
  arffLine st (declaration kw a) = Ok (mkArff (aname st) (acols st ++ [newColumn (fst a) (kind_text (snd a))]) false (avals st)).
Proof.
  intros Hk Ha Hd. assert (Ef : fields (declaration kw a) = [kw; fst a; kind_text (snd a)]).
  { unfold fields, declaration. change (kw ++ " " ++ fst a ++ " " ++ kind_text (snd a)) with (kw ++ String " " (fst a ++ String " " (kind_text (snd a)))).
    rewrite ff_cut; [|intros ->; discriminate|eapply lower_misses; [exact Hk|repeat split]|reflexivity]. destruct (kind_misses a Ha) as (H1 & H2). destruct Ha as ((H3 & H4) & _).
    rewrite ff_cut; [|auto|apply plain_misses; [exact space_special|auto]|reflexivity]. rewrite ff_word; auto. }
  unfold arffLine. rewrite Hd, Ef. cbn [negb skipn joinAll fold_right]. rewrite append_nil. unfold declaration. rewrite (lower_keyword kw _ _ Hk), lower_app, Hk.
  cbn -[newColumn kind_text toLower]. reflexivity.
Qed.
Lemma header_read kw : toLower kw = "@attribute" -> forall attrs st, (forall a, In a attrs -> declares a) -> adata st = false ->
  foldr_ arffLine (map (declaration kw) attrs) st =
  Ok (mkArff (aname st) (acols st ++ map (fun a => newColumn (fst a) (kind_text (snd a))) attrs) false (avals st)).
Proof.
  intros Hkw. induction attrs as [|a attrs IH]; intros st H Hd; cbn [map foldr_].
  - rewrite app_nil_r. destruct st; cbn in *; subst; auto.
  - rewrite declaration_line; [|auto|apply H; left; auto|auto]. cbn [bind]. rewrite IH; [|intros; apply H; right; auto|reflexivity].
    cbn [aname acols avals]. rewrite <- app_assoc. auto.
Qed.

Lemma labels_read : forall (l : list string) s (m : smap) v, let m' := fold_left (fun m jt => sput m (snd jt) (Z.of_nat (fst jt))) (combine (seq s (List.length l)) l) m in
  (~ In v l -> sget m' v = sget m v) /\ (NoDup l -> forall i, nth_error l i = Some v -> sget m' v = Some (Z.of_nat (s + i))).
Proof.
  induction l as [|tk l IH]; intros s m v; cbn [List.length seq combine fold_left fst snd].
  - split; auto. intros _ [|i]; discriminate.
  - destruct (IH (S s) (sput m tk (Z.of_nat s)) v) as (H1 & H2). split.
    + intros Hv. rewrite H1 by (intros X; apply Hv; right; auto). rewrite sget_sput. destruct (String.eqb_spec tk v) as [<-|]; auto. exfalso; apply Hv; left; auto.
    + intros Hnd [|i] Hi; inversion Hnd; subst.
      * injection Hi as ->. rewrite H1 by auto. rewrite sget_sput, String.eqb_refl. f_equal. lia.
      * rewrite (H2 ltac:(auto) i Hi). f_equal. lia.
Qed.

Definition typeOf (k : kind) : colType := match k with Numeric _ => TNumeric | Free _ => TString | Nominal _ => TClass end.
Lemma newColumn_kind a : declares a -> let c := newColumn (fst a) (kind_text (snd a)) in
  cname c = fst a /\ ctyp c = typeOf (snd a) /\
  forall vs, snd a = Nominal vs -> ccat c = Z.of_nat (List.length vs) /\ forall i v, nth_error vs i = Some v -> sget (clab c) v = Some (Z.of_nat i).
Proof.
  intros (_ & H). destruct (snd a) as [t|t|vs]; cbv zeta.
  - unfold newColumn. cbn [kind_text]. rewrite H. split; [reflexivity|]. split; [reflexivity|discriminate].
  - unfold newColumn. cbn [kind_text]. rewrite H. split; [reflexivity|]. split; [reflexivity|discriminate].
  - destruct H as (Hnd & Hw). assert (Ef : fieldsFunc classSep (kind_text (Nominal vs)) = vs).
    { cbn [kind_text append]. rewrite ff_cons by reflexivity. apply ff_joined; [reflexivity| |].
      - intros v Hv. destruct (Hw v Hv) as (H1 & H2). split; auto. apply plain_misses; auto. exact class_special.
      - right. exists "}"%char, "". repeat split. }
    assert (E : newColumn (fst a) (kind_text (Nominal vs)) = mkCol TClass (Z.of_nat (List.length vs)) (fst a)
       (fold_left (fun m jt => sput m (snd jt) (Z.of_nat (fst jt))) (combine (seq 0 (List.length vs)) vs) []) 0).
    { unfold newColumn. rewrite Ef. reflexivity. }
    rewrite E. cbn [cname ctyp ccat clab]. split; auto. split; auto. intros vs' Ev. injection Ev as <-. split; auto.
    intros i v Hi. apply (labels_read vs 0%nat [] v); auto.
Qed.

(** The instances. *)
Lemma f2_length {A B} (R : A -> B -> Prop) a b : Forall2 R a b -> List.length a = List.length b.
Proof. induction 1; cbn; congruence. Qed.
Lemma f2_nth {A B} (R : A -> B -> Prop) a b k x y : Forall2 R a b -> nth_error a k = Some x -> nth_error b k = Some y -> R x y.
Proof. intros H. revert k. induction H as [|x0 y0 a b H0 H IH]; intros [|k] Hx Hy; try discriminate; cbn in *; [congruence|eauto]. Qed.
Lemma f2_of_nth {A B} (R : A -> B -> Prop) : forall a b, List.length a = List.length b -> (forall k x y, nth_error a k = Some x -> nth_error b k = Some y -> R x y) -> Forall2 R a b.
Proof.
  induction a as [|x a IH]; intros [|y b] HL H; try discriminate; constructor; [apply (H 0%nat); auto|]. apply IH; [cbn in HL; congruence|]. intros k. apply (H (S k)).
Qed.

Lemma token_total c tk : (ctyp c = TNumeric -> exists z, int64 z /\ tk = numeral z) -> exists r, arffToken c tk = Ok r.
Proof.
  intros H. unfold arffToken. destruct (ctyp c).
  - destruct (H eq_refl) as (z & Hz & ->). rewrite atoi_numeral by auto. eauto.
  - destruct (sget (clab c) tk); eauto.
  - destruct (sget (clab c) tk); eauto.
Qed.
Lemma row_total : forall v i cols m, (i + List.length v <= List.length cols)%nat ->
  (forall k tk c, nth_error v k = Some tk -> nth_error cols (i + k) = Some c -> ctyp c = TNumeric -> exists z, int64 z /\ tk = numeral z) ->
  exists r, foldi_from i rowStep v (cols, m) = Ok r.
Proof.
  induction v as [|tk v IH]; intros i cols m HL H; cbn [foldi_from]; [eauto|]. cbn [List.length] in HL.
  unfold rowStep at 1. cbn [fst snd]. unfold idx. destruct (nth_error cols i) as [c|] eqn:Ec; [|apply nth_error_None in Ec; lia]. cbn [orPanic bind].
  destruct (token_total c tk) as ([c' x] & Et). { apply (H 0%nat); auto. rewrite Nat.add_0_r. auto. }
  rewrite Et. cbn [bind fst snd]. apply IH; [rewrite set_nth_length; lia|].
  intros k tk' c1 H1 H2. rewrite nth_error_set_nth_diff in H2 by lia. apply (H (S k)); auto. rewrite <- H2. f_equal. lia.
Qed.
Lemma row_types cols v cols' m : arffRow cols v = Ok (cols', m) -> map ctyp cols' = map ctyp cols.
Proof.
  intros H. apply row_ok in H as (HL & H).
  assert (X : forall j, nth_error (map ctyp cols') j = nth_error (map ctyp cols) j).
  { intros j. rewrite !nth_error_map. specialize (H j). destruct (nth_error v j).
    - destruct H as (c & c' & x & E1 & E2 & Et & _). rewrite E1, E2. cbn. f_equal. apply token_ok in Et. apply Et.
    - destruct H as (-> & _). auto. }
  revert X. generalize (map ctyp cols') (map ctyp cols). clear. intros a. induction a as [|x a IH]; intros [|y b] X; auto.
  - specialize (X 0%nat). discriminate.
  - specialize (X 0%nat). discriminate.
  - f_equal; [specialize (X 0%nat); injection X; auto|]. apply IH. intros j. apply (X (S j)).
Qed.

Lemma fits_token a v : declares a -> fits a v -> v <> "" /\ misses (fun c => Ascii.eqb c " " || Ascii.eqb c ",") v.
Proof.
  intros Ha Hf. unfold fits in Hf. assert (Hw : word v -> v <> "" /\ misses (fun c => Ascii.eqb c " " || Ascii.eqb c ",") v).
  { intros (H1 & H2). split; auto. apply plain_misses; auto. intros c Hc. apply orb_true_iff in Hc as [Hc|Hc]; apply Ascii.eqb_eq in Hc as ->; vm_compute; tauto. }
  destruct (snd a) as [t|t|vs] eqn:Ea; auto.
  - destruct Hf as (z & _ & ->). split; [apply numeral_nonempty|apply num_misses].
  - apply Hw. destruct Ha as (_ & Ha). rewrite Ea in Ha. apply Ha. auto.
Qed.
Lemma tokens_row attrs row : (forall a, In a attrs -> declares a) -> Forall2 fits attrs row -> tokens (joined "," row) = row.
Proof.
  intros Ha Hf. unfold tokens. rewrite <- (append_nil (joined "," row)). apply ff_joined; auto.
  intros v Hv. apply In_nth_error in Hv as (k & Hk). destruct (nth_error attrs k) as [a|] eqn:Ek.
  - assert (Hfit : fits a v) by (eapply f2_nth; eauto).
    eapply fits_token; [apply Ha; eapply nth_error_In; eauto|auto].
  - exfalso. apply nth_error_None in Ek. apply f2_length in Hf. assert (k < List.length row)%nat by (apply nth_error_Some; congruence). lia.
Qed.
Lemma body_read attrs : (forall a, In a attrs -> declares a) -> forall rows st,
  (forall row, In row rows -> Forall2 fits attrs row /\ ~ comment (joined "," row)) -> adata st = true -> map ctyp (acols st) = map (fun a => typeOf (snd a)) attrs ->
  exists st', foldr_ arffLine (map (joined ",") rows) st = Ok st'.
Proof.
  intros Ha. induction rows as [|row rows IH]; intros st Hr Hd Ht; cbn [map foldr_]; [eauto|].
  destruct (Hr row (or_introl eq_refl)) as (Hf & Hc). unfold arffLine at 1.
  destruct (isComment (joined "," row)) eqn:Ec; [apply isComment_iff in Ec; contradiction|]. rewrite Hd. cbn [negb].
  change (fieldsFunc blankComma (joined "," row)) with (tokens (joined "," row)). rewrite (tokens_row attrs) by auto.
  destruct (row_total row 0 (acols st) []) as ([cols' m] & E).
  - apply (f_equal (@List.length colType)) in Ht. rewrite !map_length in Ht. apply f2_length in Hf. lia.
  - intros k tk c H1 H2 H3. cbn [Nat.add] in H2. assert (X : nth_error (map ctyp (acols st)) k = Some TNumeric) by (rewrite nth_error_map, H2; cbn; congruence).
    rewrite Ht, nth_error_map in X. destruct (nth_error attrs k) as [a|] eqn:Ek; [|discriminate]. cbn in X.
    assert (Hfit : fits a tk) by (eapply f2_nth; eauto).
    unfold fits in Hfit. destruct (snd a); try discriminate. auto.
  - change (foldi_from 0 rowStep row (acols st, [])) with (arffRow (acols st) row) in E. rewrite E. cbn [bind fst snd]. apply IH; [intros; apply Hr; right; auto|reflexivity|].
    cbn [acols]. rewrite (row_types _ _ _ _ E). auto.
Qed.

Lemma not_data kw a : toLower kw = "@attribute" -> ~ starts_data (declaration kw a).
Proof. intros Hk (_ & H). apply hasPrefix_iff in H. unfold declaration in H. rewrite lower_app, Hk in H. cbn in H. discriminate. Qed.

Lemma arff_reads_l kw dk attrs rows : toLower kw = "@attribute" -> toLower dk = "@data" -> (forall a, In a attrs -> declares a) -> (forall row, In row rows -> Forall2 fits attrs row /\ ~ comment (joined "," row)) ->
  exists st, parseArff (map (declaration kw) attrs ++ dk :: map (joined ",") rows) = Ok st /\
    Forall2 (fun a c => cname c = fst a /\ match snd a with
       | Numeric _ => ctyp c = TNumeric | Free _ => ctyp c = TString | Nominal vs => ctyp c = TClass /\ ccat c = Z.of_nat (List.length vs) end) attrs (acols st) /\
    Forall2 (fun row m => forall j a v, nth_error attrs j = Some a -> nth_error row j = Some v ->
       exists x, get m (Z.of_nat j) = Some x /\ match snd a with
         | Numeric _ => v = numeral x | Free _ => True | Nominal vs => 0 <= x /\ nth_error vs (Z.to_nat x) = Some v end) rows (avals st).
Proof.
  intros Hkw Hdk Ha Hr.
  assert (Hd : starts_data dk).
  { split; [|exists ""; rewrite Hdk; reflexivity]. intros Hc. apply isComment_iff in Hc. rewrite <- (append_nil dk) in Hc. rewrite (lower_keyword dk _ _ Hdk) in Hc. discriminate. }
  set (cols := map (fun a => newColumn (fst a) (kind_text (snd a))) attrs).
  assert (E0 : parseArff (map (declaration kw) attrs ++ [dk]) = Ok (mkArff "" cols true [])).
  { unfold parseArff. rewrite foldr_split, header_read by auto. cbn [bind foldr_ aname acols avals app]. rewrite data_line_ok; auto. }
  assert (Ht : map ctyp cols = map (fun a => typeOf (snd a)) attrs).
  { unfold cols. rewrite map_map. apply map_ext_in. intros a Hin. apply newColumn_kind. auto. }
  destruct (body_read attrs Ha rows (mkArff "" cols true []) Hr eq_refl Ht) as (st & Eb).
  assert (E : parseArff (map (declaration kw) attrs ++ dk :: map (joined ",") rows) = Ok st).
  { unfold parseArff in *. rewrite foldr_split in *. destruct (foldr_ arffLine (map (declaration kw) attrs) (mkArff "" [] false [])) as [s1| |]; cbn [bind] in *; try discriminate.
    cbn [foldr_] in *. destruct (arffLine s1 dk) as [s2| |]; cbn [bind] in *; try discriminate. injection E0 as ->. auto. }
  exists st. split; auto.
  assert (HH : forall l, In l (map (declaration kw) attrs) -> ~ starts_data l) by (intros l Hl; apply in_map_iff in Hl as (a & <- & Hin); apply not_data; auto).
  assert (HI : instances (map (joined ",") rows) (map (joined ",") rows)).
  { clear - Hr. induction rows as [|row rows IH]; cbn [map]; [constructor|]. apply inst_take; [apply Hr; left; auto|]. apply IH. intros; apply Hr; right; auto. }
  destruct (arff_whole _ _ _ _ _ _ HH Hd HI E0 E) as (_ & HR). cbn [acols] in HR. destruct (runs_length _ _ _ _ HR) as (HL & HC). rewrite map_length in HL.
  assert (HK : forall j a, nth_error attrs j = Some a -> exists c, nth_error (acols st) j = Some c /\ cname c = fst a /\ ctyp c = typeOf (snd a) /\
     (forall vs, snd a = Nominal vs -> ccat c = Z.of_nat (List.length vs)) /\
     forall i row m v, nth_error rows i = Some row -> nth_error (avals st) i = Some m -> nth_error row j = Some v ->
       exists x, get m (Z.of_nat j) = Some x /\ match snd a with Numeric _ => v = numeral x | Free _ => True | Nominal vs => 0 <= x /\ nth_error vs (Z.to_nat x) = Some v end).
  { intros j a Hj. assert (Hda : declares a) by (apply Ha; eapply nth_error_In; eauto). destruct (newColumn_kind a Hda) as (K1 & K2 & K3).
    assert (Hc0 : nth_error cols j = Some (newColumn (fst a) (kind_text (snd a)))) by (unfold cols; rewrite nth_error_map, Hj; auto).
    set (c0 := newColumn (fst a) (kind_text (snd a))) in *.
    destruct (runs_col _ _ _ _ HR j c0 Hc0) as (c & Hc & Hg & _ & _ & Hall). destruct (runs_cat _ _ _ _ HR j c0 Hc0) as (c' & Hc' & _ & _ & Hk). rewrite Hc in Hc'. injection Hc' as <-.
    exists c. split; auto. destruct Hg as (G1 & G2 & G3 & G4). split; [congruence|]. split; [congruence|].
    split. { intros vs Ev. rewrite Hk by (rewrite K2, Ev; auto). apply K3. auto. }
    intros i row m v H1 H2 H3. destruct (Hr row ltac:(eapply nth_error_In; eauto)) as (Hf & _).
    assert (Hfit : fits a v) by (eapply f2_nth; eauto).
    destruct (Hall i (joined "," row) m v) as (x & Ex & Sx & Nx); auto.
    { rewrite nth_error_map, H1. auto. } { rewrite (tokens_row attrs) by auto. auto. }
    exists x. split; auto. unfold fits in Hfit. destruct (snd a) as [t|t|vs] eqn:Ek; auto.
    - destruct Hfit as (z & Hz & ->). destruct (Nx K2) as (Hx & _). rewrite atoi_numeral in Hx by auto. injection Hx as ->. auto.
    - destruct (K3 vs eq_refl) as (_ & Hlab). apply In_nth_error in Hfit as (k & Hkv). specialize (Hlab k v Hkv). apply G4 in Hlab.
      rewrite Sx in Hlab by (right; auto). injection Hlab as ->. split; [lia|]. rewrite Nat2Z.id. auto. }
  split.
  - apply f2_of_nth.
    + unfold cols in HC. rewrite map_length in HC. auto.
    + intros k a c H1 H2. destruct (HK k a H1) as (c' & H3 & H4 & H5 & H6 & _). rewrite H2 in H3. injection H3 as <-. split; auto.
      destruct (snd a); auto.
  - apply f2_of_nth; [auto|]. intros i row m H1 H2 j a v H3 H4. destruct (HK j a H3) as (_ & _ & _ & _ & _ & H5). eauto.
Qed.

(** A file with an attribute of each kind. *)
Definition readAttrs : list (string * kind) := [("Rating", Numeric "NUMERIC"); ("tag", Free "string"); ("Size", Nominal ["small"; "large"])].
Definition readRows : list (list string) := [["3"; "x"; "large"]; ["-1"; "y"; "small"]].
Lemma plain_dec (s : string) : (fix f (s : string) : bool := match s with EmptyString => true | String c t => negb (existsb (Ascii.eqb c) special) && f t end) s = true -> plain s.
Proof.
  induction s as [|c s IH]; [intros _; exact Logic.I|]. intros H. apply andb_true_iff in H as (H1 & H2). split; [|apply IH; auto].
  intros Hin. apply negb_true_iff in H1. assert (X : existsb (Ascii.eqb c) special = true) by (apply existsb_exists; exists c; split; [auto|apply Ascii.eqb_refl]). congruence.
Qed.
Ltac is_word := split; [discriminate|apply plain_dec; vm_compute; reflexivity].
Lemma arff_reads_case_l : (forall a, In a readAttrs -> declares a) /\ (forall row, In row readRows -> Forall2 fits readAttrs row /\ ~ comment (joined "," row)) /\
  parseArff (map (declaration "@Attribute") readAttrs ++ "@DATA" :: map (joined ",") readRows) =
  Ok (mkArff "" [mkCol TNumeric 4 "Rating" [] 0; mkCol TString 2 "tag" [("y", 1); ("x", 0)] 2; mkCol TClass 2 "Size" [("large", 1); ("small", 0)] 0] true
        [[(2, 1); (1, 0); (0, 3)]; [(2, 0); (1, 1); (0, -1)]]).
Proof.
  split; [|split; [|vm_compute; reflexivity]].
  - intros a [<-|[<-|[<-|[]]]]; (split; [is_word|]); try reflexivity. cbn [snd]. split.
    + constructor; [intros [X|[]]; discriminate|]. constructor; [intros []|constructor].
    + intros v [<-|[<-|[]]]; is_word.
  - intros row [<-|[<-|[]]]; (split; [|intros (t & X); discriminate]).
    + constructor; [exists 3; split; [split; vm_compute; congruence|reflexivity]|]. constructor; [is_word|]. constructor; [right; left; auto|constructor].
    + constructor; [exists (-1); split; [split; vm_compute; congruence|reflexivity]|]. constructor; [is_word|]. constructor; [left; auto|constructor].
Qed.
