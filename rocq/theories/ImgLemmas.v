From Coq Require Import Ascii String.
From Verif Require Import Base Res GoMap DataSpec DataLemmas TablesLemmas TopoLemmas Text TextSpec TextLemmas Parse ParseLemmas Img ImgSpec.
Local Open Scope string_scope.
Local Open Scope Z_scope.

(** The folder. *)
Definition keep (e : string * entry) : bool := negb (reserved e).
Lemma removeAt_mid p e l : removeAt (p ++ e :: l)%list (Z.of_nat (List.length p)) = Ok (p ++ l)%list.
Proof.
  unfold removeAt. rewrite app_length. cbn [List.length].
  destruct (Z.ltb_spec (Z.of_nat (List.length p)) 0); [lia|]. destruct (Z.leb_spec (Z.of_nat (List.length p + S (List.length l))) (Z.of_nat (List.length p))); [lia|].
  cbn [orb]. rewrite Nat2Z.id. rewrite firstn_app, firstn_all, Nat.sub_diag. cbn [firstn]. rewrite app_nil_r.
  f_equal. f_equal. replace (S (List.length p)) with (List.length p + 1)%nat by lia.
  rewrite skipn_app. rewrite skipn_all2 by lia. replace (List.length p + 1 - List.length p)%nat with 1%nat by lia. reflexivity.
Qed.
Lemma filter_le {T} (f : T -> bool) l : (List.length (filter f l) <= List.length l)%nat.
Proof. induction l as [|a l IH]; simpl; auto. destruct (f a); simpl; lia. Qed.
Lemma markLoop_ok : forall l p mrk c,
  foldr_ removeAt mrk (p ++ l)%list = Ok (filter keep p ++ l)%list ->
  (mrk = [] -> c = 1 /\ filter keep p = p) ->
  (mrk <> [] -> c = Z.of_nat (List.length p) - Z.of_nat (List.length (filter keep p))) ->
  foldr_ removeAt (markLoop l (Z.of_nat (List.length p)) mrk c) (p ++ l)%list = Ok (filter keep (p ++ l)).
Proof.
  induction l as [|e l IH]; intros p mrk c H0 H1 H2.
  - cbn [markLoop]. rewrite app_nil_r in *. rewrite H0. rewrite app_nil_r. auto.
  - cbn [markLoop]. replace (p ++ e :: l)%list with ((p ++ [e]) ++ l)%list in * by (rewrite <- app_assoc; auto).
    assert (L : Z.of_nat (List.length p) + 1 = Z.of_nat (List.length (p ++ [e]))) by (rewrite app_length; cbn [List.length]; lia).
    rewrite L. assert (Fp : filter keep (p ++ [e]) = (filter keep p ++ (if reserved e then [] else [e]))%list).
    { rewrite filter_app. cbn [filter]. unfold keep. destruct (reserved e); auto. }
    destruct (reserved e) eqn:R.
    + assert (Hm : foldr_ removeAt [Z.of_nat (List.length (filter keep p))] (filter keep p ++ e :: l)%list = Ok (filter keep (p ++ [e]) ++ l)%list).
      { cbn [foldr_]. rewrite removeAt_mid. cbn [bind]. rewrite Fp, app_nil_r. auto. }
      assert (Lf : (List.length (filter keep (p ++ [e])) = List.length (filter keep p))%nat) by (rewrite Fp, app_nil_r; auto).
      destruct mrk as [|m mrk].
      * destruct (H1 eq_refl) as (-> & E1). apply IH.
        -- rewrite E1 in Hm. rewrite <- app_assoc. cbn [app]. exact Hm.
        -- discriminate.
        -- intros _. rewrite Lf, E1, app_length. cbn [List.length]. lia.
      * specialize (H2 ltac:(discriminate)). subst c. apply IH.
        -- rewrite foldr_app. rewrite H0. cbn [bind].
           replace (Z.of_nat (List.length p) - (Z.of_nat (List.length p) - Z.of_nat (List.length (filter keep p)))) with (Z.of_nat (List.length (filter keep p))) by lia.
           exact Hm.
        -- intros E. symmetry in E. apply app_cons_not_nil in E. destruct E.
        -- intros _. rewrite Lf, app_length. cbn [List.length]. lia.
    + apply IH.
      * rewrite H0, Fp, <- app_assoc. auto.
      * intros E. destruct (H1 E) as (-> & E1). split; auto. rewrite Fp, E1. auto.
      * intros E. rewrite (H2 E), Fp, !app_length. cbn [List.length]. lia.
Qed.
Lemma subdirs_ok l : subdirs l = Ok (filter keep l).
Proof. unfold subdirs. apply (markLoop_ok l [] [] 1); auto; congruence. Qed.

Fixpoint numbered (i : Z) (cs : list (list string)) : list (string * Z) :=
  match cs with [] => [] | fs :: t => (map (fun f => (f, i)) fs ++ numbered (i + 1) t)%list end.
Lemma subfiles_ok l : forall i, subfiles (filter keep l) i = Ok (numbered i (classes l)).
Proof.
  induction l as [|[name [|fs]] l IH]; intros i; auto.
  - cbn [filter]. unfold keep at 1, reserved. cbn [fst snd]. rewrite orb_true_r. cbn [negb classes flat_map app]. apply IH.
  - cbn [filter]. unfold keep at 1, reserved. cbn [fst snd]. rewrite orb_false_r.
    unfold classes. cbn [flat_map]. destruct (String.eqb name "compiled"); cbn [negb]; [apply IH|].
    cbn [subfiles app numbered]. rewrite IH. reflexivity.
Qed.
Lemma classes_len l : List.length (filter keep l) = List.length (classes l).
Proof.
  induction l as [|[name [|fs]] l IH]; auto.
  - cbn [filter]. unfold keep at 1, reserved. cbn [fst snd]. rewrite orb_true_r. exact IH.
  - cbn [filter]. unfold keep at 1, reserved. cbn [fst snd]. rewrite orb_false_r. unfold classes. cbn [flat_map].
    destruct (String.eqb name "compiled"); cbn [negb]; [exact IH|]. cbn [app List.length]. f_equal. exact IH.
Qed.
Fixpoint labelsOf (i : Z) (cs : list (list string)) : list Z :=
  match cs with [] => [] | fs :: t => Z.of_nat (List.length fs) * i :: labelsOf (i + 1) t end.
Lemma slabels_ok l : forall i, slabels (filter keep l) i = labelsOf i (classes l).
Proof.
  induction l as [|[name [|fs]] l IH]; intros i; auto.
  - cbn [filter]. unfold keep at 1, reserved. cbn [fst snd]. rewrite orb_true_r. exact (IH i).
  - cbn [filter]. unfold keep at 1, reserved. cbn [fst snd]. rewrite orb_false_r.
    unfold classes. cbn [flat_map]. destruct (String.eqb name "compiled"); cbn [negb]; [exact (IH i)|].
    cbn [slabels app labelsOf]. f_equal. exact (IH (i + 1)).
Qed.

(** Lines. *)
Lemma rawLines_line l s : one_line l -> rawLines (l ++ String "010" s) = l :: rawLines s.
Proof.
  induction l as [|c l IH]; intros H; auto. destruct H as (H1 & H2 & H3). cbn [append rawLines].
  destruct (Ascii.eqb_spec c "010"); [congruence|]. rewrite IH by auto. auto.
Qed.
Lemma rawLines_crlf l s : one_line l -> rawLines (l ++ String "013" (String "010" s)) = (l ++ String "013" "") :: rawLines s.
Proof.
  induction l as [|c l IH]; intros H; [reflexivity|]. destruct H as (H1 & H2 & H3). cbn [append rawLines].
  destruct (Ascii.eqb_spec c "010"); [congruence|]. rewrite IH by auto. auto.
Qed.
Lemma rawLines_last l : one_line l -> l <> "" -> rawLines l = [l].
Proof.
  induction l as [|c l IH]; intros H Hne; [congruence|]. destruct H as (H1 & H2 & H3). cbn [rawLines].
  destruct (Ascii.eqb_spec c "010"); [congruence|]. destruct l as [|c' l]; [reflexivity|]. rewrite IH; auto. discriminate.
Qed.
Lemma dropCR_plain l : one_line l -> dropCR l = l.
Proof.
  induction l as [|c l IH]; intros H; auto. destruct H as (H1 & H2 & H3). cbn [dropCR]. destruct l as [|c' l].
  - destruct (Ascii.eqb_spec c "013"); congruence.
  - rewrite IH; auto.
Qed.
Lemma dropCR_cr l : dropCR (l ++ String "013" "") = l.
Proof.
  induction l as [|c l IH]; [reflexivity|]. cbn [append dropCR]. destruct (l ++ String "013" "") eqn:E; [destruct l; discriminate|]. rewrite IH. auto.
Qed.
Lemma fileLines_ok ls s : file_lines ls s -> fileLines s = ls.
Proof.
  unfold fileLines. induction 1 as [|l Hl Hne|l e ls s Hl [->| ->] Hf IH]; auto.
  - rewrite rawLines_last by auto. cbn [map]. rewrite dropCR_plain; auto.
  - cbn [append]. rewrite rawLines_line by auto. cbn [map]. rewrite IH, dropCR_plain; auto.
  - cbn [append]. rewrite rawLines_crlf by auto. cbn [map]. rewrite IH, dropCR_cr; auto.
Qed.
Lemma fileLines_cons l s : one_line l -> fileLines (l ++ newline ++ s) = l :: fileLines s.
Proof. intros H. unfold fileLines, newline. cbn [append]. rewrite rawLines_line by auto. cbn [map]. rewrite dropCR_plain; auto. Qed.
Lemma prints_cons {T} (f : T -> string) a l : prints f (a :: l) = f a ++ prints f l.
Proof. unfold prints. cbn [map]. destruct (map f l); cbn [String.concat]; auto. rewrite append_nil. auto. Qed.
Lemma prints_nil {T} (f : T -> string) : prints f [] = "".
Proof. reflexivity. Qed.
Lemma prints_app {T} (f : T -> string) l1 l2 : prints f (l1 ++ l2)%list = prints f l1 ++ prints f l2.
Proof. induction l1 as [|a l1 IH]; auto. cbn [app]. rewrite !prints_cons, IH, append_ass. auto. Qed.
Lemma fileLines_prints {T} (f : T -> string) l s : (forall x, In x l -> one_line (f x)) ->
  fileLines (prints (fun x => f x ++ newline) l ++ s) = (map f l ++ fileLines s)%list.
Proof.
  induction l as [|a l IH]; intros H; auto. rewrite prints_cons, !append_ass. rewrite fileLines_cons by (apply H; left; auto).
  rewrite IH by (intros; apply H; right; auto). auto.
Qed.

(** Numbers on lines. *)
Lemma one_line_app a b : one_line a -> one_line b -> one_line (a ++ b).
Proof. induction a as [|c a IH]; auto. intros (H1 & H2 & H3) Hb. cbn [append one_line]. auto. Qed.
Lemma one_line_chars s : allChars numChar s -> one_line s.
Proof.
  induction s as [|c s IH]; [exact (fun _ => Logic.I)|]. intros (H1 & H2). cbn [one_line]. repeat split; auto; intros ->; apply numChar_not_sep in H1; discriminate.
Qed.
Lemma one_line_numeral z : one_line (numeral z).
Proof. apply one_line_chars, numeral_chars. Qed.
Lemma split_blank r : splitChar " " (String " " r) = "" :: splitChar " " r.
Proof. reflexivity. Qed.
Lemma tokenVals_blanks s r : blanks s -> tokenVals (s ++ r) = tokenVals r.
Proof. induction s as [|c s IH]; auto. intros (-> & Hs). unfold tokenVals in *. cbn [append]. rewrite split_blank. cbn [flat_map]. exact (IH Hs). Qed.
Lemma numeral_nb z : allChars (fun c => c <> " "%char) (numeral z).
Proof. eapply allChars_impl; [apply numChar_not_blank|apply numeral_chars]. Qed.
Lemma tokenVals_line vs line : number_line vs line -> (forall v, In v vs -> int64 v) -> tokenVals line = vs.
Proof.
  induction 1 as [s Hs|s v Hs|s v vs t Hs Hr IH]; intros Hv.
  - rewrite <- (append_nil s), tokenVals_blanks by auto. reflexivity.
  - rewrite tokenVals_blanks by auto. unfold tokenVals. destruct (splitChar_token (numeral v) "" (numeral_nb v)) as (h & q & E1 & E2).
    injection E1 as <- <-. rewrite !append_nil in E2. rewrite E2. cbn [flat_map]. rewrite atoi_numeral by (apply Hv; left; auto). auto.
  - rewrite tokenVals_blanks by auto. specialize (IH ltac:(intros; apply Hv; right; auto)). unfold tokenVals in *.
    destruct (splitChar_token (numeral v) (" " ++ t) (numeral_nb v)) as (h & q & E1 & E2). rewrite E2. cbn [append] in E1, IH. rewrite split_blank in E1, IH.
    injection E1 as <- <-. cbn [flat_map] in *. rewrite append_nil. rewrite atoi_numeral by (apply Hv; left; auto). cbn [app]. f_equal. exact IH.
Qed.
Lemma skip_blanks s r : blanks s -> skipSpaces (s ++ r) = skipSpaces r.
Proof. induction s as [|c s IH]; auto. intros (-> & Hs). exact (IH Hs). Qed.
Lemma scanD_blanks s r : blanks s -> scanD (s ++ r) = scanD r.
Proof. intros H. unfold scanD. rewrite skip_blanks; auto. Qed.
Lemma scanD_skip r : scanD (skipSpaces r) = scanD r.
Proof.
  unfold scanD. replace (skipSpaces (skipSpaces r)) with (skipSpaces r); auto.
  induction r as [|c r IH]; auto. cbn [skipSpaces]. destruct (isSpace c) eqn:E; auto. cbn [skipSpaces]. rewrite E. auto.
Qed.
Lemma nosd_nil : ~ startsDigit "".
Proof. simpl. auto. Qed.
Lemma scan_line v vs line : number_line (v :: vs) line -> int64 v ->
  exists r, scanD line = Some (v, r) /\ number_line vs r /\ (r = "" \/ exists t, r = String " " t).
Proof.
  intros H Hv. inversion H as [|s v' Hs|s v' vs' t Hs Hr]; subst.
  - exists "". rewrite scanD_blanks by auto. rewrite <- (append_nil (numeral v)), scanD_numeral by (auto; apply nosd_nil).
    repeat split; auto. constructor. exact Logic.I.
  - exists (String " " t). rewrite scanD_blanks by auto. rewrite scanD_numeral; auto. split; [reflexivity|]. split; [exact Hr|eauto].
Qed.
Lemma scanTwo_line w h line : number_line [w; h] line -> int64 w -> int64 h -> scanTwo line = (w, h).
Proof.
  intros H Hw Hh. destruct (scan_line _ _ _ H Hw) as (r & E & Hr & Hsp). unfold scanTwo. rewrite E.
  destruct (scan_line _ _ _ Hr Hh) as (r' & E' & _).
  destruct Hsp as [->|(t & ->)]; [vm_compute in E'; discriminate|]. cbn [scanBlank]. change (isSpace " ") with true. cbv iota.
  rewrite scanD_skip. change (scanD t) with (scanD (String " " t)). rewrite E'. auto.
Qed.
Lemma scanOne_line v line : number_line [v] line -> int64 v -> scanOne line = v.
Proof. intros H Hv. destruct (scan_line _ _ _ H Hv) as (r & E & _). unfold scanOne. rewrite E. auto. Qed.

(** A file of the usual layout. *)
Lemma pgmSizes_ok line w h max px s : layout line w h max px s -> int64 w -> int64 h -> int64 max -> pgmSizes s = (w, h, max).
Proof.
  intros (lw & lm & chunks & body & Hf & Hw & Hm & _) H1 H2 H3. unfold pgmSizes. rewrite (fileLines_ok _ _ Hf). cbn [nth].
  rewrite (scanTwo_line w h), (scanOne_line max); auto.
Qed.
Lemma pixels_chunks chunks body : Forall2 number_line chunks body -> (forall v, In v (List.concat chunks) -> int64 v) ->
  flat_map tokenVals body = List.concat chunks.
Proof.
  induction 1 as [|vs l chunks body Hl HF IH]; intros Hv; auto. cbn [flat_map List.concat].
  cbn [List.concat] in Hv. rewrite (tokenVals_line vs) by (auto; intros; apply Hv, in_or_app; auto). rewrite IH; auto.
  intros; apply Hv, in_or_app; auto.
Qed.
Lemma pgmPixels_ok w h max px s : pgm_text w h max px s -> (forall v, In v px -> int64 v) -> pgmPixels s = px.
Proof.
  intros (lw & lm & chunks & body & Hf & _ & _ & Hc & -> & _) Hv. unfold pgmPixels. rewrite (fileLines_ok _ _ Hf). cbn [skipn].
  apply pixels_chunks; auto.
Qed.

(** Rows written. *)
Lemma row_blank vs : forall r line, row_text r line -> row_text (vs ++ r)%list (prints printVal vs ++ line).
Proof.
  induction vs as [|v vs IH]; intros r line H; auto. rewrite prints_cons. unfold printVal at 1. rewrite !append_ass. cbn [app].
  change (itoa v) with (numeral v). apply row_next; [|discriminate|auto]. split; [right; left; reflexivity|exact Logic.I].
Qed.
Lemma row_blank_end vs : vs <> [] -> row_text vs (prints printVal vs).
Proof.
  intros H. destruct (exists_last H) as (l & v & ->). rewrite prints_app. apply row_blank. rewrite prints_cons, prints_nil, append_nil.
  unfold printVal. change (itoa v) with (numeral v). constructor. split; [right; left; reflexivity|exact Logic.I].
Qed.
Lemma row_label v : row_text [v] (itoa v).
Proof. rewrite <- (append_nil (itoa v)). apply (row_end v ""). exact Logic.I. Qed.
Lemma one_line_prints vs : one_line (prints printVal vs).
Proof.
  induction vs as [|v vs IH]; [exact Logic.I|]. rewrite prints_cons. apply one_line_app; auto. apply one_line_app; [apply one_line_numeral|].
  cbn [one_line]. repeat split; discriminate.
Qed.
Lemma one_line_var v : one_line (var_line v).
Proof.
  unfold var_line. apply one_line_app; [cbn [one_line]; repeat split; discriminate|]. apply one_line_app; [apply one_line_numeral|].
  apply one_line_app; [cbn [one_line]; repeat split; discriminate|apply one_line_numeral].
Qed.
Lemma declare1_line id cats : declare1 id cats = var_line (id, cats) ++ newline.
Proof. unfold declare1, var_line. cbn [fst snd]. rewrite !append_ass. auto. Qed.
Lemma prints_ext {T} (f g : T -> string) l : (forall x, In x l -> f x = g x) -> prints f l = prints g l.
Proof. intros H. unfold prints. f_equal. apply map_ext_in. auto. Qed.
Lemma prints_map {S T} (f : T -> string) (g : S -> T) l : prints f (map g l) = prints (fun x => f (g x)) l.
Proof. unfold prints. rewrite map_map. auto. Qed.

(** Variables of the pixels. *)
Definition pixelVars (n cats : Z) : list (Z * Z) := map (fun i => (i, cats)) (upto n).
Lemma upto_in n k : In k (upto n) <-> 0 <= k < n.
Proof.
  unfold upto. rewrite in_map_iff. split.
  - intros (x & <- & H). apply in_seq in H. lia.
  - intros H. exists (Z.to_nat k). split; [lia|]. apply in_seq. lia.
Qed.
Lemma upto_len n : List.length (upto n) = Z.to_nat n.
Proof. unfold upto. rewrite map_length, seq_length. auto. Qed.
Lemma upto_nodup n : NoDup (upto n).
Proof. apply FinFun.Injective_map_NoDup; [intros a b; lia|apply seq_NoDup]. Qed.
Lemma pixelVars_fst n cats : map fst (pixelVars n cats) = upto n.
Proof. unfold pixelVars. rewrite map_map. cbn [fst]. apply map_id. Qed.
Lemma get_pixelVars_list l cats k : get (map (fun i => (i, cats)) l) k = if in_dec Z.eq_dec k l then Some cats else None.
Proof.
  induction l as [|i l IH]; auto. cbn [map get]. rewrite IH. destruct (Z.eqb_spec i k).
  - destruct (in_dec Z.eq_dec k (i :: l)) as [_|n]; auto. destruct n. left; auto.
  - destruct (in_dec Z.eq_dec k l) as [Hi|Hi], (in_dec Z.eq_dec k (i :: l)) as [Hj|Hj]; auto; exfalso; [apply Hj; right; auto|destruct Hj; auto].
Qed.
Lemma get_pixelVars n cats k : get (pixelVars n cats) k = if (0 <=? k) && (k <? n) then Some cats else None.
Proof.
  unfold pixelVars. rewrite get_pixelVars_list. destruct (in_dec Z.eq_dec k (upto n)) as [H|H]; rewrite upto_in in H;
  destruct (Z.leb_spec 0 k), (Z.ltb_spec k n); auto; lia.
Qed.
Lemma get_app_l l1 l2 k : get (l1 ++ l2)%list k = match get l1 k with Some v => Some v | None => get l2 k end.
Proof. induction l1 as [|[a v] l1 IH]; auto. cbn [app get]. destruct (a =? k); auto. Qed.
Lemma vars_by_column n cats cls : 0 <= n -> by_column (pixelVars n cats ++ [(n, cls)]).
Proof.
  intros Hn. split.
  - rewrite map_app, pixelVars_fst. cbn [map fst]. apply NoDup_app_intro; [apply upto_nodup|repeat constructor; simpl; auto|].
    intros x Hx [<-|[]]. apply upto_in in Hx. lia.
  - intros k. rewrite map_app, pixelVars_fst, in_app_iff, upto_in, app_length. cbn [map fst In List.length]. unfold pixelVars. rewrite map_length, upto_len. lia.
Qed.
Lemma vars_by_column0 n cats : 0 <= n -> by_column (pixelVars n cats).
Proof.
  intros Hn. split; [rewrite pixelVars_fst; apply upto_nodup|]. intros k. rewrite pixelVars_fst, upto_in. unfold pixelVars. rewrite map_length, upto_len. lia.
Qed.
Lemma pixelVars_int n cats : int64 n -> int64 cats -> forall v, In v (pixelVars n cats) -> int64 (fst v) /\ int64 (snd v).
Proof.
  intros Hn Hc v H. unfold pixelVars in H. apply in_map_iff in H as (i & <- & Hi). apply upto_in in Hi. cbn [fst snd]. split; auto.
  unfold int64 in *. lia.
Qed.

(** Class by class. *)
Lemma f2_impl {A B} (P Q : A -> B -> Prop) l m : (forall a b, P a b -> Q a b) -> Forall2 P l m -> Forall2 Q l m.
Proof. induction 2; auto. Qed.
Lemma numbered_rows {P : list Z -> string -> Prop} imgs cs : Forall2 (Forall2 P) imgs cs -> forall i,
  Forall2 (fun row fl => exists px, row = (px ++ [snd fl])%list /\ P px (fst fl) /\ i <= snd fl < i + Z.of_nat (List.length imgs)) (labelled i imgs) (numbered i cs).
Proof.
  induction 1 as [|c fs imgs cs Hc HF IH]; intros i; [constructor|]. cbn [labelled numbered List.length]. apply Forall2_app.
  - clear IH HF. induction Hc as [|px f c fs H Hc IH]; [constructor|]. cbn [map]. constructor; auto. exists px. cbn [fst snd]. repeat split; auto; lia.
  - eapply f2_impl; [|apply IH]. intros row fl (px & -> & H & Hi). exists px. repeat split; auto; lia.
Qed.
Lemma f2_len {A B} (P : A -> B -> Prop) l m : Forall2 P l m -> List.length l = List.length m.
Proof. induction 1; simpl; auto. Qed.
Lemma labelled_nil imgs : forall i, labelled i imgs = [] -> List.concat imgs = [].
Proof.
  induction imgs as [|c t IH]; intros i H; auto. cbn [labelled List.concat] in *. apply app_eq_nil in H as (H1 & H2). rewrite (IH _ H2).
  destruct c; [auto|discriminate].
Qed.
