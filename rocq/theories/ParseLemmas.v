From Coq Require Import Ascii String.
From Verif Require Import Base Res GoMap DataSpec DataLemmas TablesLemmas Text TextSpec TextLemmas Parse.
Local Open Scope string_scope.
Local Open Scope Z_scope.

Lemma scanVar_line v : int64 (fst v) -> int64 (snd v) -> scanVar (var_line v) = v.
Proof.
  intros H1 H2. destruct v as [id cats]. cbn [fst snd] in *. unfold scanVar, var_line. cbn [fst snd append stripPrefix Ascii.eqb Bool.eqb].
  cbn [scanBlank]. change (isSpace " ") with true. cbv iota. rewrite skip_numeral. rewrite scanD_numeral; auto.
  cbn [scanBlank append]. change (isSpace " ") with true. cbv iota.
  rewrite <- (append_nil (numeral cats)), skip_numeral. rewrite scanD_numeral; auto.
Qed.

Definition declare (vars : list (Z * Z)) (sc : gmap) : gmap := fold_left (fun sc v => put sc (fst v) (snd v)) vars sc.
Lemma last_cons {T} (l : list T) : forall a d, last (a :: l) d = last l a.
Proof. induction l as [|b l IH]; intros a d; auto. change (last (a :: b :: l) d) with (last (b :: l) d). rewrite !IH. auto. Qed.
Lemma header_vars vars rest : (forall v, In v vars -> int64 (fst v) /\ int64 (snd v)) -> forall sc line,
  header (map var_line vars ++ rest)%list sc line = header rest (declare vars sc) (last (map var_line vars) line).
Proof.
  induction vars as [|v vars IH]; intros Hv sc line; auto.
  cbn [map app header]. destruct (Hv v (or_introl eq_refl)) as (H1 & H2). pose proof (scanVar_line v H1 H2) as E.
  assert (Ev : exists t, var_line v = String "v" t) by (unfold var_line; cbn [append]; eauto). destruct Ev as (t & Ev).
  rewrite Ev in *. rewrite Ascii.eqb_refl, E. destruct v as [id cats].
  rewrite IH by (intros; apply Hv; right; auto). rewrite last_cons. reflexivity.
Qed.
Lemma header_stop vs line rest sc last_ : row_text vs line -> header (line :: rest) sc last_ = Ok (sc, line, rest).
Proof.
  intros H. cbn [header]. assert (exists c t, line = String c t /\ numChar c) as (c & t & -> & Hc) by (destruct H; apply numeral_first).
  rewrite numChar_not_v by auto. auto.
Qed.

Lemma idx_map vs q j v : nth_error vs j = Some v -> idx (map numeral vs ++ q)%list j = Ok (numeral v).
Proof.
  intros H. unfold idx. rewrite nth_error_app1 by (rewrite map_length; apply nth_error_Some; congruence).
  rewrite nth_error_map, H. auto.
Qed.
Lemma skipn_nth {T} (l : list T) : forall s v, nth_error l s = Some v -> skipn s l = v :: skipn (S s) l.
Proof. induction l as [|a l IH]; intros [|s] v; simpl; try discriminate. { intros E. injection E as ->. auto. } intros E. rewrite (IH _ _ E). auto. Qed.
Lemma parseRow_ok vs q n : (forall v, In v vs -> int64 v) -> (n <= List.length vs)%nat ->
  parseRow n (map numeral vs ++ q)%list = Ok (firstn n vs).
Proof.
  intros Hv Hn. unfold parseRow, mapi. generalize 0%nat at 1 as i.
  assert (G : forall m s i, (s + m <= List.length vs)%nat ->
    mapi_from i (fun _ j => x <- idx (map numeral vs ++ q)%list j; let (v, ok) := atoi x in if ok then Ok v else Panic) (seq s m) = Ok (firstn m (skipn s vs))).
  { induction m as [|m IH]; intros s i Hs; auto. cbn [seq mapi_from].
    destruct (nth_error vs s) as [v|] eqn:E; [|apply nth_error_None in E; lia]. rewrite (idx_map _ _ _ _ E). cbn [bind].
    rewrite atoi_numeral by (apply Hv; eapply nth_error_In; eauto). cbn [bind]. rewrite IH by lia. cbn [bind].
    rewrite (skipn_nth _ _ _ E). reflexivity. }
  intros i. apply (G n 0%nat i). lia.
Qed.

Lemma dataRows_ok n : forall rows lines line row, Forall2 row_text rows lines -> row_text row line ->
  (forall r, In r (row :: rows) -> (n <= List.length r)%nat /\ forall v, In v r -> int64 v) ->
  dataRows n line lines = Ok (map (firstn n) (row :: rows)).
Proof.
  induction rows as [|r rows IH]; intros lines line row HF Hr Hok; inversion HF as [|? l ? ls Hl HF']; subst; cbn [dataRows];
  destruct (row_split _ _ Hr) as (q & -> & _); destruct (Hok row (or_introl eq_refl)) as (Hn & Hv);
  rewrite parseRow_ok by (auto; lia); cbn [bind]; auto.
  rewrite (IH ls l r); auto. intros r' Hr'. apply Hok. right; auto.
Qed.
Lemma firsts_all n (rows : list (list Z)) : (forall r, In r rows -> List.length r = n) -> map (firstn n) rows = rows.
Proof. induction rows as [|r rows IH]; intros H; auto. cbn [map]. rewrite firstn_all2 by (rewrite (H r); [lia|left; auto]). f_equal. apply IH. intros; apply H; right; auto. Qed.

Lemma toMaps_ok data : Forall2 as_row data (toMaps data).
Proof. exact (matrixToData_l data). Qed.

Lemma declare_len vars : NoDup (map fst vars) -> List.length (declare vars []) = List.length vars /\ meq (declare vars []) vars /\ NoDup (keys (declare vars [])).
Proof.
  intros Hn. assert (Hd : NoDup (keys (declare vars []))) by (apply puts_nodup; constructor).
  assert (Hm : meq (declare vars []) vars). { intros k. unfold declare. rewrite (puts_get vars Hn). destruct (get vars k); auto. }
  split; [|auto]. unfold keys in Hd.
  rewrite <- (map_length fst (declare vars [])), <- (map_length fst vars).
  apply Nat.le_antisymm; apply NoDup_incl_length; auto; intros k Hk.
  - destruct (in_dec Z.eq_dec k (map fst vars)) as [H|H]; auto. apply get_None in H. rewrite <- Hm in H. apply get_None in H. exfalso. auto.
  - destruct (in_dec Z.eq_dec k (map fst (declare vars []))) as [H|H]; auto. apply get_None in H. rewrite Hm in H. apply get_None in H. exfalso. auto.
Qed.

(** Rows may have more columns than there are variables. *)
Lemma parseData_extra_l vars rows lines : NoDup (map fst vars) -> (forall v, In v vars -> int64 (fst v) /\ int64 (snd v)) ->
  rows <> [] -> Forall2 row_text rows lines -> (forall r, In r rows -> (List.length vars <= List.length r)%nat /\ forall v, In v r -> int64 v) ->
  exists sc data, parseData (map var_line vars ++ lines) = Ok (sc, data) /\ meq sc vars /\ Forall2 as_row (map (firstn (List.length vars)) rows) data.
Proof.
  intros Hn Hv Hne HF Hr. destruct HF as [|r l rows lines Hl HF]; [congruence|].
  unfold parseData. rewrite header_vars by auto. rewrite (header_stop _ _ _ _ _ Hl). cbn [bind].
  destruct (declare_len vars Hn) as (H1 & H2 & _). rewrite H1. rewrite (dataRows_ok _ rows lines l r); auto.
  cbn [bind]. eexists. eexists. split; [reflexivity|]. split; auto. apply toMaps_ok.
Qed.
Lemma parseData_l vars rows lines : NoDup (map fst vars) -> (forall v, In v vars -> int64 (fst v) /\ int64 (snd v)) ->
  rows <> [] -> Forall2 row_text rows lines -> (forall r, In r rows -> List.length r = List.length vars /\ forall v, In v r -> int64 v) ->
  exists sc data, parseData (map var_line vars ++ lines) = Ok (sc, data) /\ meq sc vars /\ Forall2 as_row rows data.
Proof.
  intros Hn Hv Hne HF Hr. destruct (parseData_extra_l vars rows lines Hn Hv Hne HF) as (sc & data & H1 & H2 & H3).
  { intros r Hin. destruct (Hr r Hin). split; [lia|auto]. }
  exists sc, data. split; auto. split; auto. rewrite firsts_all in H3; auto. intros r Hin. apply Hr; auto.
Qed.

Lemma parseData_column_l vars rows lines : by_column vars -> (forall v, In v vars -> int64 (fst v) /\ int64 (snd v)) ->
  rows <> [] -> Forall2 row_text rows lines -> (forall r, In r rows -> List.length r = List.length vars /\ forall v, In v r -> int64 v) ->
  exists sc data, parseData (map var_line vars ++ lines) = Ok (sc, data) /\ meq sc vars /\ Forall2 as_row rows data /\
    forall m, In m data -> forall k, get m k <> None <-> get sc k <> None.
Proof.
  intros (Hn & Hc) Hv Hne HF Hr. destruct (parseData_l vars rows lines Hn Hv Hne HF Hr) as (sc & data & E & H1 & H2).
  exists sc, data. split; auto. split; auto. split; auto. intros m Hm k.
  assert (exists r, In r rows /\ as_row r m) as (r & Hin & Hrow).
  { clear -H2 Hm. induction H2 as [|r m' rows data Hr H2 IH]; [contradiction|]. destruct Hm as [<-|Hm]; [exists r; split; [left|]; auto|].
    destruct (IH Hm) as (r' & H & H'). exists r'. split; [right|]; auto. }
  destruct (Hr r Hin) as (Hlen & _). rewrite Hrow, H1.
  assert (HG : get vars k <> None <-> In k (map fst vars)).
  { split; intros H.
    - destruct (in_dec Z.eq_dec k (map fst vars)); auto. exfalso. apply H. apply get_None. auto.
    - intros E'. apply get_None in E'. auto. }
  rewrite HG, Hc. destruct (Z.ltb_spec k 0). { split; [congruence|lia]. }
  rewrite nth_error_Some, Hlen. lia.
Qed.

(** Labels. *)
Lemma dataRowsL_ok n : forall rows lines line row, Forall2 row_text rows lines -> row_text row line ->
  (forall r, In r (row :: rows) -> List.length r = S n /\ forall v, In v r -> int64 v) ->
  dataRowsL n line lines = Ok (map (fun r => (firstn n r, nth n r 0)) (row :: rows)).
Proof.
  assert (P : forall row line, row_text row line -> List.length row = S n -> (forall v, In v row -> int64 v) ->
    parseRowL n (regexSplit line) = Ok (firstn n row, nth n row 0)).
  { intros row line Hr Hn Hv. destruct (row_split _ _ Hr) as (q & -> & _). unfold parseRowL. rewrite parseRow_ok by (auto; lia). cbn [bind].
    destruct (nth_error row n) as [v|] eqn:E; [|apply nth_error_None in E; lia]. rewrite (idx_map _ _ _ _ E). cbn [bind].
    rewrite atoi_numeral by (apply Hv; eapply nth_error_In; eauto). rewrite (nth_error_nth _ _ 0 E). auto. }
  induction rows as [|r rows IH]; intros lines line row HF Hr Hok; inversion HF as [|? l ? ls Hl HF']; subst; cbn [dataRowsL];
  destruct (Hok row (or_introl eq_refl)) as (Hn & Hv); rewrite (P row line) by auto; cbn [bind]; auto.
  rewrite (IH ls l r); auto. intros r' Hr'. apply Hok. right; auto.
Qed.

Lemma parseDataNL_l vars rows lines : by_column vars -> (forall v, In v vars -> int64 (fst v) /\ int64 (snd v)) ->
  rows <> [] -> Forall2 row_text rows lines -> (forall r, In r rows -> List.length r = List.length vars /\ forall v, In v r -> int64 v) ->
  exists sc data, parseDataNL (map var_line vars ++ lines) = Ok (sc, data, map (fun r => last r 0) rows) /\
    (forall k, get sc k = if k =? Z.of_nat (List.length vars) - 1 then None else get vars k) /\ Forall2 as_row (map (@removelast Z) rows) data.
Proof.
  intros (Hn & Hc) Hv Hne HF Hr. destruct HF as [|r l rows lines Hl HF]; [congruence|].
  unfold parseDataNL. rewrite header_vars by auto. rewrite (header_stop _ _ _ _ _ Hl). cbn [bind].
  destruct (declare_len vars Hn) as (H1 & H2 & _). rewrite H1.
  assert (Hpos : List.length vars <> 0%nat).
  { destruct (Hr r (or_introl eq_refl)) as (E & _). destruct Hl; simpl in E; lia. }
  destruct (List.length vars) as [|n] eqn:En; [congruence|].
  rewrite (dataRowsL_ok n rows lines l r); auto. cbn [bind].
  assert (Hrow : forall r', In r' (r :: rows) -> firstn n r' = removelast r' /\ nth n r' 0 = last r' 0).
  { intros r' Hr'. destruct (Hr r' Hr') as (E & _). destruct (rev r') as [|x y] eqn:Er.
    - apply (f_equal (@rev Z)) in Er. rewrite rev_involutive in Er. subst r'. discriminate.
    - apply (f_equal (@rev Z)) in Er. rewrite rev_involutive in Er. cbn [rev] in Er. subst r'. rewrite removelast_last, last_last.
      rewrite app_length in E. cbn [List.length] in E. rewrite firstn_app, app_nth2 by lia.
      replace (n - List.length (rev y))%nat with 0%nat by lia. rewrite firstn_all2 by lia. cbn. rewrite app_nil_r. auto. }
  exists (del (declare vars []) (Z.of_nat n)), (toMaps (map (@removelast Z) (r :: rows))).
  rewrite !map_map. cbn [fst snd].
  rewrite (map_ext_in (fun x => firstn n x) (@removelast Z) (r :: rows)) by (intros r' Hr'; apply Hrow; auto).
  rewrite (map_ext_in (fun x => nth n x 0) (fun x => last x 0) (r :: rows)) by (intros r' Hr'; apply Hrow; auto).
  split; [reflexivity|]. split; [|apply toMaps_ok].
  intros k. rewrite get_del, H2. rewrite Z.eqb_sym. replace (Z.of_nat (S n) - 1) with (Z.of_nat n) by lia. auto.
Qed.

(** Evidence. *)
Lemma splitChar_token t r : allChars (fun c => c <> " "%char) t -> exists h q, splitChar " " r = h :: q /\ splitChar " " (t ++ r) = (t ++ h) :: q.
Proof.
  induction t as [|c t IH]; intros Ht.
  - cbn [append]. destruct (splitChar " " r) as [|h q] eqn:E; [|eauto]. exfalso. destruct r as [|c r]; [discriminate|]. cbn [splitChar] in E.
    destruct (Ascii.eqb c " "); [discriminate|]. destruct (splitChar " " r); discriminate.
  - destruct Ht as (Hc & Ht). destruct (IH Ht) as (h & q & E1 & E2). exists h, q. split; auto. cbn [append splitChar].
    destruct (Ascii.eqb_spec c " "); [congruence|]. rewrite E2. auto.
Qed.
Lemma numChar_not_blank c : numChar c -> c <> " "%char.
Proof. intros [H| ->]; [|discriminate]. intros ->. apply H. reflexivity. Qed.
Lemma split_spaced zs t : allChars (fun c => c <> " "%char) t -> splitChar " " (t ++ spaced zs) = t :: map numeral zs.
Proof.
  revert t. induction zs as [|z zs IH]; intros t Ht.
  - cbn [spaced map]. destruct (splitChar_token t "" Ht) as (h & q & E1 & E2). rewrite E2. injection E1 as <- <-. rewrite append_nil. auto.
  - cbn [spaced map]. destruct (splitChar_token t (" " ++ numeral z ++ spaced zs) Ht) as (h & q & E1 & E2). rewrite E2.
    cbn [append splitChar] in E1. rewrite Ascii.eqb_refl in E1. injection E1 as <- <-. rewrite append_nil. f_equal. apply IH.
    eapply allChars_impl; [apply numChar_not_blank|apply numeral_chars].
Qed.
Lemma spaced_not_digit zs : ~ startsDigit (spaced zs).
Proof. destruct zs; simpl; auto. Qed.

Lemma labelLine_ok ls : int64 (Z.of_nat (List.length ls)) -> (forall v, In v ls -> int64 v) -> labelLine (labels_line ls) = Ok ls.
Proof.
  intros Hl Hv. unfold labelLine.
  replace (splitChar " " (labels_line ls)) with ("labels" :: numeral (Z.of_nat (List.length ls)) :: map numeral ls).
  2:{ unfold labels_line. rewrite split_spaced; auto. cbn [allChars]. repeat split; discriminate. }
  unfold labels_line. cbn [append stripPrefix Ascii.eqb Bool.eqb spaced scanBlank]. change (isSpace " ") with true. cbv iota.
  rewrite skip_numeral, scanD_numeral by (auto; apply spaced_not_digit). destruct (Z.ltb_spec (Z.of_nat (List.length ls)) 0); [lia|].
  rewrite Nat2Z.id. rewrite <- (firstn_all ls) at 2.
  rewrite <- (parseRow_ok ls [] (List.length ls)) by auto. unfold parseRow, mapi. apply mapi_from_ext. intros i j Hj.
  replace (j + 2)%nat with (S (S j)) by lia. rewrite app_nil_r. reflexivity.
Qed.

Lemma parseEvidence_l ls vars rows lines : int64 (Z.of_nat (List.length ls)) -> (forall v, In v ls -> int64 v) ->
  by_column vars -> (forall v, In v vars -> int64 (fst v) /\ int64 (snd v)) ->
  rows <> [] -> Forall2 row_text rows lines -> (forall r, In r rows -> List.length r = List.length vars /\ forall v, In v r -> int64 v) ->
  exists sc data, parseEvidence (labels_line ls :: map var_line vars ++ lines) = Ok (sc, data, ls) /\ meq sc vars /\ Forall2 as_row rows data.
Proof.
  intros Hl Hlv (Hn & _) Hv Hne HF Hr. destruct HF as [|r l rows lines Hrl HF]; [congruence|].
  unfold parseEvidence. rewrite labelLine_ok by auto. cbn [bind tl]. rewrite header_vars by auto. rewrite (header_stop _ _ _ _ _ Hrl). cbn [bind].
  destruct (declare_len vars Hn) as (H1 & H2 & _). rewrite H1. rewrite (dataRows_ok _ rows lines l r); auto.
  2:{ intros r' Hr'. destruct (Hr r' Hr'). split; [lia|auto]. }
  rewrite firsts_all by (intros r' Hr'; apply Hr; auto).
  cbn [bind]. eexists. eexists. split; [reflexivity|]. split; auto. apply toMaps_ok.
Qed.

(** Failures. *)
Lemma parseData_norows_l vars : vars <> [] -> NoDup (map fst vars) -> (forall v, In v vars -> int64 (fst v) /\ int64 (snd v)) -> parseData (map var_line vars) = Panic.
Proof.
  intros Hne Hn Hv. unfold parseData. rewrite <- (app_nil_r (map var_line vars)). rewrite header_vars by auto. cbn [header bind].
  destruct (declare_len vars Hn) as (H1 & _). rewrite H1. destruct vars as [|v vars]; [congruence|]. cbn [List.length].
  assert (exists w, last (map var_line (v :: vars)) "" = var_line w) as (w & ->).
  { clear. revert v. induction vars as [|u vars IH]; intros v; [exists v; auto|]. destruct (IH u) as (w & E). exists w. exact E. }
  cbn [dataRows]. assert (E : exists q, regexSplit (var_line w) = "var" :: q).
  { unfold var_line, regexSplit. cbn [append splitRuns]. change (isSep "v") with false. change (isSep "a") with false. change (isSep "r") with false. change (isSep " ") with true. cbv iota. eauto. }
  destruct E as (q & ->). unfold parseRow, mapi. cbn [seq mapi_from idx nth_error orPanic bind]. reflexivity.
Qed.

Lemma parse_ids_refuted_l : exists vars rows lines, NoDup (map fst vars) /\ (forall v, In v vars -> int64 (fst v) /\ int64 (snd v)) /\
  rows <> [] /\ Forall2 row_text rows lines /\ (forall r, In r rows -> List.length r = List.length vars /\ forall v, In v r -> int64 v) /\
  exists sc data, parseData (map var_line vars ++ lines) = Ok (sc, data) /\ exists k m, In m data /\ get sc k <> None /\ get m k = None.
Proof.
  exists [(1, 2); (2, 3)], [[0; 2]], ["0 2"]. split; [repeat constructor; simpl; intuition lia|]. split.
  { unfold int64. intros v [<-|[<-|[]]]; simpl; lia. }
  split; [discriminate|]. split.
  { constructor; [|constructor]. change "0 2" with (numeral 0 ++ " " ++ (numeral 2 ++ "")). apply row_next; [|discriminate|apply row_end; exact Logic.I].
    split; [unfold separator; simpl; auto 6|exact Logic.I]. }
  split. { unfold int64. intros r [<-|[]]. split; auto. intros v [<-|[<-|[]]]; lia. }
  eexists. eexists. split; [vm_compute; reflexivity|]. exists 2. eexists. split; [left; reflexivity|]. split; [discriminate|reflexivity].
Qed.
