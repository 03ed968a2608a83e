From Coq Require Import Ascii String.
From Verif Require Import Base Res GoMap DataSpec DataLemmas Text TextSpec TextLemmas Parse ParseLemmas Arff ArffSpec ArffLemmas.
Local Open Scope string_scope.
Local Open Scope Z_scope.

Lemma free_app c a b : free_of c (a ++ b) <-> free_of c a /\ free_of c b.
Proof. induction a as [|d a IH]; cbn [append free_of]; [tauto|]. rewrite IH. tauto. Qed.

Lemma splitChar_ne sep r : exists h q, splitChar sep r = h :: q.
Proof. destruct r as [|c r]; cbn [splitChar]; [eauto|]. destruct (Ascii.eqb c sep); [eauto|]. destruct (splitChar sep r); eauto. Qed.
Lemma splitChar_free sep t r h q : free_of sep t -> splitChar sep r = h :: q -> splitChar sep (t ++ r) = (t ++ h) :: q.
Proof.
  intros Ht E. induction t as [|c t IH]; auto. destruct Ht as (Hc & Ht). cbn [append splitChar]. rewrite (IH Ht).
  destruct (Ascii.eqb_spec c sep); [congruence|]. auto.
Qed.
Lemma splitChar_cut sep t r : free_of sep t -> splitChar sep (t ++ String sep r) = t :: splitChar sep r.
Proof.
  intros Ht. rewrite (splitChar_free sep t (String sep r) "" (splitChar sep r)); auto.
  - rewrite append_nil. auto.
  - cbn [splitChar]. rewrite Ascii.eqb_refl. auto.
Qed.
Lemma splitChar_whole sep t : free_of sep t -> splitChar sep t = [t].
Proof. intros Ht. rewrite <- (append_nil t) at 1. rewrite (splitChar_free sep t "" "" []); auto. rewrite append_nil. auto. Qed.
Lemma splitChar_joined sep l : l <> [] -> (forall v, In v l -> free_of sep v) -> splitChar sep (joined (String sep "") l) = l.
Proof.
  induction l as [|x l IH]; [congruence|]. intros _ H. destruct l as [|y l].
  - cbn [joined]. apply splitChar_whole. apply H. left; auto.
  - change (joined (String sep "") (x :: y :: l)) with (x ++ String sep (joined (String sep "") (y :: l))).
    rewrite splitChar_cut by (apply H; left; auto). f_equal. apply IH; [discriminate|]. intros v Hv. apply H. right; auto.
Qed.
Lemma free_joined c sep l : free_of c sep -> (forall v, In v l -> free_of c v) -> free_of c (joined sep l).
Proof.
  intros Hs. induction l as [|x l IH]; intros H; [exact Logic.I|]. destruct l as [|y l]; [apply H; left; auto|].
  change (joined sep (x :: y :: l)) with (x ++ sep ++ joined sep (y :: l)). rewrite !free_app. split; [apply H; left; auto|]. split; auto.
  apply IH. intros; apply H; right; auto.
Qed.

Lemma compile_attr st a : kdata st = false -> nominal a ->
  compileLine st (attribute_line a) = Ok (mkCompile false (kclasses st ++ [snd a]) (kinst st)).
Proof.
  intros Hd (H1 & H2 & H3). unfold compileLine. rewrite Hd. unfold attribute_line.
  destruct (splitChar_ne " " (fst a ++ " {" ++ joined "," (snd a) ++ "}")) as (h & q & E).
  assert (Es : splitChar " " ("@attribute " ++ fst a ++ " {" ++ joined "," (snd a) ++ "}") = "@attribute" :: h :: q).
  { change ("@attribute " ++ fst a ++ " {" ++ joined "," (snd a) ++ "}") with ("@attribute" ++ String " " (fst a ++ " {" ++ joined "," (snd a) ++ "}")).
    rewrite splitChar_cut, E; auto. cbn. repeat split; discriminate. }
  rewrite Es. cbn [String.eqb Ascii.eqb Bool.eqb].
  replace ("@attribute " ++ fst a ++ " {" ++ joined "," (snd a) ++ "}") with (("@attribute " ++ fst a ++ " ") ++ String "{" (joined "," (snd a) ++ "}")).
  2:{ rewrite !append_ass. reflexivity. }
  rewrite splitChar_cut. 2:{ rewrite !free_app. split; [cbn; repeat split; discriminate|]. split; auto. cbn. split; [discriminate|auto]. }
  rewrite splitChar_whole. 2:{ rewrite free_app. split; [apply free_joined; [cbn; split; [discriminate|auto]|intros v Hv; apply H3; auto]|cbn; split; [discriminate|auto]]. }
  cbn [idx nth_error orPanic bind].
  change (joined "," (snd a) ++ "}") with (joined "," (snd a) ++ String "}" "").
  rewrite splitChar_cut by (apply free_joined; [cbn; split; [discriminate|auto]|intros v Hv; apply H3; auto]).
  cbn [idx nth_error orPanic bind]. rewrite splitChar_joined; auto. intros v Hv. apply H3; auto.
Qed.

Lemma compile_attrs attrs : forall st, kdata st = false -> (forall a, In a attrs -> nominal a) ->
  foldr_ compileLine (map attribute_line attrs) st = Ok (mkCompile false (kclasses st ++ map snd attrs) (kinst st)).
Proof.
  induction attrs as [|a attrs IH]; intros st Hd H; cbn [map foldr_].
  - rewrite app_nil_r. destruct st; cbn in *; subst; auto.
  - rewrite compile_attr by (auto; apply H; left; auto). cbn [bind]. rewrite IH by (auto; intros; apply H; right; auto).
    cbn [kclasses kinst]. rewrite <- app_assoc. auto.
Qed.

(** The index written for a value. *)
Definition index_of (cls : list string) (v s : string) : Prop := exists j, s = numeral (Z.of_nat j) /\ nth_error cls j = Some v.
Lemma classIndex_gen cls att : forall s acc,
  let r := fold_left (fun acc jc => if String.eqb att (snd jc) then itoa (Z.of_nat (fst jc)) else acc) (combine (seq s (List.length cls)) cls) acc in
  (exists j, r = itoa (Z.of_nat (s + j)) /\ nth_error cls j = Some att) \/ (~ In att cls /\ r = acc).
Proof.
  induction cls as [|c cls IH]; intros s acc; cbn [List.length seq combine fold_left fst snd]; [right; auto|].
  destruct (IH (S s) (if String.eqb att c then itoa (Z.of_nat s) else acc)) as [(j & E & Hj)|(Hn & E)].
  - left. exists (S j). rewrite E. split; [f_equal; f_equal; lia|auto].
  - destruct (String.eqb_spec att c) as [->|Hne].
    + left. exists 0%nat. rewrite E, Nat.add_0_r. auto.
    + right. rewrite E. split; auto. intros [H|H]; auto.
Qed.
Lemma classIndex_ok cls v : In v cls -> index_of cls v (classIndex cls v).
Proof. intros H. destruct (classIndex_gen cls v 0%nat v) as [(j & E & Hj)|(Hn & _)]; [|contradiction]. exists j. auto. Qed.

Lemma inst_ok clss : forall row i pre, (List.length pre = i)%nat -> Forall2 (fun cls v => In v cls) clss row ->
  exists js, mapi_from i (fun i att => cls <- idx (pre ++ clss)%list i; Ok (classIndex cls att)) row = Ok (map (fun j => numeral (Z.of_nat j)) js) /\
    List.length js = List.length row /\ Forall2 (fun (cv : list string * string) j => nth_error (fst cv) j = Some (snd cv)) (combine clss row) js.
Proof.
  induction clss as [|cls clss IH]; intros row i pre Hp HF; inversion HF as [|? v ? row' Hv HF']; subst; cbn [mapi_from].
  - exists []. split; auto. split; auto. constructor.
  - unfold idx at 1. rewrite nth_error_app2, Nat.sub_diag by lia. cbn [nth_error orPanic bind].
    destruct (classIndex_ok cls v Hv) as (j & Ej & Hj).
    destruct (IH row' (S (List.length pre)) (pre ++ [cls])%list) as (js & E & HL & HJ); auto. { rewrite app_length. simpl. lia. }
    rewrite <- app_assoc in E. cbn [app] in E. rewrite E. cbn [bind]. exists (j :: js). cbn [map combine List.length]. rewrite Ej. split; [reflexivity|]. split; [lia|].
    constructor; auto.
Qed.

Definition decodes (clss : list (list string)) (row : list string) (js : list nat) : Prop :=
  List.length js = List.length row /\ Forall2 (fun (cv : list string * string) j => nth_error (fst cv) j = Some (snd cv)) (combine clss row) js.

Lemma compile_rows clss : (forall cls, In cls clss -> forall v, In v cls -> free_of "," v) -> clss <> [] ->
  forall rows st, kdata st = true -> kclasses st = clss -> (forall row, In row rows -> Forall2 (fun cls v => In v cls) clss row) ->
  exists jss, foldr_ compileLine (map (joined ",") rows) st = Ok (mkCompile true clss (kinst st ++ map (map (fun j => numeral (Z.of_nat j))) jss)) /\
    Forall2 (decodes clss) rows jss.
Proof.
  intros Hfree Hne. induction rows as [|row rows IH]; intros st Hd Hc H; cbn [map foldr_].
  - exists []. cbn [map]. rewrite app_nil_r. destruct st; cbn in *; subst. split; auto.
  - unfold compileLine at 1. rewrite Hd. pose proof (H row (or_introl eq_refl)) as Hrow.
    rewrite splitChar_joined.
    2:{ intros ->. inversion Hrow. congruence. }
    2:{ clear -Hfree Hrow. intros v Hv. induction Hrow as [|cls w clss row Hw Hr IHr]; [contradiction|]. destruct Hv as [<-|Hv].
        - apply (Hfree cls (or_introl eq_refl)); auto.
        - apply IHr; auto. intros; eapply Hfree; [right; eauto|auto]. }
    rewrite Hc. destruct (inst_ok clss row 0%nat [] eq_refl Hrow) as (js & E & HJ). cbn [app] in E. unfold mapi. rewrite E. cbn [bind].
    destruct (IH (mkCompile true clss (kinst st ++ [map (fun j => numeral (Z.of_nat j)) js]))) as (jss & E2 & H2); auto. { intros; apply H; right; auto. }
    rewrite E2. exists (js :: jss). cbn [kinst map]. rewrite <- app_assoc. split; auto.
Qed.

Lemma joinAll_row : forall js l, js <> [] -> row_text (map Z.of_nat js ++ [Z.of_nat l]) (joinAll (map (fun v => v ++ " ") (map (fun j => numeral (Z.of_nat j)) js)) ++ numeral (Z.of_nat l) ++ " ").
Proof.
  assert (HS : separators " ") by (split; [right; left; reflexivity|exact Logic.I]).
  induction js as [|j js IH]; intros l Hne; [congruence|]. cbn [map joinAll fold_right app]. fold (joinAll (map (fun v => v ++ " ") (map (fun j0 => numeral (Z.of_nat j0)) js))).
  rewrite !append_ass. apply row_next; [exact HS|discriminate|]. destruct js as [|k js].
  - cbn [map joinAll fold_right app append]. apply row_end. exact HS.
  - apply IH. discriminate.
Qed.

Lemma compiledRow_ok js : js <> [] -> exists l line, compiledRow (map (fun j => numeral (Z.of_nat j)) js) = Ok line /\ In l js /\ row_text (map Z.of_nat js ++ [Z.of_nat l]) line.
Proof.
  intros Hne. unfold compiledRow, idx. rewrite nth_error_map, map_length.
  destruct (nth_error js (List.length js - 1)) as [l|] eqn:E.
  - cbn [option_map orPanic bind]. exists l. eexists. split; [reflexivity|]. split; [eapply nth_error_In; eauto|]. apply joinAll_row. auto.
  - apply nth_error_None in E. destruct js; [congruence|simpl in E; lia].
Qed.

Lemma compiled_rows : forall jss i, (forall js, In js jss -> js <> []) -> exists rows lines,
  mapi_from i (fun _ inst => compiledRow inst) (map (map (fun j => numeral (Z.of_nat j))) jss) = Ok lines /\ Forall2 row_text rows lines /\
  Forall2 (fun js r => exists l, In l js /\ r = map Z.of_nat js ++ [Z.of_nat l])%list jss rows.
Proof.
  induction jss as [|js jss IH]; intros i H; cbn [map mapi_from].
  - exists [], []. auto.
  - destruct (compiledRow_ok js (H js (or_introl eq_refl))) as (l & line & -> & Hl & Hr). cbn [bind].
    destruct (IH (S i)) as (rows & lines & -> & H1 & H2). { intros; apply H; right; auto. } cbn [bind].
    exists ((map Z.of_nat js ++ [Z.of_nat l])%list :: rows), (line :: lines). split; auto. split; constructor; eauto.
Qed.

Definition declared (clss : list (list string)) : list (Z * Z) :=
  map (fun ic => (Z.of_nat (fst ic), Z.of_nat (List.length (snd ic)))) (combine (seq 0 (List.length clss)) clss).

Lemma get_declared (clss : list (list string)) : forall s k, get (map (fun ic => (Z.of_nat (fst ic), Z.of_nat (List.length (snd ic)))) (combine (seq s (List.length clss)) clss)) (Z.of_nat (s + k))
  = option_map (fun cls => Z.of_nat (List.length cls)) (nth_error clss k).
Proof.
  induction clss as [|cls clss IH]; intros s k; cbn [List.length seq combine map get fst snd].
  - destruct k; reflexivity.
  - destruct k as [|k].
    + rewrite Nat.add_0_r, Z.eqb_refl. reflexivity.
    + destruct (Z.eqb_spec (Z.of_nat s) (Z.of_nat (s + S k))); [lia|]. cbn [nth_error]. rewrite <- (IH (S s) k). f_equal. lia.
Qed.

Lemma compile_l attrs rows : attrs <> [] -> (forall a, In a attrs -> nominal a) -> rows <> [] ->
  int64 (Z.of_nat (List.length attrs)) -> (forall a, In a attrs -> int64 (Z.of_nat (List.length (snd a)))) ->
  (forall row, In row rows -> Forall2 (fun a v => In v (snd a)) attrs row) ->
  exists out sc data, arffToData (map attribute_line attrs ++ "@data" :: map (joined ",") rows) = Ok out /\ parseData out = Ok (sc, data) /\
    (forall i a, nth_error attrs i = Some a -> get sc (Z.of_nat i) = Some (Z.of_nat (List.length (snd a)))) /\
    Forall2 (fun row m => forall i a v, nth_error attrs i = Some a -> nth_error row i = Some v ->
               exists j, get m (Z.of_nat i) = Some (Z.of_nat j) /\ nth_error (snd a) j = Some v) rows data.
Proof.
  intros Hne Hnom Hrne Hlen Hclen Hrows. set (clss := map snd attrs).
  assert (Hclss : clss <> []) by (destruct attrs; [congruence|discriminate]).
  assert (Hfree : forall cls, In cls clss -> forall v, In v cls -> free_of "," v).
  { intros cls Hin v Hv. apply in_map_iff in Hin as (a & <- & Ha). destruct (Hnom a Ha) as (_ & _ & H). apply H; auto. }
  assert (Hrows' : forall row, In row rows -> Forall2 (fun cls v => In v cls) clss row).
  { intros row Hin. specialize (Hrows row Hin). unfold clss. clear -Hrows. induction Hrows; cbn [map]; constructor; auto. }
  assert (Hcl : forall cls, In cls clss -> int64 (Z.of_nat (List.length cls))).
  { intros cls Hin. apply in_map_iff in Hin as (a & <- & Ha). auto. }
  unfold arffToData. rewrite foldr_split. rewrite compile_attrs by auto. cbn [bind foldr_]. fold clss. cbn [kclasses kinst app].
  change (compileLine (mkCompile false clss []) "@data") with (Ok (mkCompile true clss [])). cbn [bind].
  destruct (compile_rows clss Hfree Hclss rows (mkCompile true clss []) eq_refl eq_refl Hrows') as (jss & -> & HD). cbn [bind kinst kclasses app].
  assert (Hjs : forall js, In js jss -> js <> [] /\ List.length js = List.length clss /\ forall j, In j js -> int64 (Z.of_nat j)).
  { clear -HD Hrows' Hclss Hcl. induction HD as [|row js rows jss [Hl Hd] HD IH]; [intros js []|]. intros js' [<-|Hin].
    - assert (List.length clss = List.length row). { specialize (Hrows' row (or_introl eq_refl)). clear -Hrows'. induction Hrows'; simpl; auto. }
      split; [intros ->; destruct clss; [congruence|]; simpl in *; lia|]. split; [lia|].
      intros j Hj. assert (G : exists cls, In cls clss /\ (j < List.length cls)%nat).
      { clear -Hd Hj. remember (combine clss row) as cr eqn:Ec. assert (Hin : forall cv, In cv cr -> In (fst cv) clss).
        { intros [cls v] H. subst cr. eapply in_combine_l; eauto. } clear Ec. induction Hd as [|cv k cr js Hk Hd IH]; [contradiction|].
        destruct Hj as [<-|Hj]; [|apply IH; auto; intros; apply Hin; right; auto].
        exists (fst cv). split; [apply Hin; left; auto|]. apply nth_error_Some. congruence. }
      destruct G as (cls & Hc & Hlt). specialize (Hcl cls Hc). unfold int64 in *. lia.
    - apply IH; auto. intros; apply Hrows'; right; auto. }
  destruct (compiled_rows jss 0%nat ltac:(intros; apply Hjs; auto)) as (zrows & lines & E & HT & HJ). unfold mapi. rewrite E. cbn [bind].
  assert (Hvl : map (fun ic : nat * list string => "var " ++ itoa (Z.of_nat (fst ic)) ++ " " ++ itoa (Z.of_nat (List.length (snd ic)))) (combine (seq 0 (List.length clss)) clss)
          = map var_line (declared clss)). { unfold declared. rewrite map_map. reflexivity. }
  rewrite Hvl.
  assert (Hdl : List.length (declared clss) = List.length clss). { unfold declared. rewrite map_length, combine_length, seq_length. lia. }
  destruct (parseData_extra_l (declared clss) zrows lines) as (sc & data & E1 & E2 & E3).
  - unfold declared. rewrite map_map. cbn [fst]. rewrite <- (map_map fst Z.of_nat).
    replace (map fst (combine (seq 0 (List.length clss)) clss)) with (seq 0 (List.length clss)).
    + apply FinFun.Injective_map_NoDup; [intros x y; lia|apply seq_NoDup].
    + clear. generalize 0%nat as s. induction clss as [|c l IH]; intros s; auto. cbn. f_equal. apply IH.
  - intros v Hv. apply in_map_iff in Hv as ([i cls] & <- & Hin). cbn [fst snd]. pose proof (in_combine_l _ _ _ _ Hin) as Hi. apply in_seq in Hi.
    split; [|apply Hcl; eapply in_combine_r; eauto]. unfold clss in Hi. rewrite map_length in Hi. unfold int64 in *. lia.
  - intros ->. inversion HJ. subst. inversion HD. subst. congruence.
  - exact HT.
  - intros r Hin. rewrite Hdl. assert (exists js l, In js jss /\ In l js /\ r = map Z.of_nat js ++ [Z.of_nat l])%list as (js & l & Hj & Hl & ->).
    { clear -HJ Hin. induction HJ as [|js r' jss zrows (l & Hl & E) HJ IH]; [contradiction|]. destruct Hin as [<-|Hin]; [exists js, l; split; [left|]; auto|].
      destruct (IH Hin) as (js' & l' & H & H'). exists js', l'. split; [right|]; auto. }
    destruct (Hjs js Hj) as (_ & HL & HI). rewrite app_length, map_length. split; [lia|]. intros v Hv. apply in_app_or in Hv as [Hv|[<-|[]]]; auto.
    apply in_map_iff in Hv as (j & <- & Hj'). auto.
  - eexists. exists sc, data. split; [reflexivity|]. split; [exact E1|]. split.
    + intros i a Ha. rewrite E2. pose proof (get_declared clss 0%nat i) as G. cbn [Nat.add] in G. unfold declared. rewrite G. unfold clss. rewrite nth_error_map, Ha. reflexivity.
    + rewrite Hdl in E3. clear -HD HJ E3 Hjs. revert zrows data HJ E3. induction HD as [|row js rows jss [Hl Hd] HD IH]; intros zrows data HJ E3;
        inversion HJ as [|? r ? zr (l & Hl' & ->) HJ']; subst; cbn [map] in E3; inversion E3 as [|? m ? data' Hm E3']; subst; constructor.
      * intros i a v Ha Hv. destruct (Hjs js (or_introl eq_refl)) as (_ & HL & _).
        assert (Hj : exists j, nth_error js i = Some j /\ nth_error (snd a) j = Some v).
        { assert (Hc : nth_error (combine clss row) i = Some (snd a, v)).
          { assert (Hca : nth_error clss i = Some (snd a)) by (unfold clss; rewrite nth_error_map, Ha; reflexivity). clear -Hca Hv. revert row i Hca Hv.
            induction clss as [|c cs IHc]; intros [|w row] [|i] Hca Hv; simpl in *; try discriminate; [congruence|auto]. }
          clear -Hd Hc. revert i Hc. induction Hd as [|cv k cr js Hk Hd IHd]; intros [|i] Hc; simpl in *; try discriminate; [|auto].
          injection Hc as ->. exists k. auto. }
        destruct Hj as (j & Hj1 & Hj2). exists j. split; auto. rewrite Hm. destruct (Z.ltb_spec (Z.of_nat i) 0); [lia|]. rewrite Nat2Z.id.
        rewrite firstn_app. rewrite firstn_all2 by (rewrite map_length; lia). rewrite nth_error_app1 by (rewrite map_length; apply nth_error_Some; congruence).
        rewrite nth_error_map, Hj1. reflexivity.
      * eapply IH; eauto. intros; apply Hjs; right; auto.
Qed.
