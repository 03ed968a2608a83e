From Coq Require Import Ascii String.
From Verif Require Import Base Res GoMap DataSpec DataLemmas Text TextSpec TextLemmas Parse ParseLemmas Arff ArffSpec.
Local Open Scope string_scope.
Local Open Scope Z_scope.

Lemma sget_sput m k v x : sget (sput m k v) x = if String.eqb k x then Some v else sget m x.
Proof. reflexivity. Qed.

Definition symbolic (c : column) : Prop := ctyp c = TString \/ ctyp c = TClass.
Definition grows (c c' : column) : Prop :=
  ctyp c' = ctyp c /\ cname c' = cname c /\ ccat c <= ccat c' /\ forall t x, sget (clab c) t = Some x -> sget (clab c') t = Some x.
Definition strinv (c : column) : Prop :=
  (forall t x, sget (clab c) t = Some x -> 0 <= x < ccount c) /\ (forall t t' x, sget (clab c) t = Some x -> sget (clab c) t' = Some x -> t = t') /\
  ccat c = ccount c /\ 0 <= ccount c.
Definition classinv (c : column) : Prop :=
  (forall t x, sget (clab c) t = Some x -> 0 <= x < ccat c) /\ (forall t t' x, sget (clab c) t = Some x -> sget (clab c) t' = Some x -> t = t').

Lemma grows_refl c : grows c c.
Proof. split; auto. split; auto. split; [lia|auto]. Qed.
Lemma grows_trans a b c : grows a b -> grows b c -> grows a c.
Proof. intros (A1 & A2 & A3 & A4) (B1 & B2 & B3 & B4). split; [congruence|]. split; [congruence|]. split; [lia|auto]. Qed.

Lemma token_ok c tk c' x : arffToken c tk = Ok (c', x) ->
  grows c c' /\ (symbolic c -> sget (clab c') tk = Some x) /\
  (ctyp c = TNumeric -> atoi tk = (x, true) /\ (x < 2 ^ 63 - 1 -> x < ccat c')) /\
  (ctyp c = TString -> strinv c -> strinv c') /\
  (ctyp c = TClass -> sget (clab c) tk <> None -> c' = c).
Proof.
  unfold arffToken, symbolic. destruct (ctyp c) eqn:Et.
  - destruct (atoi tk) as [v ok]. destruct ok; [|discriminate]. intros E. injection E as <- <-.
    split; [|split; [intros [H|H]; discriminate|split; [|split; intros; discriminate]]].
    + destruct (_ && _) eqn:Eb; [|apply grows_refl]. apply andb_true_iff in Eb as [_ Ev]. apply Z.ltb_lt in Ev. split; [cbn; congruence|]. split; [reflexivity|]. split; [cbn [ccat]; lia|auto].
    + intros _. split; auto. intros Hv. change (2 ^ 63 - 1) with 9223372036854775807 in *. rewrite (proj2 (Z.ltb_lt _ _) Hv). destruct (Z.ltb_spec (ccat c) (v + 1)); cbn [andb ccat]; lia.
  - destruct (sget (clab c) tk) as [y|] eqn:Eg; intros E; injection E as <- <-.
    + split; [apply grows_refl|]. split; auto. split; [discriminate|]. split; [auto|discriminate].
    + split. { split; [cbn; congruence|]. split; [reflexivity|]. cbn [ccat clab sput sget]. split; [lia|]. intros t x Ht. destruct (String.eqb_spec tk t) as [<-|]; [congruence|auto]. }
      split. { intros _. cbn [clab]. rewrite sget_sput, String.eqb_refl. auto. } split; [discriminate|]. split; [|discriminate].
      intros _ (H1 & H2 & H3 & H4). unfold strinv. cbn [clab ccount ccat].
      split; [|split; [|split; lia]].
      * intros t x. rewrite sget_sput. destruct (String.eqb tk t); [intros E; injection E as <-; lia|]. intros Hx. specialize (H1 _ _ Hx). lia.
      * intros t t' x. rewrite !sget_sput. destruct (String.eqb_spec tk t) as [<-|], (String.eqb_spec tk t') as [<-|]; auto; intros Ha Hb.
        -- injection Ha as <-. specialize (H1 _ _ Hb). lia.
        -- injection Hb as <-. specialize (H1 _ _ Ha). lia.
        -- eauto.
  - destruct (sget (clab c) tk) as [y|] eqn:Eg; intros E; injection E as <- <-.
    + split; [apply grows_refl|]. split; auto. split; [discriminate|]. split; [discriminate|auto].
    + split. { split; [cbn; congruence|]. split; [reflexivity|]. cbn [ccat clab sput sget]. split; [lia|]. intros t x Ht. destruct (String.eqb_spec tk t) as [<-|]; [congruence|auto]. }
      split. { intros _. cbn [clab]. rewrite sget_sput, String.eqb_refl. auto. } split; [discriminate|]. split; [discriminate|]. congruence.
Qed.

Definition rowStep := (fun (j : nat) (st : list column * gmap) (tk : string) =>
   c <- idx (fst st) j; r <- arffToken c tk; Ok (set_nth j (fst r) (fst st), put (snd st) (Z.of_nat j) (snd r))).

Lemma row_gen : forall v i cols m cols' m', foldi_from i rowStep v (cols, m) = Ok (cols', m') ->
  List.length cols' = List.length cols /\
  forall j, (if (i <=? j)%nat then match nth_error v (j - i) with
             | Some tk => exists c c' x, nth_error cols j = Some c /\ nth_error cols' j = Some c' /\ arffToken c tk = Ok (c', x) /\ get m' (Z.of_nat j) = Some x
             | None => nth_error cols' j = nth_error cols j /\ get m' (Z.of_nat j) = get m (Z.of_nat j)
             end else nth_error cols' j = nth_error cols j /\ get m' (Z.of_nat j) = get m (Z.of_nat j)).
Proof.
  induction v as [|tk v IH]; intros i cols m cols' m'; cbn [foldi_from].
  - intros E. injection E as <- <-. split; auto. intros j. destruct (i <=? j)%nat; [|auto]. replace (nth_error (@nil string) (j - i)) with (@None string) by (destruct (j - i)%nat; reflexivity). auto.
  - unfold rowStep at 1. cbn [fst snd]. unfold idx. destruct (nth_error cols i) as [c|] eqn:Ec; cbn [orPanic bind]; [|discriminate].
    destruct (arffToken c tk) as [[c1 x]| |] eqn:Et; cbn [bind fst snd]; try discriminate. intros E.
    rewrite Nat.add_1_r in E. apply IH in E as (HL & HJ). rewrite set_nth_length in HL. split; auto. intros j. specialize (HJ j).
    assert (Hi : (i < List.length cols)%nat) by (apply nth_error_Some; congruence).
    destruct (Nat.leb_spec i j) as [Hij|Hij].
    + destruct (Nat.eq_dec j i) as [->|Hne].
      * destruct (Nat.leb_spec (S i) i); [lia|]. rewrite Nat.sub_diag. cbn [nth_error]. destruct HJ as (H1 & H2).
        exists c, c1, x. rewrite H1, H2, get_put, Z.eqb_refl. rewrite nth_error_set_nth_same by auto. auto.
      * destruct (Nat.leb_spec (S i) j); [|lia]. replace (j - i)%nat with (S (j - S i)) by lia. cbn [nth_error].
        rewrite nth_error_set_nth_diff in HJ by auto. destruct (nth_error v (j - S i)); auto.
        rewrite get_put in HJ. destruct (Z.eqb_spec (Z.of_nat i) (Z.of_nat j)); [lia|]. auto.
    + destruct (Nat.leb_spec (S i) j); [lia|]. rewrite nth_error_set_nth_diff in HJ by lia. rewrite get_put in HJ.
      destruct (Z.eqb_spec (Z.of_nat i) (Z.of_nat j)); [lia|]. auto.
Qed.

Lemma row_ok cols v cols' m : arffRow cols v = Ok (cols', m) -> List.length cols' = List.length cols /\
  forall j, match nth_error v j with
    | Some tk => exists c c' x, nth_error cols j = Some c /\ nth_error cols' j = Some c' /\ arffToken c tk = Ok (c', x) /\ get m (Z.of_nat j) = Some x
    | None => nth_error cols' j = nth_error cols j /\ get m (Z.of_nat j) = None
    end.
Proof. intros H. apply row_gen in H as (H1 & H2). split; auto. intros j. specialize (H2 j). simpl in H2. rewrite Nat.sub_0_r in H2. auto. Qed.

(** Processing the instances. *)
Inductive runs : list string -> list column -> list column -> list gmap -> Prop :=
| runs_nil cols : runs [] cols cols []
| runs_cons l D cols c1 cols' m ms : arffRow cols (tokens l) = Ok (c1, m) -> runs D c1 cols' ms -> runs (l :: D) cols cols' (m :: ms).

Lemma isComment_iff l : isComment l = true <-> comment l.
Proof.
  unfold comment. destruct l as [|c l]; cbn [isComment].
  - split; [discriminate|]. intros (t & E). discriminate.
  - split; [intros E; apply Ascii.eqb_eq in E as ->; eauto|]. intros (t & E). injection E as -> ->. reflexivity.
Qed.

Lemma body_runs : forall T D, instances T D -> forall st st', adata st = true -> foldr_ arffLine T st = Ok st' ->
  exists ms, avals st' = (avals st ++ ms)%list /\ runs D (acols st) (acols st') ms.
Proof.
  induction 1 as [|l T D Hc HI IH|l T D Hc HI IH]; intros st st' Hd; cbn [foldr_].
  - intros E. injection E as <-. exists []. rewrite app_nil_r. split; auto. constructor.
  - unfold arffLine at 1. rewrite (proj2 (isComment_iff l) Hc). cbn [bind]. apply IH; auto.
  - unfold arffLine at 1. destruct (isComment l) eqn:Ec; [apply isComment_iff in Ec; contradiction|]. rewrite Hd. cbn [negb].
    destruct (arffRow (acols st) (fieldsFunc blankComma l)) as [[c1 m]| |] eqn:Er; cbn [bind fst snd]; try discriminate.
    intros E. eapply IH in E; [|reflexivity]; destruct E as (ms & E1 & E2). cbn [avals acols] in *. exists (m :: ms).
    rewrite E1, <- app_assoc. split; auto. econstructor; eauto.
Qed.

Lemma runs_length D cols cols' ms : runs D cols cols' ms -> List.length ms = List.length D /\ List.length cols' = List.length cols.
Proof. induction 1 as [|l D cols c1 cols' m ms Hr H [IH1 IH2]]; auto. apply row_ok in Hr as (Hl & _). simpl. split; congruence. Qed.

Lemma runs_col D cols cols' ms : runs D cols cols' ms -> forall j c, nth_error cols j = Some c ->
  exists c', nth_error cols' j = Some c' /\ grows c c' /\ (ctyp c = TString -> strinv c -> strinv c') /\
  (ctyp c = TClass -> (forall l tk, In l D -> nth_error (tokens l) j = Some tk -> sget (clab c) tk <> None) -> c' = c) /\
  forall i l m tk, nth_error D i = Some l -> nth_error ms i = Some m -> nth_error (tokens l) j = Some tk ->
    exists x, get m (Z.of_nat j) = Some x /\ (symbolic c -> sget (clab c') tk = Some x) /\
      (ctyp c = TNumeric -> atoi tk = (x, true) /\ (x < 2 ^ 63 - 1 -> x < ccat c')).
Proof.
  induction 1 as [cols|l D cols c1 cols' m ms Hr HR IH]; intros j c Hj.
  - exists c. split; auto. split; [apply grows_refl|]. split; auto. split; auto. intros [|i] l m tk Hi; discriminate.
  - apply row_ok in Hr as (Hl & Hrow). specialize (Hrow j). destruct (nth_error (tokens l) j) as [tk|] eqn:Etk.
    + destruct Hrow as (c0 & c2 & x & E0 & E2 & Et & Ex). rewrite Hj in E0. injection E0 as <-.
      destruct (token_ok _ _ _ _ Et) as (Hg & Hs & Hnum & Hstr & Hcl).
      destruct (IH j c2 E2) as (c' & E' & Hg' & Hstr' & Hcl' & Hall). exists c'. split; auto.
      assert (Hty : ctyp c2 = ctyp c) by apply Hg.
      split; [eapply grows_trans; eauto|]. split. { intros H1 H2. apply Hstr'; [congruence|]. auto. }
      split. { intros H1 H2. assert (c2 = c) by (apply Hcl; auto; eapply H2; [left; reflexivity|auto]). subst c2. apply Hcl'; auto. intros l' tk' Hin. apply H2. right; auto. }
      intros [|i] l' m' tk' Hi Hm Htk.
      * injection Hi as <-. injection Hm as <-. rewrite Etk in Htk. injection Htk as <-. exists x. split; auto. split.
        -- intros Hsym. apply Hg'. auto.
        -- intros Hn. destruct (Hnum Hn) as (Ha & Hb). split; auto. intros H. specialize (Hb H). destruct Hg' as (_ & _ & H3 & _). lia.
      * destruct (Hall i l' m' tk' Hi Hm Htk) as (y & H1 & H2 & H3). exists y. split; auto. unfold symbolic in *. rewrite Hty in H2, H3. auto.
    + destruct Hrow as (E0 & Ex). rewrite Hj in E0. destruct (IH j c E0) as (c' & E' & Hg' & Hstr' & Hcl' & Hall). exists c'. split; auto.
      split; auto. split; auto. split. { intros H1 H2. apply Hcl'; auto. intros l' tk' Hin. apply H2. right; auto. }
      intros [|i] l' m' tk' Hi Hm Htk; [|eapply Hall; eauto]. injection Hi as <-. congruence.
Qed.

(** The header. *)
Definition initial (c : column) : Prop := (ctyp c = TString -> strinv c) /\ (ctyp c = TClass -> classinv c).
Lemma labels_initial l : forall s (m : smap), (forall t x, sget m t = Some x -> 0 <= x < Z.of_nat s) ->
  (forall t t' x, sget m t = Some x -> sget m t' = Some x -> t = t') ->
  let m' := fold_left (fun m jt => sput m (snd jt) (Z.of_nat (fst jt))) (combine (seq s (List.length l)) l) m in
  (forall t x, sget m' t = Some x -> 0 <= x < Z.of_nat (s + List.length l)) /\ (forall t t' x, sget m' t = Some x -> sget m' t' = Some x -> t = t').
Proof.
  induction l as [|tk l IH]; intros s m H1 H2; cbn [List.length seq combine fold_left fst snd].
  - rewrite Nat.add_0_r. auto.
  - replace (s + S (List.length l))%nat with (S s + List.length l)%nat by lia. apply IH.
    + intros t x. rewrite sget_sput. destruct (String.eqb tk t); [intros E; injection E as <-; lia|]. intros E. specialize (H1 _ _ E). lia.
    + intros t t' x. rewrite !sget_sput. destruct (String.eqb_spec tk t) as [<-|], (String.eqb_spec tk t') as [<-|]; auto; intros Ha Hb.
      * injection Ha as <-. specialize (H1 _ _ Hb). lia.
      * injection Hb as <-. specialize (H1 _ _ Ha). lia.
      * eauto.
Qed.
Lemma newColumn_initial n typ : initial (newColumn n typ).
Proof.
  unfold newColumn, initial. destruct (String.eqb (toLower typ) "numeric"); [split; discriminate|].
  destruct (String.eqb (toLower typ) "string").
  - split; [|discriminate]. intros _. unfold strinv. cbn. split; [discriminate|]. split; [discriminate|]. lia.
  - split; [discriminate|]. intros _. unfold classinv. cbn [clab ccat]. apply (labels_initial (fieldsFunc classSep typ) 0%nat []); discriminate.
Qed.

Lemma hasPrefix_iff p s : hasPrefix p s = true <-> exists t, s = p ++ t.
Proof.
  unfold hasPrefix. revert s. induction p as [|a p IH]; intros s; cbn [stripPrefix].
  - split; [intros _; exists s; reflexivity|reflexivity].
  - destruct s as [|b s]; [split; [discriminate|intros (t & E); discriminate]|]. destruct (Ascii.eqb_spec a b) as [<-|Hne].
    + rewrite IH. cbn [append]. split; intros (t & E); exists t; [congruence|]. injection E as ->. auto.
    + split; [discriminate|]. intros (t & E). injection E as <- _. congruence.
Qed.

Lemma header_ok : forall H st st', (forall l, In l H -> ~ starts_data l) -> adata st = false -> avals st = [] -> Forall initial (acols st) ->
  foldr_ arffLine H st = Ok st' -> adata st' = false /\ avals st' = [] /\ Forall initial (acols st').
Proof.
  induction H as [|l H IH]; intros st st' HH Hd Hv Hi; cbn [foldr_].
  - intros E. injection E as <-. auto.
  - destruct (arffLine st l) as [st1| |] eqn:E1; cbn [bind]; try discriminate. apply IH; [intros; apply HH; right; auto|..];
      unfold arffLine in E1; destruct (isComment l) eqn:Ec.
    all: try (injection E1 as <-; assumption).
    all: rewrite Hd in E1; cbn [negb] in E1.
    all: destruct (hasPrefix "@relation" (toLower l));
         [destruct (idx (fields l) 1); cbn [bind] in E1; try discriminate; injection E1 as <-; cbn; auto; fail|].
    all: destruct (hasPrefix "@attribute" (toLower l)).
    all: try (destruct (idx (fields l) 1); cbn [bind] in E1; try discriminate; injection E1 as <-; cbn; auto; fail).
    all: try (destruct (hasPrefix "@data" (toLower l)) eqn:Ep;
         [exfalso; apply (HH l (or_introl eq_refl)); split; [intros Hc; apply isComment_iff in Hc; congruence|apply hasPrefix_iff; auto]|]; injection E1 as <-; auto; fail).
    destruct (idx (fields l) 1); cbn [bind] in E1; try discriminate. injection E1 as <-. cbn [acols]. apply Forall_app. split; auto.
    constructor; auto. apply newColumn_initial.
Qed.

Lemma foldr_split {S' T} (f : S' -> T -> res S') a b s : foldr_ f (a ++ b)%list s = (s' <- foldr_ f a s; foldr_ f b s').
Proof. revert s. induction a as [|x a IH]; intros s; cbn [app foldr_]; auto. destruct (f s x); cbn [bind]; auto. Qed.

Lemma prefix_case p q s : hasPrefix p s = true -> hasPrefix q s = true -> (String.length q <= String.length p)%nat -> hasPrefix q p = true.
Proof.
  revert q s. unfold hasPrefix. induction p as [|a p IH]; intros q s H1 H2 Hl.
  - destruct q; simpl in *; auto. lia.
  - destruct s as [|b s]; [simpl in H1; discriminate|]. cbn [stripPrefix] in H1. destruct (Ascii.eqb_spec a b) as [<-|]; [|discriminate].
    destruct q as [|c q]; auto. cbn [stripPrefix] in *. destruct (Ascii.eqb_spec c a); [|discriminate]. eapply IH; eauto. simpl in Hl. lia.
Qed.

Lemma data_line_ok st d : starts_data d -> adata st = false -> arffLine st d = Ok (mkArff (aname st) (acols st) true (avals st)).
Proof.
  intros (Hc & Hp) Hd. unfold arffLine. destruct (isComment d) eqn:Ec; [apply isComment_iff in Ec; contradiction|]. rewrite Hd. cbn [negb].
  apply hasPrefix_iff in Hp. destruct (hasPrefix "@relation" (toLower d)) eqn:E1.
  { pose proof (prefix_case _ _ _ E1 Hp ltac:(simpl; lia)) as X. discriminate. }
  destruct (hasPrefix "@attribute" (toLower d)) eqn:E2.
  { pose proof (prefix_case _ _ _ E2 Hp ltac:(simpl; lia)) as X. discriminate. }
  rewrite Hp. auto.
Qed.

(** The whole file. *)
Lemma arff_whole H d T D st0 st : (forall l, In l H -> ~ starts_data l) -> starts_data d -> instances T D ->
  parseArff (H ++ [d]) = Ok st0 -> parseArff (H ++ d :: T) = Ok st ->
  Forall initial (acols st0) /\ runs D (acols st0) (acols st) (avals st).
Proof.
  intros HH Hd HI. unfold parseArff. rewrite !foldr_split. destruct (foldr_ arffLine H (mkArff "" [] false [])) as [s1| |] eqn:E1; cbn [bind]; try discriminate.
  destruct (header_ok _ (mkArff "" [] false []) _ HH eq_refl eq_refl (Forall_nil _) E1) as (H1 & H2 & H3). cbn [foldr_]. rewrite data_line_ok by auto. cbn [bind].
  intros E E'. injection E as <-. eapply body_runs in E'; [|exact HI|reflexivity]; destruct E' as (ms & H4 & H5). cbn [avals acols] in *. rewrite H2 in H4. cbn [app] in H4. subst ms.
  auto.
Qed.

Lemma arff_ids_l H d T D st0 st : (forall l, In l H -> ~ starts_data l) -> starts_data d -> instances T D ->
  parseArff (H ++ [d]) = Ok st0 -> parseArff (H ++ d :: T) = Ok st ->
  List.length (avals st) = List.length D /\ List.length (acols st) = List.length (acols st0) /\
  forall j c0, nth_error (acols st0) j = Some c0 ->
  (ctyp c0 = TString \/ ctyp c0 = TClass /\ (forall l tk, In l D -> nth_error (tokens l) j = Some tk -> sget (clab c0) tk <> None)) ->
  exists c, nth_error (acols st) j = Some c /\ cname c = cname c0 /\
  forall i l m t i' l' m' t', nth_error D i = Some l -> nth_error (avals st) i = Some m -> nth_error (tokens l) j = Some t ->
    nth_error D i' = Some l' -> nth_error (avals st) i' = Some m' -> nth_error (tokens l') j = Some t' ->
    exists x x', get m (Z.of_nat j) = Some x /\ get m' (Z.of_nat j) = Some x' /\ (x = x' <-> t = t') /\ 0 <= x < ccat c /\ sget (clab c) t = Some x.
Proof.
  intros HH Hd HI E0 E. destruct (arff_whole _ _ _ _ _ _ HH Hd HI E0 E) as (Hini & HR). destruct (runs_length _ _ _ _ HR) as (HL & HC).
  split; auto. split; auto. intros j c0 Hj Hsym. destruct (runs_col _ _ _ _ HR j c0 Hj) as (c & Hc & Hg & Hstr & Hcl & Hall).
  exists c. split; auto. split; [apply Hg|]. intros i l m t i' l' m' t' H1 H2 H3 H4 H5 H6.
  destruct (Hall _ _ _ _ H1 H2 H3) as (x & Ex & Sx & _). destruct (Hall _ _ _ _ H4 H5 H6) as (x' & Ex' & Sx' & _).
  assert (Hs : symbolic c0) by (destruct Hsym as [Ht|[Ht _]]; [left|right]; auto). specialize (Sx Hs). specialize (Sx' Hs).
  assert (Hi0 : initial c0) by (rewrite Forall_forall in Hini; apply Hini; eapply nth_error_In; eauto).
  assert (HX : (forall t x, sget (clab c) t = Some x -> 0 <= x < ccat c) /\ (forall t t' x, sget (clab c) t = Some x -> sget (clab c) t' = Some x -> t = t')).
  { destruct Hsym as [Ht|[Ht Hdecl]].
    - destruct (Hstr Ht (proj1 Hi0 Ht)) as (A1 & A2 & A3 & A4). rewrite A3. auto.
    - specialize (Hcl Ht Hdecl). subst c. apply (proj2 Hi0 Ht). }
  destruct HX as (A & B). exists x, x'. split; auto. split; auto. split; [|split; eauto].
  split; [intros <-; eapply B; eauto|]. intros <-. congruence.
Qed.

Lemma arff_numeric_l H d T D st0 st : (forall l, In l H -> ~ starts_data l) -> starts_data d -> instances T D ->
  parseArff (H ++ [d]) = Ok st0 -> parseArff (H ++ d :: T) = Ok st ->
  forall j c0, nth_error (acols st0) j = Some c0 -> ctyp c0 = TNumeric ->
  exists c, nth_error (acols st) j = Some c /\ cname c = cname c0 /\
  forall i l m v, nth_error D i = Some l -> nth_error (avals st) i = Some m -> int64 v -> nth_error (tokens l) j = Some (numeral v) ->
    get m (Z.of_nat j) = Some v /\ (v < 2 ^ 63 - 1 -> v < ccat c).
Proof.
  intros HH Hd HI E0 E j c0 Hj Ht. destruct (arff_whole _ _ _ _ _ _ HH Hd HI E0 E) as (Hini & HR).
  destruct (runs_col _ _ _ _ HR j c0 Hj) as (c & Hc & Hg & _ & _ & Hall). exists c. split; auto. split; [apply Hg|].
  intros i l m v H1 H2 Hv H3. destruct (Hall _ _ _ _ H1 H2 H3) as (x & Ex & _ & Hx). destruct (Hx Ht) as (Ha & Hb).
  rewrite atoi_numeral in Ha by auto. injection Ha as ->. auto.
Qed.

Lemma arff_equal_l H d T D st0 st : (forall l, In l H -> ~ starts_data l) -> starts_data d -> instances T D ->
  parseArff (H ++ [d]) = Ok st0 -> parseArff (H ++ d :: T) = Ok st ->
  forall j c0, nth_error (acols st0) j = Some c0 -> ctyp c0 <> TNumeric ->
  forall i l m i' l' m' t, nth_error D i = Some l -> nth_error (avals st) i = Some m -> nth_error (tokens l) j = Some t ->
    nth_error D i' = Some l' -> nth_error (avals st) i' = Some m' -> nth_error (tokens l') j = Some t ->
    exists x, get m (Z.of_nat j) = Some x /\ get m' (Z.of_nat j) = Some x.
Proof.
  intros HH Hd HI E0 E j c0 Hj Ht i l m i' l' m' t H1 H2 H3 H4 H5 H6. destruct (arff_whole _ _ _ _ _ _ HH Hd HI E0 E) as (Hini & HR).
  destruct (runs_col _ _ _ _ HR j c0 Hj) as (c & Hc & Hg & _ & _ & Hall).
  destruct (Hall _ _ _ _ H1 H2 H3) as (x & Ex & Sx & _). destruct (Hall _ _ _ _ H4 H5 H6) as (x' & Ex' & Sx' & _).
  assert (Hs : symbolic c0) by (unfold symbolic; destruct (ctyp c0); auto; congruence). specialize (Sx Hs). specialize (Sx' Hs).
  exists x. split; auto. congruence.
Qed.

Lemma not_comment l : isComment l = false -> ~ comment l.
Proof. intros H Hc. apply isComment_iff in Hc. congruence. Qed.
Definition refHead := ["@relation r"; "@attribute c {a,b}"].
Definition refBody := ["a"; "z"; "y"; "x"].
Lemma arff_refuted_l : exists H d T st0 st c0, (forall l, In l H -> ~ starts_data l) /\ starts_data d /\ instances T T /\
  parseArff (H ++ [d]) = Ok st0 /\ parseArff (H ++ d :: T) = Ok st /\ nth_error (acols st0) 0 = Some c0 /\ ctyp c0 = TClass /\
  (exists i i' l l' m m' t t' x, nth_error T i = Some l /\ nth_error T i' = Some l' /\ nth_error (avals st) i = Some m /\ nth_error (avals st) i' = Some m' /\
     nth_error (tokens l) 0 = Some t /\ nth_error (tokens l') 0 = Some t' /\ t <> t' /\ get m 0 = Some x /\ get m' 0 = Some x) /\
  (exists m c x, In m (avals st) /\ nth_error (acols st) 0 = Some c /\ get m 0 = Some x /\ ccat c <= x).
Proof.
  exists refHead, "@data", refBody. eexists. eexists. eexists. split.
  { intros l [<-|[<-|[]]] (_ & H); apply hasPrefix_iff in H; discriminate. }
  split. { split; [apply not_comment; reflexivity|]. exists "". reflexivity. }
  split. { unfold refBody. repeat (apply inst_take; [apply not_comment; reflexivity|]). constructor. }
  split; [vm_compute; reflexivity|]. split; [vm_compute; reflexivity|]. split; [reflexivity|]. split; [reflexivity|]. split.
  - exists 0%nat, 1%nat, "a", "z". do 5 eexists. repeat (split; [reflexivity|]). split; [discriminate|]. split; reflexivity.
  - do 3 eexists. split; [right; right; right; left; reflexivity|]. split; [reflexivity|]. split; [reflexivity|]. simpl. lia.
Qed.
