(** The numbers of categories ParseArff returns are the smallest possible (C62). *)
From Coq Require Import Ascii String.
From Verif Require Import Base Res GoMap DataSpec DataLemmas Text TextSpec Parse Arff ArffSpec ArffLemmas.
Local Open Scope string_scope.
Local Open Scope Z_scope.

Lemma token_cat c tk c' x : arffToken c tk = Ok (c', x) -> ctyp c' = ctyp c /\
  (ctyp c = TNumeric -> ccat c' = ccat c \/ x = ccat c' - 1) /\
  (ctyp c = TString -> ccat c = ccount c -> ccat c' = ccount c' /\ (ccat c' = ccat c \/ ccat c' = ccat c + 1 /\ x = ccat c)) /\
  (ctyp c = TClass -> ccat c' = ccat c).
Proof.
  unfold arffToken. destruct (ctyp c) eqn:Et.
  - destruct (atoi tk) as [v ok]. destruct ok; [|discriminate]. intros E. injection E as <- <-.
    destruct (_ && _); cbn [ctyp ccat]; (split; [congruence|]); (split; [intros _|split; discriminate]); [right; lia|auto].
  - destruct (sget (clab c) tk) as [y|]; intros E; injection E as <- <-; cbn [ctyp ccat ccount]; (split; [congruence|]);
      (split; [discriminate|split; [|discriminate]]); intros _ H; [auto|]. split; [lia|right; split; lia].
  - destruct (sget (clab c) tk) as [y|]; intros E; injection E as <- <-; cbn [ctyp ccat]; (split; [congruence|]);
      (split; [discriminate|split; [discriminate|]]); auto.
Qed.

Lemma runs_cat D cols cols' ms : runs D cols cols' ms -> forall j c, nth_error cols j = Some c ->
  exists c', nth_error cols' j = Some c' /\
    (ctyp c = TNumeric -> ccat c' = ccat c \/ exists m, In m ms /\ get m (Z.of_nat j) = Some (ccat c' - 1)) /\
    (ctyp c = TString -> ccat c = ccount c -> forall x, ccat c <= x < ccat c' -> exists m, In m ms /\ get m (Z.of_nat j) = Some x) /\
    (ctyp c = TClass -> ccat c' = ccat c).
Proof.
  induction 1 as [cols|l D cols c1 cols' m ms Hr HR IH]; intros j c Hj.
  - exists c. split; auto. split; auto. split; auto. intros _ _ x Hx. lia.
  - apply row_ok in Hr as (_ & Hrow). specialize (Hrow j). destruct (nth_error (tokens l) j) as [tk|].
    + destruct Hrow as (c0 & c2 & x & E0 & E2 & Et & Ex). rewrite Hj in E0. injection E0 as <-.
      destruct (token_cat _ _ _ _ Et) as (Hty & Hn & Hs & Hc). destruct (IH j c2 E2) as (c' & E' & Hn' & Hs' & Hc').
      rewrite Hty in *. exists c'. split; auto. split; [|split].
      * intros H. destruct (Hn' H) as [Hz|(m' & Hm & Hg)]; [|right; exists m'; split; [right|]; auto].
        destruct (Hn H) as [Hz'|Hx]; [left; congruence|]. right. exists m. split; [left; auto|]. rewrite Ex. f_equal. congruence.
      * intros H Hcc y Hy. destruct (Hs H Hcc) as (Hcc' & Hstep).
        destruct (Z.lt_ge_cases y (ccat c2)) as [Hlt|Hge].
        -- destruct Hstep as [Hz|(Hz & Hx)]; [lia|]. exists m. split; [left; auto|]. rewrite Ex. f_equal. lia.
        -- destruct (Hs' H Hcc' y) as (m' & Hm & Hg); [lia|]. exists m'. split; [right|]; auto.
      * intros H. rewrite (Hc' H). auto.
    + destruct Hrow as (E0 & _). rewrite Hj in E0. destruct (IH j c E0) as (c' & E' & Hn' & Hs' & Hc'). exists c'.
      split; auto. split; [|split; auto].
      * intros H. destruct (Hn' H) as [Hz|(m' & Hm & Hg)]; [auto|right; exists m'; split; [right|]; auto].
      * intros H Hcc y Hy. destruct (Hs' H Hcc y Hy) as (m' & Hm & Hg). exists m'. split; [right|]; auto.
Qed.

(** What the header gives. *)
Definition empty_col (c : column) : Prop := ctyp c <> TClass -> ccat c = 0 /\ ccount c = 0.
Lemma newColumn_empty n typ : empty_col (newColumn n typ).
Proof.
  unfold newColumn, empty_col. destruct (String.eqb (toLower typ) "numeric"); [auto|].
  destruct (String.eqb (toLower typ) "string"); cbn; auto. congruence.
Qed.
Lemma header_empty : forall H st st', (forall l, In l H -> ~ starts_data l) -> adata st = false -> Forall empty_col (acols st) ->
  foldr_ arffLine H st = Ok st' -> Forall empty_col (acols st').
Proof.
  induction H as [|l H IH]; intros st st' HH Hd Hi; cbn [foldr_].
  - intros E. injection E as <-. auto.
  - destruct (arffLine st l) as [st1| |] eqn:E1; cbn [bind]; try discriminate. apply IH; [intros; apply HH; right; auto|..];
      unfold arffLine in E1; destruct (isComment l) eqn:Ec.
    all: try (injection E1 as <-; assumption).
    all: rewrite Hd in E1; cbn [negb] in E1.
    all: destruct (hasPrefix "@relation" (toLower l));
         [destruct (idx (fields l) 1); cbn [bind] in E1; try discriminate; injection E1 as <-; cbn; auto; fail|].
    all: destruct (hasPrefix "@attribute" (toLower l)).
    all: try (destruct (idx (fields l) 1); cbn [bind] in E1; try discriminate; injection E1 as <-; cbn; auto; fail).
    all: try (destruct (hasPrefix "@data" (toLower l)) eqn:Ep;
         [exfalso; apply (HH l (or_introl eq_refl)); split; [intros Hc; apply isComment_iff in Hc; congruence|apply hasPrefix_iff; auto]|]; injection E1 as <-; auto; fail).
    destruct (idx (fields l) 1); cbn [bind] in E1; try discriminate. injection E1 as <-. cbn [acols]. apply Forall_app. split; auto.
    constructor; auto. apply newColumn_empty.
Qed.

Lemma arff_categories_l H d T D st0 st : (forall l, In l H -> ~ starts_data l) -> starts_data d -> instances T D ->
  parseArff (H ++ [d]) = Ok st0 -> parseArff (H ++ d :: T) = Ok st ->
  forall j c0, nth_error (acols st0) j = Some c0 ->
  exists c, nth_error (acols st) j = Some c /\ ctyp c = ctyp c0 /\ (ctyp c0 <> TClass -> 0 <= ccat c) /\
    (ctyp c0 = TNumeric -> ccat c = 0 \/ exists m, In m (avals st) /\ get m (Z.of_nat j) = Some (ccat c - 1)) /\
    (ctyp c0 = TString -> forall x, 0 <= x < ccat c -> exists m, In m (avals st) /\ get m (Z.of_nat j) = Some x) /\
    (ctyp c0 = TClass -> ccat c = ccat c0).
Proof.
  intros HH Hd HI E0 E j c0 Hj. destruct (arff_whole _ _ _ _ _ _ HH Hd HI E0 E) as (_ & HR).
  assert (Hemp : Forall empty_col (acols st0)).
  { unfold parseArff in E0. rewrite foldr_split in E0.
    destruct (foldr_ arffLine H (mkArff "" [] false [])) as [s1| |] eqn:E1; cbn [bind] in E0; try discriminate.
    destruct (header_ok _ (mkArff "" [] false []) _ HH eq_refl eq_refl (Forall_nil _) E1) as (H1 & _ & _).
    cbn [foldr_] in E0. rewrite data_line_ok in E0 by auto. cbn [bind] in E0. injection E0 as <-. cbn [acols].
    eapply header_empty; [exact HH| | |exact E1]; [reflexivity|constructor]. }
  assert (Hz : empty_col c0) by (rewrite Forall_forall in Hemp; apply Hemp; eapply nth_error_In; eauto).
  destruct (runs_cat _ _ _ _ HR j c0 Hj) as (c & Hc & Hn & Hs & Hk).
  destruct (runs_col _ _ _ _ HR j c0 Hj) as (c' & Hc' & Hg & _). rewrite Hc in Hc'. injection Hc' as <-.
  exists c. split; auto. split; [apply Hg|]. split; [|split; [|split; auto]].
  - intros Ht. destruct (Hz Ht) as (Hz0 & _). destruct Hg as (_ & _ & Hle & _). lia.
  - intros Ht. destruct (Hz ltac:(congruence)) as (Hz0 & _). rewrite Hz0 in Hn. auto.
  - intros Ht x Hx. destruct (Hz ltac:(congruence)) as (Hz0 & Hz1). apply Hs; auto; lia.
Qed.
