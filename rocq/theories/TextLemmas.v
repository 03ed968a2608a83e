From Coq Require Import Ascii String DecimalString DecimalZ DecimalN DecimalPos.
From Verif Require Import Base Res GoMap Text TextSpec.
Local Open Scope string_scope.
Local Open Scope Z_scope.

Fixpoint allChars (P : ascii -> Prop) (s : string) : Prop :=
  match s with EmptyString => True | String c t => P c /\ allChars P t end.
Definition isDigit (c : ascii) : Prop := digitOf c <> None.

Fixpoint valueOf (s : string) (acc : Z) : Z :=
  match s with EmptyString => acc | String c t => valueOf t (match digitOf c with Some d => 10 * acc + d | None => acc end) end.

Lemma uint_chars u : allChars isDigit (NilEmpty.string_of_uint u).
Proof. induction u; simpl; auto; split; auto; discriminate. Qed.
Lemma uint_value_acc u : forall p, valueOf (NilEmpty.string_of_uint u) (Zpos p) = Zpos (Pos.of_uint_acc u p).
Proof.
  induction u; intros p; cbn [NilEmpty.string_of_uint valueOf Pos.of_uint_acc]; auto;
  rewrite <- IHu; f_equal; vm_compute digitOf; cbv iota; lia.
Qed.
Lemma uint_value u : valueOf (NilEmpty.string_of_uint u) 0 = Z.of_N (N.of_uint u).
Proof.
  unfold N.of_uint. induction u; cbn [NilEmpty.string_of_uint valueOf Pos.of_uint]; auto; vm_compute digitOf; cbv iota.
  all: match goal with |- valueOf _ (10 * 0 + ?d) = _ => change (10 * 0 + d) with d end; rewrite uint_value_acc; reflexivity.
Qed.
Lemma value_mono s : forall a, 0 <= a -> a <= valueOf s a.
Proof.
  induction s as [|c s IH]; intros a Ha; cbn [valueOf]; [lia|].
  destruct (digitOf c) as [d|] eqn:E; [|apply IH; auto].
  assert (0 <= d). { unfold digitOf in E. destruct (_ && _) eqn:E2; [|discriminate]. apply andb_true_iff in E2 as [H1 H2]. injection E as <-. lia. }
  specialize (IH (10 * a + d) ltac:(lia)). lia.
Qed.
Lemma parse_value s : forall a, 0 <= a -> allChars isDigit s -> valueOf s a < 2 ^ 64 -> parseDigits s a = UVal (valueOf s a).
Proof.
  induction s as [|c s IH]; intros a Ha Hd Hv; cbn [valueOf parseDigits]; auto.
  destruct Hd as (Hc & Hd). cbn [valueOf] in Hv. unfold isDigit in Hc. destruct (digitOf c) as [d|] eqn:E; [|congruence].
  assert (0 <= d). { unfold digitOf in E. destruct (_ && _) eqn:E2; [|discriminate]. apply andb_true_iff in E2 as [H1 H2]. injection E as <-. lia. }
  pose proof (value_mono s (10 * a + d) ltac:(lia)). destruct (Z.leb_spec (2 ^ 64) (10 * a + d)); [lia|]. apply IH; auto. lia.
Qed.

(** The numeral is an optional minus and digits with the right value. *)
Lemma numeral_shape z : exists neg ds, numeral z = (if neg : bool then String "-" ds else ds) /\ ds <> "" /\ allChars isDigit ds /\
  valueOf ds 0 = Z.abs z /\ z = (if neg then - Z.abs z else Z.abs z).
Proof.
  unfold numeral. pose proof (DecimalZ.of_to z) as Oz.
  assert (Hs : forall u, NilZero.string_of_uint u <> "" /\ allChars isDigit (NilZero.string_of_uint u) /\ valueOf (NilZero.string_of_uint u) 0 = Z.of_N (N.of_uint u)).
  { intros u. destruct (Decimal.uint_eq_dec u Decimal.Nil) as [->|Hu].
    - split; [discriminate|]. split; [|reflexivity]. simpl. split; [discriminate|auto].
    - replace (NilZero.string_of_uint u) with (NilEmpty.string_of_uint u) by (destruct u; congruence || reflexivity).
      split; [destruct u; discriminate || congruence|]. split; [apply uint_chars|apply uint_value]. }
  destruct (Z.to_int z) as [u|u] eqn:E; destruct (Hs u) as (H1 & H2 & H3); cbn [NilZero.string_of_int]; cbn [Z.of_int] in Oz;
    change (Z.of_uint u) with (Z.of_N (N.of_uint u)) in Oz.
  - exists false. eexists. split; [reflexivity|]. split; [exact H1|]. split; [exact H2|]. rewrite H3. lia.
  - exists true. eexists. split; [reflexivity|]. split; [exact H1|]. split; [exact H2|]. rewrite H3. lia.
Qed.

Lemma digit_not_sign c : isDigit c -> c <> "-"%char /\ c <> "+"%char.
Proof. intros H. split; intros ->; apply H; reflexivity. Qed.
Lemma signOf_digits ds r : ds <> "" -> allChars isDigit ds -> signOf (ds ++ r) = (false, ds ++ r).
Proof.
  destruct ds as [|c ds]; [congruence|]. intros _ (Hc & _). cbn [append]. destruct (digit_not_sign c Hc) as (H1 & H2). unfold signOf.
  destruct c as [b0 b1 b2 b3 b4 b5 b6 b7]. destruct b0, b1, b2, b3, b4, b5, b6, b7; try reflexivity; congruence.
Qed.
Lemma int64_ok z : int64 z -> (- 2 ^ 63 <=? z) && (z <? 2 ^ 63) = true.
Proof. intros [H1 H2]. apply andb_true_intro. split; [apply Z.leb_le|apply Z.ltb_lt]; auto. Qed.
Lemma append_nil s : s ++ "" = s.
Proof. induction s; simpl; congruence. Qed.
Lemma append_ass a b c : (a ++ b) ++ c = a ++ b ++ c.
Proof. induction a; simpl; congruence. Qed.

Lemma atoi_numeral z : int64 z -> atoi (numeral z) = (z, true).
Proof.
  intros Hz. destruct (numeral_shape z) as (neg & ds & -> & H1 & H2 & H3 & H4). unfold atoi.
  assert (Hp : parseDigits ds 0 = UVal (Z.abs z)).
  { rewrite parse_value; auto; rewrite ?H3; auto; try lia. unfold int64 in Hz. lia. }
  destruct neg.
  - cbn [signOf]. destruct ds as [|c ds]; [congruence|]. rewrite Hp, <- H4, int64_ok by auto. reflexivity.
  - rewrite <- (append_nil ds), signOf_digits by auto. rewrite append_nil. destruct ds as [|c ds]; [congruence|].
    rewrite Hp, <- H4, int64_ok by auto. reflexivity.
Qed.

Definition startsDigit (s : string) : Prop := match s with String c _ => isDigit c | _ => False end.
Lemma takeRun ds r : allChars isDigit ds -> ~ startsDigit r -> takeDigitRun (ds ++ r) = (ds, r).
Proof.
  induction ds as [|c ds IH]; intros Hd Hr.
  - cbn [append]. destruct r as [|c r]; cbn [takeDigitRun]; auto. simpl in Hr. unfold isDigit in Hr. destruct (digitOf c); auto. exfalso. apply Hr. discriminate.
  - destruct Hd as (Hc & Hd). cbn [append takeDigitRun]. unfold isDigit in Hc. destruct (digitOf c); [|congruence]. rewrite IH; auto.
Qed.
Lemma digit_not_space c : isDigit c -> isSpace c = false.
Proof.
  unfold isDigit, digitOf, isSpace. destruct (_ && _) eqn:E; [|congruence]. intros _. apply andb_true_iff in E as [H1 H2].
  set (n := nat_of_ascii c) in *. destruct (Nat.leb_spec 9 n), (Nat.leb_spec n 13), (Nat.eqb_spec n 32); simpl; auto; lia.
Qed.
Lemma skip_numeral z r : skipSpaces (numeral z ++ r) = numeral z ++ r.
Proof.
  destruct (numeral_shape z) as (neg & ds & -> & H1 & H2 & _). destruct neg; [reflexivity|].
  destruct ds as [|c ds]; [congruence|]. destruct H2 as (Hc & _). cbn [append skipSpaces]. rewrite digit_not_space by auto. auto.
Qed.
Lemma scanD_numeral z r : int64 z -> ~ startsDigit r -> scanD (numeral z ++ r) = Some (z, r).
Proof.
  intros Hz Hr. unfold scanD. rewrite skip_numeral. destruct (numeral_shape z) as (neg & ds & -> & H1 & H2 & H3 & H4).
  assert (Hp : parseDigits ds 0 = UVal (Z.abs z)).
  { rewrite parse_value; auto; rewrite ?H3; auto; try lia. unfold int64 in Hz. lia. }
  assert (Hs : signOf ((if neg then String "-" ds else ds) ++ r) = (neg, ds ++ r)).
  { destruct neg; [reflexivity|]. apply signOf_digits; auto. }
  rewrite Hs, takeRun by auto. destruct ds as [|c ds]; [congruence|]. rewrite Hp, <- H4, int64_ok by auto. reflexivity.
Qed.
Lemma scanD_blank z r : int64 z -> ~ startsDigit r -> scanD (String " " (numeral z ++ r)) = Some (z, r).
Proof. intros. change (scanD (String " " (numeral z ++ r))) with (scanD (numeral z ++ r)). apply scanD_numeral; auto. Qed.

(** Characters of numerals. *)
Lemma digit_not_sep c : isDigit c -> isSep c = false.
Proof.
  unfold isDigit, digitOf, isSep. destruct (_ && _) eqn:E; [|congruence]. intros _. apply andb_true_iff in E as [H1 H2].
  set (n := nat_of_ascii c) in *.
  destruct (Nat.eqb_spec n 44), (Nat.eqb_spec n 9), (Nat.eqb_spec n 10), (Nat.eqb_spec n 12), (Nat.eqb_spec n 13), (Nat.eqb_spec n 32); simpl; auto; lia.
Qed.
Lemma allChars_impl (P Q : ascii -> Prop) s : (forall c, P c -> Q c) -> allChars P s -> allChars Q s.
Proof. intros H. induction s; simpl; firstorder. Qed.
Definition numChar (c : ascii) : Prop := isDigit c \/ c = "-"%char.
Lemma numeral_chars z : allChars numChar (numeral z).
Proof.
  destruct (numeral_shape z) as (neg & ds & -> & _ & H2 & _).
  assert (allChars numChar ds) by (eapply allChars_impl; [|apply H2]; left; auto).
  destruct neg; auto. split; [right|]; auto.
Qed.
Lemma numeral_nonempty z : numeral z <> "".
Proof. destruct (numeral_shape z) as (neg & ds & -> & H1 & _). destruct neg; [discriminate|auto]. Qed.
Lemma numChar_not_sep c : numChar c -> isSep c = false.
Proof. intros [H| ->]; [apply digit_not_sep; auto|reflexivity]. Qed.
Lemma numeral_first z r : exists c t, numeral z ++ r = String c t /\ numChar c.
Proof.
  pose proof (numeral_chars z) as H. pose proof (numeral_nonempty z) as H0. destruct (numeral z) as [|c t]; [congruence|].
  exists c, (t ++ r). split; [reflexivity|apply H].
Qed.
Lemma numChar_not_v c : numChar c -> Ascii.eqb c "v" = false.
Proof. intros [H| ->]; [|reflexivity]. destruct (Ascii.eqb_spec c "v"); auto. subst. exfalso. apply H. reflexivity. Qed.

(** Splitting. *)
Lemma sep_isSep c : separator c -> isSep c = true.
Proof. intros [<-|[<-|[<-|[<-|[<-|[<-|[]]]]]]]; reflexivity. Qed.
Lemma split_token t r : allChars (fun c => isSep c = false) t ->
  exists h q, splitRuns false r = h :: q /\ splitRuns false (t ++ r) = (t ++ h) :: q.
Proof.
  induction t as [|c t IH]; intros Ht.
  - cbn [append]. destruct (splitRuns false r) as [|h q] eqn:E; [|eauto]. exfalso. destruct r as [|c r]; [discriminate|]. simpl in E. destruct (isSep c); [discriminate|].
    destruct (splitRuns false r); discriminate.
  - destruct Ht as (Hc & Ht). destruct (IH Ht) as (h & q & E1 & E2). exists h, q. split; auto. cbn [append splitRuns]. rewrite Hc, E2. auto.
Qed.
Lemma split_true_token t r : t <> "" -> allChars (fun c => isSep c = false) t -> splitRuns true (t ++ r) = splitRuns false (t ++ r).
Proof. destruct t as [|c t]; [congruence|]. intros _ (Hc & _). cbn [append splitRuns]. rewrite Hc. auto. Qed.
Lemma split_run s r : separators s -> splitRuns true (s ++ r) = splitRuns true r.
Proof. induction s as [|c s IH]; auto. intros (Hc & Hs). cbn [append splitRuns]. rewrite sep_isSep by auto. auto. Qed.
Lemma split_sep s r : separators s -> s <> "" -> splitRuns false (s ++ r) = "" :: splitRuns true r.
Proof.
  destruct s as [|c s]; [congruence|]. intros (Hc & Hs) _. cbn [append splitRuns]. rewrite sep_isSep by auto. rewrite split_run; auto.
Qed.

Lemma row_split vs line : row_text vs line -> exists q, regexSplit line = (map numeral vs ++ q)%list /\ (q = [] \/ q = [""]).
Proof.
  unfold regexSplit. induction 1 as [v s Hs|v s vs line Hs Hne Hr IH].
  - assert (Hn : allChars (fun c => isSep c = false) (numeral v)) by (eapply allChars_impl; [apply numChar_not_sep|apply numeral_chars]).
    destruct (split_token (numeral v) s Hn) as (h & q & E1 & E2). rewrite E2. cbn [map app].
    destruct s as [|c s]. { injection E1 as <- <-. exists []. rewrite append_nil. auto. }
    assert (E3 : splitRuns false (String c s ++ "") = "" :: splitRuns true "") by (apply split_sep; auto; discriminate).
    rewrite append_nil in E3. rewrite E1 in E3. injection E3 as -> ->. exists [""]. rewrite append_nil. auto.
  - assert (Hn : allChars (fun c => isSep c = false) (numeral v)) by (eapply allChars_impl; [apply numChar_not_sep|apply numeral_chars]).
    destruct (split_token (numeral v) (s ++ line) Hn) as (h & q & E1 & E2). rewrite E2.
    rewrite split_sep in E1 by auto. injection E1 as <- <-. rewrite append_nil.
    destruct IH as (q & E & Hq). exists q. split; auto. cbn [map app]. f_equal. rewrite <- E.
    destruct Hr as [v' s' Hs'|v' s' vs' line' Hs' Hne' Hr'];
    apply split_true_token; try apply numeral_nonempty; eapply allChars_impl; try apply numChar_not_sep; apply numeral_chars.
Qed.
