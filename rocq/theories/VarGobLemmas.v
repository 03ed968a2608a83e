(** Variables. *)
From Coq Require Import DecimalZ DecimalN DecimalPos.
From Verif Require Import Base Res Arith Codec SerialSpec CodecLemmas VarGob VarGobSpec.
Local Open Scope Z_scope.

Lemma uint_runes u : uintRunes u = map (fun d => 48 + d) (uintDigits u).
Proof. induction u; cbn [uintRunes uintDigits map]; [|rewrite IHu..]; reflexivity. Qed.
Lemma uint_digit u : Forall (fun d => 0 <= d <= 9) (uintDigits u).
Proof. induction u; simpl; constructor; auto; lia. Qed.

Definition ends (p : Z -> bool) (t : list Z) : Prop := match t with [] => True | r :: _ => p r = false end.
Lemma take_app p a t : Forall (fun r => p r = true) a -> ends p t -> takeWhile p (a ++ t) = (a, t).
Proof.
  intros Ha Ht. induction Ha as [|r a Hr Ha IH]; simpl.
  - destruct t as [|r t]; simpl in *; auto. rewrite Ht. reflexivity.
  - rewrite Hr, IH. reflexivity.
Qed.
Lemma digit_rune d : 0 <= d <= 9 -> isDigit (48 + d) = true.
Proof. intros H. unfold isDigit. apply andb_true_intro. split; apply Z.leb_le; lia. Qed.
Lemma digit_nospace r : isDigit r = true -> isSpace r = false /\ (r =? 10) = false /\ r <> 45 /\ r <> 43.
Proof.
  unfold isDigit. intros H. apply andb_prop in H as (H1 & H2). apply Z.leb_le in H1, H2.
  assert (K : forall a, a < 48 \/ 57 < a -> (r =? a) = false) by (intros a Ha; apply Z.eqb_neq; lia).
  split; [|split; [apply K; lia|lia]]. unfold isSpace. rewrite !K by lia.
  destruct (Z.leb_spec 9 r), (Z.leb_spec r 13), (Z.leb_spec 8192 r), (Z.leb_spec r 8202); try lia; reflexivity.
Qed.

Lemma scan_runes z t : go_int z -> ends isDigit t -> scanIntR (intRunes z ++ t) = Some (z, t).
Proof.
  intros Hz Ht.
  assert (Hi : isInt z = true).
  { unfold isInt, go_int in *. apply andb_true_intro. split; [apply Z.leb_le|apply Z.ltb_lt]; lia. }
  assert (K : forall u, uintDigits u <> [] -> takeWhile isDigit (uintRunes u ++ t) = (uintRunes u, t) /\
     map (fun r => r - 48) (uintRunes u) = uintDigits u /\ exists r l, uintRunes u = r :: l /\ isDigit r = true).
  { intros u Hu. rewrite uint_runes. pose proof (uint_digit u) as F. split; [|split].
    - apply take_app; auto. apply Forall_forall. intros r Hr. apply in_map_iff in Hr as (d & <- & Hd). rewrite Forall_forall in F. apply digit_rune, F; auto.
    - rewrite map_map. rewrite <- (map_id (uintDigits u)) at 2. apply map_ext. intros; lia.
    - destruct (uintDigits u) as [|d l]; [congruence|]. inversion F; subst. do 2 eexists. split; [reflexivity|]. apply digit_rune; auto. }
  unfold scanIntR, intRunes. pose proof (uintDigits_nonnil z) as H.
  pose proof (DecimalZ.of_to z) as O. destruct (Z.to_int z) as [u|u] eqn:E.
  - destruct (K u H) as (K1 & K2 & r & l & K3 & K4). destruct (digit_nospace r K4) as (S1 & S2 & S3 & S4).
    assert (Es : skipSp (uintRunes u ++ t) = Some (uintRunes u ++ t)) by (rewrite K3; simpl; rewrite S1, S2; reflexivity).
    rewrite Es.
    assert (Em : match uintRunes u ++ t with 45 :: r => (true, r) | 43 :: r => (false, r) | _ => (false, uintRunes u ++ t) end = (false, uintRunes u ++ t)).
    { rewrite K3. cbn [app]. destruct r as [|p|p]; try reflexivity. do 7 (try (destruct p as [p|p|]; try reflexivity; try congruence)). }
    rewrite Em, K1, K2. rewrite K3. cbn [Z.of_int] in O.
    replace (ofDigits (uintDigits u)) with z by (rewrite of_uint_digits, <- O; reflexivity). rewrite Hi. reflexivity.
  - destruct (K u H) as (K1 & K2 & r & l & K3 & K4). cbn [app]. change (skipSp (45 :: uintRunes u ++ t)) with (Some (45 :: uintRunes u ++ t)). cbn iota.
    rewrite K1, K2. rewrite K3. cbn [Z.of_int] in O. rewrite of_uint_digits.
    replace (- Z.of_N (N.of_uint u)) with z by (rewrite <- O; reflexivity). rewrite Hi. reflexivity.
Qed.

Lemma scan_sp z t : go_int z -> ends isDigit t -> scanIntR (32 :: intRunes z ++ t) = Some (z, t).
Proof. intros Hz Ht. rewrite <- (scan_runes z t Hz Ht). reflexivity. Qed.

Definition word (l : list Z) : Prop := l <> [] /\ Forall (fun r => isSpace r = false) l.

Lemma decode_name v0 v : go_int (varid v) -> go_int (categories v) ->
  gobDecodeVar v0 (gobEncodeVar v) =
  match scanWord (32 :: vname v ++ [10]) with
  | None => (mkVar (varid v) (categories v) (vname v0), false)
  | Some (n, t) => (mkVar (varid v) (categories v) n, lineEnd t)
  end.
Proof.
  intros H1 H2. unfold gobDecodeVar, gobEncodeVar. rewrite scan_runes by (auto; reflexivity). rewrite scan_sp by (auto; reflexivity). reflexivity.
Qed.

Lemma word_head l t : word l -> skipSp (l ++ t) = Some (l ++ t).
Proof.
  intros (Hn & HF). destruct l as [|r l]; [congruence|]. inversion HF as [|? ? Hr]; subst. simpl. rewrite Hr.
  destruct (Z.eqb_spec r 10) as [->|]; [discriminate Hr|]. reflexivity.
Qed.

(** A word and then a space: what is read. *)
Lemma word_read l r t : word l -> isSpace r = true -> scanWord (32 :: l ++ r :: t) = Some (l, r :: t).
Proof.
  intros Hl Hr. unfold scanWord. change (skipSp (32 :: l ++ r :: t)) with (skipSp (l ++ r :: t)). rewrite word_head by auto.
  destruct (l ++ r :: t) as [|x y] eqn:E; [destruct l; discriminate|]. rewrite <- E. f_equal. apply take_app.
  - destruct Hl as (_ & HF). eapply Forall_impl; [|exact HF]. intros a ->. reflexivity.
  - simpl. rewrite Hr. reflexivity.
Qed.

Lemma skip_head t t1 r l : skipSp t = Some t1 -> t1 = r :: l -> isSpace r = false.
Proof.
  induction t as [|x t IH]; simpl; intros E E1; [congruence|]. destruct (x =? 10); [discriminate|]. destruct (isSpace x) eqn:Ex; [auto|]. injection E as <-. injection E1 as <- <-. auto.
Qed.
Lemma take_fst p t : Forall (fun r => p r = true) (fst (takeWhile p t)).
Proof. induction t as [|r t IH]; simpl; [constructor|]. destruct (p r) eqn:E; [|constructor]. destruct (takeWhile p t) as [a b]. constructor; auto. Qed.

Lemma read_word t n t' : scanWord t = Some (n, t') -> word n.
Proof.
  unfold scanWord. destruct (skipSp t) as [[|r l]|] eqn:E; try discriminate. intros E0. assert (E1 : takeWhile (fun r => negb (isSpace r)) (r :: l) = (n, t')) by congruence.
  pose proof (skip_head _ _ _ _ E eq_refl) as Hr. pose proof (take_fst (fun r => negb (isSpace r)) (r :: l)) as F. rewrite E1 in F. cbn [fst] in F. split.
  - cbn [takeWhile] in E1. rewrite Hr in E1. cbn [negb] in E1. destruct (takeWhile (fun r => negb (isSpace r)) l). intros ->. discriminate.
  - eapply Forall_impl; [|exact F]. cbn. intros a Ha. destruct (isSpace a); auto.
Qed.

Lemma roundtrip_iff v0 v : go_int (varid v) -> go_int (categories v) ->
  (gobDecodeVar v0 (gobEncodeVar v) = (v, true) <-> word (vname v)).
Proof.
  intros H1 H2. rewrite decode_name by auto. split.
  - intros E. destruct (scanWord (32 :: vname v ++ [10])) as [[n t]|] eqn:EW; [|discriminate]. apply read_word in EW. injection E as E _. destruct v; cbn in *. injection E as ->. auto.
  - intros W. rewrite word_read by (auto; reflexivity). destruct v; reflexivity.
Qed.

Lemma truncated_l v0 id cats w rest : go_int id -> go_int cats -> word w ->
  gobDecodeVar v0 (gobEncodeVar (mkVar id cats (w ++ 10 :: rest))) = (mkVar id cats w, true).
Proof.
  intros H1 H2 W. rewrite decode_name by auto. cbn [vname]. rewrite <- app_assoc. cbn [app]. rewrite word_read by (auto; reflexivity). reflexivity.
Qed.

Lemma blank_l v0 id cats w r rest : go_int id -> go_int cats -> word w -> isSpace r = true -> r <> 10 -> word rest ->
  gobDecodeVar v0 (gobEncodeVar (mkVar id cats (w ++ r :: rest))) = (mkVar id cats w, false).
Proof.
  intros H1 H2 W Hr Hr1 (N & F). rewrite decode_name by auto. cbn [vname]. rewrite <- app_assoc. cbn [app]. rewrite word_read by auto.
  f_equal. destruct rest as [|x rest]; [congruence|]. inversion F as [|? ? Hx]; subst. simpl. destruct (Z.eqb_spec r 10); [congruence|]. rewrite Hr, Hx.
  destruct (Z.eqb_spec x 10) as [->|]; [discriminate|]. reflexivity.
Qed.

Lemma unnamed_l v0 id cats : go_int id -> go_int cats -> gobDecodeVar v0 (gobEncodeVar (parsedVar id cats)) = (mkVar id cats (vname v0), false).
Proof. intros H1 H2. rewrite decode_name by auto. reflexivity. Qed.

Lemma white_space r : isSpace r = true <-> white r.
Proof.
  unfold isSpace, white. rewrite !orb_true_iff, !andb_true_iff, !Z.leb_le, !Z.eqb_eq. cbn [In].
  split; intros H.
  - repeat destruct H as [H|H]; auto 12; right; right; right; auto 12.
  - repeat destruct H as [H|H]; try contradiction; subst; auto 20.
Qed.
Lemma word_white l : word l <-> one_word l.
Proof.
  unfold word, one_word. rewrite Forall_forall. split; intros (H & K); split; auto; intros r Hr; specialize (K r Hr).
  - intros W. apply white_space in W. congruence.
  - destruct (isSpace r) eqn:E; auto. apply white_space in E. contradiction.
Qed.

Lemma roundtrip_words v0 v : go_int (varid v) -> go_int (categories v) ->
  (gobDecodeVar v0 (gobEncodeVar v) = (v, true) <-> one_word (vname v)).
Proof. intros H1 H2. rewrite <- word_white. apply roundtrip_iff; auto. Qed.
Lemma truncated_words v0 id cats w rest : go_int id -> go_int cats -> one_word w ->
  gobDecodeVar v0 (gobEncodeVar (mkVar id cats (w ++ 10 :: rest))) = (mkVar id cats w, true).
Proof. intros H1 H2 W. apply truncated_l; auto. apply word_white; auto. Qed.
Lemma blank_words v0 id cats w r rest : go_int id -> go_int cats -> one_word w -> white r -> r <> 10 -> one_word rest ->
  gobDecodeVar v0 (gobEncodeVar (mkVar id cats (w ++ r :: rest))) = (mkVar id cats w, false).
Proof. intros H1 H2 W R N W2. apply blank_l; auto; try (apply word_white; auto). apply white_space; auto. Qed.
