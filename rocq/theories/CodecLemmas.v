(** Proofs about the text codecs. *)
From Coq Require Import QArith Qabs DecimalZ DecimalN DecimalPos Lqa.
From Verif Require Import Base Res Arith GraphSpec Spn Leaves Codec SerialSpec.
Local Open Scope Z_scope.

Section CodecLemmas.
Context {A : arith}.
Variable exact : F A -> num.
Variable near : num -> F A.
Local Notation F := (F A).
Local Notation text := (list (chr F)).

Definition no_digit (t : text) : Prop := match t with Dig _ :: _ => False | _ => True end.

Fixpoint uintDigits (u : Decimal.uint) : list Z :=
  match u with
  | Decimal.Nil => []
  | Decimal.D0 u => 0 :: uintDigits u | Decimal.D1 u => 1 :: uintDigits u
  | Decimal.D2 u => 2 :: uintDigits u | Decimal.D3 u => 3 :: uintDigits u
  | Decimal.D4 u => 4 :: uintDigits u | Decimal.D5 u => 5 :: uintDigits u
  | Decimal.D6 u => 6 :: uintDigits u | Decimal.D7 u => 7 :: uintDigits u
  | Decimal.D8 u => 8 :: uintDigits u | Decimal.D9 u => 9 :: uintDigits u
  end.

Lemma takeDigits_map ds (t : text) : no_digit t -> takeDigits (map Dig ds ++ t) = (ds, t).
Proof.
  intros Ht. induction ds as [|d ds IH]; simpl.
  - destruct t as [|[]]; simpl in *; auto; contradiction.
  - rewrite IH. reflexivity.
Qed.

Lemma ofUint_map u : ofUint u = map (@Dig F) (uintDigits u).
Proof. induction u; simpl; congruence. Qed.

Lemma ofDigits_acc ds a : fold_left (fun a d => 10 * a + d) ds a
  = a * 10 ^ Z.of_nat (length ds) + ofDigits ds.
Proof.
  unfold ofDigits. revert a. induction ds as [|d ds IH]; intros a.
  - simpl. lia.
  - cbn [fold_left]. rewrite IH. rewrite (IH (10 * 0 + d)).
    replace (Z.of_nat (length (d :: ds))) with (Z.of_nat (length ds) + 1) by (simpl; lia).
    rewrite Z.pow_add_r by lia. change (10 ^ 1) with 10. ring.
Qed.

Lemma ofDigits_app a b : ofDigits (a ++ b) = ofDigits a * 10 ^ Z.of_nat (length b) + ofDigits b.
Proof. unfold ofDigits at 1. rewrite fold_left_app. apply ofDigits_acc. Qed.

Lemma of_uint_acc_digits u : forall p,
  fold_left (fun a d => 10 * a + d) (uintDigits u) (Zpos p) = Zpos (Pos.of_uint_acc u p).
Proof.
  induction u; intros p; cbn [uintDigits fold_left Pos.of_uint_acc]; auto;
  rewrite <- IHu; f_equal; lia.
Qed.

Lemma of_uint_digits u : ofDigits (uintDigits u) = Z.of_N (N.of_uint u).
Proof.
  unfold ofDigits, N.of_uint. induction u; cbn [uintDigits fold_left Pos.of_uint]; auto.
  all: change (10 * 0 + 0) with 0; auto.
  all: match goal with |- fold_left _ _ (10 * 0 + ?d) = _ => change (10 * 0 + d) with d end.
  all: rewrite of_uint_acc_digits; reflexivity.
Qed.

Lemma uintDigits_nonnil z : 
  match Z.to_int z with Decimal.Pos u | Decimal.Neg u => uintDigits u <> [] end.
Proof.
  assert (H : forall p, uintDigits (Pos.to_uint p) <> []).
  { intros p E. assert (Hu : Pos.to_uint p = Decimal.Nil).
    { destruct (Pos.to_uint p); simpl in E; discriminate || reflexivity. }
    pose proof (DecimalPos.Unsigned.of_to p) as O. rewrite Hu in O. discriminate. }
  destruct z as [|p|p]; simpl; auto. discriminate.
Qed.

Lemma skipSpace_digit d (t : text) : skipSpace (Dig d :: t) = Some (Dig d :: t).
Proof. reflexivity. Qed.

Lemma showInt_first z (t : text) : skipSpace (showInt z ++ t) = Some (showInt z ++ t).
Proof.
  unfold showInt. pose proof (uintDigits_nonnil z) as H.
  destruct (Z.to_int z) as [u|u]; [|reflexivity].
  rewrite ofUint_map. destruct (uintDigits u); [congruence|]. reflexivity.
Qed.

Lemma showInt_pos z : 0 <= z -> exists ds, showInt z = map (@Dig F) ds /\ ds <> [] /\ ofDigits ds = z.
Proof.
  intros Hz. unfold showInt. pose proof (uintDigits_nonnil z) as H.
  pose proof (DecimalZ.of_to z) as O. destruct (Z.to_int z) as [u|u] eqn:E.
  - exists (uintDigits u). rewrite ofUint_map, of_uint_digits. repeat split; auto.
  - destruct z; simpl in E; try discriminate. lia.
Qed.

Lemma scanInt_show z (t : text) : go_int z -> no_digit t ->
  scanInt (showInt z ++ t) = Some (z, t).
Proof.
  intros Hz Ht. unfold scanInt. rewrite showInt_first.
  assert (Hi : isInt z = true).
  { unfold isInt, go_int in *. apply andb_true_intro. split; [apply Z.leb_le|apply Z.ltb_lt]; lia. }
  unfold showInt. pose proof (uintDigits_nonnil z) as H.
  pose proof (DecimalZ.of_to z) as O. destruct (Z.to_int z) as [u|u] eqn:E.
  - rewrite ofUint_map. destruct (uintDigits u) as [|d ds] eqn:Eu; [congruence|].
    cbn [map app takeSign].
    change (Dig d :: map Dig ds ++ t) with (map Dig (d :: ds) ++ t).
    rewrite takeDigits_map by auto. cbn [Z.of_int] in O.
    replace (ofDigits (d :: ds)) with z
      by (rewrite <- Eu, of_uint_digits, <- O; reflexivity).
    rewrite Hi. reflexivity.
  - rewrite ofUint_map. cbn [app takeSign]. rewrite takeDigits_map by auto.
    rewrite of_uint_digits. cbn [Z.of_int] in O.
    replace (- Z.of_N (N.of_uint u)) with z by (rewrite <- O; reflexivity).
    rewrite Hi. destruct (uintDigits u); [congruence|]. reflexivity.
Qed.

Lemma roundHalfEven_bounds n d : 0 <= n ->
  0 <= roundHalfEven n d /\ Z.abs (2 * (roundHalfEven n d * Zpos d - n)) <= Zpos d.
Proof.
  intros Hn. unfold roundHalfEven.
  pose proof (Z.div_mod n (Zpos d) ltac:(lia)) as E.
  pose proof (Z.mod_pos_bound n (Zpos d) ltac:(lia)) as B.
  pose proof (Z.div_pos n (Zpos d) Hn ltac:(lia)) as P.
  set (k := n / Zpos d) in *. set (r := n mod Zpos d) in *. clearbody k r.
  assert (C : forall m, (m = k /\ 2 * r <= Zpos d) \/ (m = k + 1 /\ Zpos d <= 2 * r) ->
                        0 <= m /\ Z.abs (2 * (m * Zpos d - n)) <= Zpos d).
  { intros m [[-> H]|[-> H]]; split; try lia; apply Z.abs_le; nia. }
  destruct (Z.ltb_spec (2 * r) (Zpos d)); [apply C; left; lia|].
  destruct (Z.ltb_spec (Zpos d) (2 * r)); [apply C; right; lia|].
  destruct (Z.even k); apply C; [left|right]; lia.
Qed.

(** The integer whose decimals are printed. *)
Definition scaled (q : Q) : Z :=
  let k := roundHalfEven (Z.abs (Qnum q) * 1000000) (Qden q) in
  if Qnum q <? 0 then - k else k.

Lemma scaled_close q : (Qabs (sixth (scaled q) - q) <= 5 # 10000000)%Q.
Proof.
  unfold scaled. destruct (roundHalfEven_bounds (Z.abs (Qnum q) * 1000000) (Qden q)
    ltac:(apply Z.mul_nonneg_nonneg; lia)) as [P B].
  set (k := roundHalfEven _ _) in *. clearbody k. destruct q as [n d]. cbn [Qnum Qden] in *.
  apply Qabs_Qle_condition. unfold sixth, Qle, Qminus, Qplus, Qopp. cbn [Qnum Qden].
  destruct (Z.ltb_spec n 0); split; rewrite ?Pos2Z.inj_mul; nia.
Qed.

Lemma six_digits k : 0 <= k ->
  ofDigits [k / 100000 mod 10; k / 10000 mod 10; k / 1000 mod 10; k / 100 mod 10;
            k / 10 mod 10; k mod 10] = k mod 1000000.
Proof.
  intros Hk. unfold ofDigits. cbn [fold_left].
  Z.div_mod_to_equations. lia.
Qed.

Lemma scanFloat_show w (t : text) : no_digit t ->
  scanFloat near (showF exact w ++ t)
  = Some (match exact w with Val q => near (Val (sixth (scaled q))) | o => near o end, t).
Proof.
  intros Ht. unfold showF. destruct (exact w) as [q|neg|]; [|destruct neg; reflexivity|reflexivity].
  unfold scaled.
  destruct (roundHalfEven_bounds (Z.abs (Qnum q) * 1000000) (Qden q)
    ltac:(apply Z.mul_nonneg_nonneg; lia)) as [P _].
  set (k := roundHalfEven _ _) in *. clearbody k.
  set (fs := [k / 100000 mod 10; k / 10000 mod 10; k / 1000 mod 10; k / 100 mod 10;
              k / 10 mod 10; k mod 10]).
  destruct (showInt_pos (k / 1000000) ltac:(apply Z.div_pos; lia)) as (ds & E & Hne & Ev).
  change [Dig (k / 100000 mod 10); Dig (k / 10000 mod 10); Dig (k / 1000 mod 10);
          Dig (k / 100 mod 10); Dig (k / 10 mod 10); Dig (k mod 10)] with (map (@Dig F) fs).
  rewrite E.
  assert (V : ofDigits (ds ++ fs) = k).
  { rewrite ofDigits_app, Ev. unfold fs at 2. rewrite six_digits by auto.
    change (10 ^ Z.of_nat (length fs)) with 1000000.
    pose proof (Z.div_mod k 1000000 ltac:(lia)). lia. }
  assert (L : Z.to_pos (10 ^ Z.of_nat (length fs)) = 1000000%positive) by reflexivity.
  clearbody fs.
  assert (G : forall neg : bool,
    (let (ds0, t3) := takeDigits (map Dig ds ++ Dot :: map Dig fs ++ t) in
     let '(fs0, t4) := match t3 with Dot :: r => takeDigits r | _ => ([], t3) end in
     match ds0 ++ fs0 with
     | [] => None
     | _ => let m := ofDigits (ds0 ++ fs0) in
            Some (near (Val (Qmake (if neg then - m else m)
                                   (Z.to_pos (10 ^ Z.of_nat (length fs0))))), t4)
     end) = Some (near (Val (sixth (if neg then - k else k))), t)).
  { intros neg. rewrite takeDigits_map by exact Logic.I.
    rewrite takeDigits_map by auto. rewrite V, L.
    destruct (ds ++ fs) eqn:Z0; [destruct ds; [congruence|discriminate]|].
    destruct neg; reflexivity. }
  replace (((if Qnum q <? 0 then [Minus] else []) ++ map Dig ds ++ [Dot] ++ map Dig fs) ++ t)
    with ((if Qnum q <? 0 then [Minus] else []) ++ map (@Dig F) ds ++ Dot :: map Dig fs ++ t)
    by (rewrite <- !app_assoc; reflexivity).
  destruct ds as [|d ds]; [congruence|].
  unfold scanFloat. destruct (Qnum q <? 0).
  - cbn [app skipSpace takeSign map]. exact (G true).
  - cbn [app skipSpace takeSign map]. exact (G false).
Qed.

Definition reread (w : F) : F :=
  match exact w with Val q => near (Val (sixth (scaled q))) | o => near o end.

Lemma reread_kept w : kept exact near w (reread w).
Proof.
  unfold kept, reread. destruct (exact w) as [q|neg|]; auto.
  exists (scaled q). split; auto. apply scaled_close.
Qed.

Lemma scanFloat_space (t : text) : scanFloat near (Space :: t) = scanFloat near t.
Proof. reflexivity. Qed.

Lemma scanInt_space (t : text) : scanInt (Space :: t) = scanInt t.
Proof. reflexivity. Qed.

Lemma showFloats_no_digit ws : no_digit (showFloats exact ws).
Proof. destruct ws; exact Logic.I. Qed.

Lemma scanFloats_show ws : scanFloats near (length ws) (showFloats exact ws) = Some (map reread ws).
Proof.
  induction ws as [|w ws IH]; [reflexivity|].
  cbn [length scanFloats showFloats flat_map app map].
  rewrite scanFloat_space, scanFloat_show by apply showFloats_no_digit.
  change (flat_map (fun w => Space :: showF exact w) ws) with (showFloats exact ws).
  rewrite IH. reflexivity.
Qed.

(** The loop of computeMode. *)
Lemma computeMode_loop (GO : gt_ordered (A := A)) pr : forall pre i m,
  first_mode pre i m ->
  let '(j, i', m') := fold_left (fun (st : Z * Z * F) p =>
      let '(j, i, m) := st in if fgt p m then (j + 1, j, p) else (j + 1, i, m))
    pr (Z.of_nat (length pre), i, m) in
  first_mode (pre ++ pr) i' m'.
Proof.
  destruct GO as [G0 G]. induction pr as [|p pr IH]; intros pre i m H0.
  - cbn. rewrite app_nil_r. auto.
  - cbn [fold_left].
    replace (pre ++ p :: pr) with ((pre ++ [p]) ++ pr) by (rewrite <- app_assoc; reflexivity).
    replace (Z.of_nat (length pre) + 1) with (Z.of_nat (length (pre ++ [p])))
      by (rewrite app_length; simpl; lia).
    destruct (fgt p m) eqn:E; apply IH; auto.
    + (* new maximum *)
      assert (Hall : forall q, In q pre -> fgt q m = false).
      { destruct H0 as [(_ & -> & H0)|(k & _ & _ & _ & H0 & _)]; auto. }
      assert (H0m : fgt p (fz 0) = true).
      { destruct H0 as [(_ & -> & H0)|(k & _ & _ & H1 & _)]; auto.
        destruct (fgt p (fz 0)) eqn:E0; auto.
        rewrite (G m (fz 0) p H1 E0) in E. discriminate. }
      right. exists (length pre). split; [auto|].
      split; [rewrite nth_error_app2, Nat.sub_diag by lia; reflexivity|].
      split; [auto|]. split.
      * intros q Hq. apply in_app_iff in Hq as [Hq|[<-|[]]].
        -- exact (G p m q E (Hall q Hq)).
        -- apply G0.
      * intros j q Hj Hq ->. rewrite nth_error_app1 in Hq by lia.
        apply nth_error_In in Hq. rewrite (Hall _ Hq) in E. discriminate.
    + destruct H0 as [(-> & -> & H0)|(k & -> & Hk & H1 & H2 & H3)]; [left|right].
      * repeat split; auto. intros q Hq. apply in_app_iff in Hq as [Hq|[<-|[]]]; auto.
      * exists k. assert (k < length pre)%nat by (apply nth_error_Some; congruence).
        split; auto. split; [rewrite nth_error_app1 by lia; auto|]. split; auto. split.
        -- intros q Hq. apply in_app_iff in Hq as [Hq|[<-|[]]]; auto.
        -- intros j q Hj Hq. rewrite nth_error_app1 in Hq by lia. eauto.
Qed.

Lemma computeMode_first (GO : gt_ordered (A := A)) pr :
  first_mode pr (fst (computeMode (A := A) pr)) (snd (computeMode (A := A) pr)).
Proof.
  pose proof (computeMode_loop GO pr [] 0 (fz 0)) as H. unfold computeMode.
  simpl length in H. change (Z.of_nat 0) with 0 in H.
  destruct (fold_left _ pr (0, 0, fz 0)) as [[j i] m]. apply H.
  left. repeat split; auto. intros p [].
Qed.


(** What comes back. *)
Definition recontent (c : content A) : content A :=
  match c with
  | CSum w => CSum (map reread w)
  | CProd => CProd
  | CMulti m => let pr := map reread (m_pr m) in
                CMulti (mkMulti [m_varid m] (m_varid m) pr (fst (computeMode pr))
                                (snd (computeMode pr)))
  | CInd x v => CInd x v
  | CGauss x mu sigma => CGauss x mu sigma
  end.

Lemma codec_run c : ints_ok c ->
  gobDecode near (fst (gobEncode exact c)) (snd (gobEncode exact c)) = Ok (Some (recontent c)).
Proof.
  destruct c as [w| |m|x v|x mu sigma]; cbn [gobEncode fst snd gobDecode ints_ok].
  - intros H. rewrite scanInt_show by (auto; apply showFloats_no_digit).
    unfold readSlice. destruct (Z.ltb_spec (Z.of_nat (length w)) 0); [lia|].
    rewrite Nat2Z.id, scanFloats_show. reflexivity.
  - reflexivity.
  - intros [H1 H2]. rewrite scanInt_show by (auto; exact Logic.I).
    change ([Space] ++ ?t) with (Space :: t). rewrite scanInt_space.
    rewrite scanInt_show by (auto; apply showFloats_no_digit).
    unfold readSlice. destruct (Z.ltb_spec (Z.of_nat (length (m_pr m))) 0); [lia|].
    rewrite Nat2Z.id, scanFloats_show. cbn [bind option_map recontent].
    destruct (computeMode (map reread (m_pr m))). reflexivity.
  - intros [H1 H2]. rewrite scanInt_show by (auto; exact Logic.I).
    change ([Space] ++ ?t) with (Space :: t). rewrite scanInt_space.
    rewrite scanInt_show by (auto; exact Logic.I). reflexivity.
  - intros H. rewrite scanInt_show by (auto; exact Logic.I). reflexivity.
Qed.

Lemma map_kept ws : Forall2 (kept exact near) ws (map reread ws).
Proof. induction ws; constructor; auto using reread_kept. Qed.

Lemma recontent_kept (GO : gt_ordered (A := A)) c : node_kept exact near c (recontent c).
Proof.
  destruct c; cbn [recontent]; constructor; cbn [m_varid m_sc m_pr m_modei m_modev];
    auto using map_kept, computeMode_first.
Qed.

Lemma codec_kept (GO : gt_ordered (A := A)) c : ints_ok c -> exists c',
  gobDecode near (fst (gobEncode exact c)) (snd (gobEncode exact c)) = Ok (Some c') /\
  node_kept exact near c c'.
Proof. intros H. exists (recontent c). auto using codec_run, recontent_kept. Qed.

Lemma scaled_unique q d : (Qabs (sixth d - q) < 5 # 10000000)%Q -> scaled q = d.
Proof.
  intros H. pose proof (scaled_close q) as H'. set (e := scaled q) in *. clearbody e.
  apply Qabs_Qlt_condition in H. apply Qabs_Qle_condition in H'.
  assert (L : (Qabs (sixth e - sixth d) < 1 # 1000000)%Q).
  { apply Qabs_Qlt_condition. split; lra. }
  apply Qabs_Qlt_condition in L. unfold sixth, Qlt, Qminus, Qplus, Qopp in L.
  cbn [Qnum Qden] in L. lia.
Qed.

Lemma reread_id w : six_decimals exact near w -> reread w = w.
Proof.
  unfold six_decimals, reread. destruct (exact w); auto.
  intros (d & -> & H). rewrite (scaled_unique _ _ H). reflexivity.
Qed.

Lemma map_reread_id ws : Forall (six_decimals exact near) ws -> map reread ws = ws.
Proof. induction 1; simpl; f_equal; auto using reread_id. Qed.

Lemma recontent_id c : plain exact near c -> recontent c = c.
Proof.
  destruct c as [w| |m|x v|x mu sigma]; cbn [recontent plain]; auto.
  - intros H. rewrite map_reread_id; auto.
  - intros (H1 & H2 & H3). rewrite map_reread_id by auto. rewrite <- H3.
    destruct m; cbn in *. rewrite H1. reflexivity.
Qed.

Lemma codec_plain c : ints_ok c -> plain exact near c ->
  gobDecode near (fst (gobEncode exact c)) (snd (gobEncode exact c)) = Ok (Some c).
Proof. intros H P. rewrite codec_run, recontent_id; auto. Qed.
End CodecLemmas.
