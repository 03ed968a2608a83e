(** ImgClassify. *)
From Coq Require Import Reals Lra.
From Verif Require Import Base Res GoMap Arith LogSpec LogMath DataLoops Score ScoreSpec EvalLemmas Classify ClassifySpec.
Local Open Scope Z_scope.

Lemma put_put m k a b : put (put m k a) k b = put m k b.
Proof. unfold put at 1. rewrite del_put. reflexivity. Qed.
Lemma del_none m k : get m k = None -> del m k = m.
Proof.
  induction m as [|[a b] m IH]; auto. cbn [get del filter fst]. rewrite Z.eqb_sym. destruct (k =? a) eqn:E; [discriminate|]. cbn [negb]. intros H. f_equal. apply IH. auto.
Qed.

Section C.
Context (value : gmap -> res (F XR)).
Lemma antiLog_lin (x : xreal) e : logval x -> @antiLog XR (@fsub XR x (Fin e)) = Fin (lin x * exp (- e)).
Proof.
  destruct x as [a| | |]; intros H; try contradiction.
  - cbn. rewrite exp_plus. auto.
  - cbn. f_equal. ring.
Qed.
Lemma predict_ok v c row : (1 <= c)%nat -> get row v = None -> possible value v c row ->
  exists p, imgPredict value v c row = Ok (put row v (Z.of_nat (c - 1)), p) /\ classified value v c row p.
Proof.
  intros Hc Hg [[e He] Hx]. rewrite (del_none _ _ Hg) in He. unfold imgPredict. change (F XR) with xreal in *. rewrite He. cbn [bind].
  set (f := fun (st : gmap * xreal * Z) (j : Z) => _).
  set (q := fun j => match value (put row v (Z.of_nat j)) with Ok x => lin x | _ => 0%R end).
  destruct (foldr_inv f (fun (pre : list Z) st => let '(J, mp, ml) := st in (forall a, put J v a = put row v a) /\
      ((pre = [] /\ mp = Fin (-1) /\ ml = -1) \/
       exists m, J = put row v (Z.of_nat (length pre - 1)) /\ mp = Fin (q m * exp (- e)) /\ ml = Z.of_nat m /\ first_max q (length pre) m))
     (map Z.of_nat (seq 0 c)) (row, Fin (-1), -1)) as ([[J mp] ml] & E & HJ & HI).
  - split; auto.
  - intros pre x post [[J mp] ml] E [HJ HI].
    assert (Hlen : (length pre < c)%nat /\ x = Z.of_nat (length pre)).
    { assert (Hl : length (map Z.of_nat (seq 0 c)) = c) by (rewrite map_length, seq_length; auto). assert (Hlt : (length pre < c)%nat) by (rewrite E, app_length in Hl; simpl in Hl; lia). split; auto.
      assert (Hn : nth_error (map Z.of_nat (seq 0 c)) (length pre) = Some x) by (rewrite E, nth_error_app2, Nat.sub_diag by auto; auto).
      rewrite nth_error_map_seq in Hn by auto. congruence. }
    destruct Hlen as [Hlt ->]. destruct (Hx _ Hlt) as (y & Ey & Hy). unfold f. rewrite HJ, Ey. cbn [bind]. rewrite antiLog_lin by auto.
    assert (Hq : q (length pre) = lin y) by (unfold q; rewrite Ey; auto). rewrite <- Hq.
    pose proof (exp_pos (- e)) as He'. assert (0 <= q (length pre))%R by (rewrite Hq; destruct y as [a| | |]; cbn; try lra; left; apply exp_pos).
    rewrite app_length. cbn [length]. rewrite Nat.add_1_r. assert (HP : forall a, put (put row v (Z.of_nat (length pre))) v a = put row v a) by (intros; apply put_put).
    destruct HI as [(-> & -> & ->)|(m & -> & -> & -> & Hm1 & Hm2 & Hm3)].
    + cbn [fgt XR xgt length] in *. destruct (Rlt_dec (-1) (q 0%nat * exp (- e))) as [Hd|Hd]; [|exfalso; apply Hd; nra].
      eexists. split; [reflexivity|]. split; auto. right. exists 0%nat. split; auto. split; auto. split; auto. split; [lia|]. split; intros j Hj; [|lia]. replace j with 0%nat by lia. lra.
    + cbn [fgt XR xgt]. destruct (Rlt_dec (q m * exp (- e)) (q (length pre) * exp (- e))) as [Hd|Hd].
      * assert (q m < q (length pre))%R by nra. eexists. split; [reflexivity|]. split; auto. right. exists (length pre). cbn [Nat.sub]. rewrite Nat.sub_0_r. split; auto. split; auto. split; auto. split; [lia|].
        split; intros j Hj; [destruct (Nat.eq_dec j (length pre)) as [->|]; [lra|]|]; assert (q j <= q m)%R by (apply Hm2; lia); lra.
      * assert (q (length pre) <= q m)%R by nra. eexists. split; [reflexivity|]. split; auto. right. exists m. cbn [Nat.sub]. rewrite Nat.sub_0_r. split; auto. split; auto. split; auto. split; [lia|].
        split; auto. intros j Hj. destruct (Nat.eq_dec j (length pre)) as [->|]; auto. apply Hm2. lia.
  - rewrite map_length, seq_length in HI. destruct HI as [(H & _)|(m & -> & -> & -> & Hm)].
    { apply map_eq_nil in H. destruct c; [lia|discriminate]. }
    exists (Z.of_nat m). split; [exact (f_equal (fun t => bind t (fun r => Ok (fst (fst r), snd r))) E)|]. exists q, m. split; auto.
    intros j Hj. destruct (Hx j Hj) as (x & Ex & _). exists x. split; auto. unfold q. rewrite Ex. auto.
Qed.

(** An instance with evidence of probability zero. *)
Lemma impossible_l v c row : value row = Ok NInf -> (forall j, (j < c)%nat -> value (put row v (Z.of_nat j)) = Ok NInf) ->
  exists row', imgPredict value v c row = Ok (row', -1).
Proof.
  intros Hr Hj. unfold imgPredict. change (F XR) with xreal in *. rewrite Hr. cbn [bind].
  set (f := fun (st : gmap * xreal * Z) (j : Z) => _).
  destruct (foldr_inv f (fun (pre : list Z) st => let '(J, mp, ml) := st in (forall a, put J v a = put row v a) /\ ml = -1)
     (map Z.of_nat (seq 0 c)) (row, Fin (-1), -1)) as ([[J mp] ml] & E & HJ & ->).
  - split; auto.
  - intros pre x post [[J mp] ml] E [HJ ->]. assert (Hin : In x (map Z.of_nat (seq 0 c))) by (rewrite E; apply in_elt). apply in_map_iff in Hin as (j & <- & Hin). apply in_seq in Hin.
    unfold f. rewrite HJ, Hj by lia. cbn [bind]. eexists. split; [reflexivity|]. cbn. split; [|auto]. intros; apply put_put.
  - exists J. exact (f_equal (fun t => bind t (fun r => Ok (fst (fst r), snd r))) E).
Qed.

Lemma agreeing_snoc ps p lbls l r : length ps = length lbls -> agreeing (ps ++ [p]) (lbls ++ l :: r) = agreeing ps lbls + (if p =? l then 1 else 0).
Proof.
  unfold agreeing. revert lbls. induction ps as [|a ps IH]; intros [|b lbls] H; try discriminate.
  - cbn [app combine filter fst snd]. rewrite combine_nil || idtac. destruct (p =? l); destruct r; cbn; lia.
  - cbn [app combine filter fst snd]. injection H as H. specialize (IH lbls H). destruct (a =? b); cbn [length]; lia.
Qed.
Lemma f2_len {T U} (P : T -> U -> Prop) l r : Forall2 P l r -> length l = length r.
Proof. induction 1; cbn; auto. Qed.
Lemma firstn_snoc {T} (l : list T) i x : nth_error l i = Some x -> firstn (S i) l = firstn i l ++ [x].
Proof. revert i. induction l as [|a l IH]; intros [|i] E; try discriminate; cbn in *; [congruence|]. f_equal. auto. Qed.
Lemma loop_ok v c test lbls : (1 <= c)%nat -> length lbls = length test -> (forall row, In row test -> get row v = None /\ possible value v c row) ->
  exists ps, imgLoop value v c test lbls = Ok (test, agreeing ps lbls) /\ Forall2 (classified value v c) test ps.
Proof.
  intros Hc HL Hp. unfold imgLoop.
  match goal with |- exists ps, foldi ?f test ?s0 = _ /\ _ => destruct (foldi_inv f (fun pre (st : list gmap * Z) =>
     exists ps, Forall2 (classified value v c) pre ps /\ st = (pre, agreeing ps (firstn (length pre) lbls))) test s0) as (st & E & ps & HF & ->) end.
  - exists []. split; auto.
  - intros pre row post [rows k] E (ps & HF & Est). injection Est as -> ->. assert (Hin : In row test) by (rewrite E; apply in_elt). destruct (Hp row Hin) as [Hg Hpos].
    destruct (predict_ok v c row Hc Hg Hpos) as (p & Ep & Hcl). change (F XR) with xreal in *. rewrite Ep. cbn [bind fst snd].
    assert (Hlt : (length pre < length lbls)%nat) by (rewrite HL, E, app_length; cbn; lia). unfold idx. destruct (nth_error lbls (length pre)) as [l|] eqn:El; [|apply nth_error_None in El; lia].
    cbn [orPanic bind]. eexists. split; [reflexivity|]. exists (ps ++ [p]). split; [apply Forall2_app; auto|]. rewrite del_put, del_none by auto. f_equal.
    rewrite app_length. cbn [length]. rewrite Nat.add_1_r, (firstn_snoc _ _ _ El), agreeing_snoc by (rewrite firstn_length; pose proof (f2_len _ _ _ HF); lia). destruct (p =? l); lia.
  - exists ps. split; auto. rewrite <- HL, firstn_all in E. exact E.
Qed.
Lemma reps_ok c test lbls : length lbls = length test -> Forall (fun l => 0 <= l < Z.of_nat c) lbls -> exists reps, imgReps c test lbls = Ok reps.
Proof.
  intros HL Hl. unfold imgReps.
  match goal with |- exists reps, foldi ?f test ?s0 = _ => destruct (foldi_inv f (fun _ (reps : list (option gmap)) => length reps = c) test s0) as (reps & E & _) end.
  - apply repeat_length.
  - intros pre row post reps E Hr. unfold idx at 1. destruct (nth_error lbls (length pre)) as [l|] eqn:El; [|apply nth_error_None in El; rewrite HL, E, app_length in El; cbn in El; lia].
    cbn [orPanic bind]. rewrite Forall_forall in Hl. specialize (Hl l (nth_error_In _ _ El)). unfold idxZ. destruct (Z.ltb_spec l 0); [lia|].
    unfold idx. destruct (nth_error reps (Z.to_nat l)) as [o|] eqn:Eo; [|apply nth_error_None in Eo; lia]. cbn [orPanic bind]. eexists. split; [reflexivity|]. destruct o; [auto|rewrite set_nth_length; auto].
  - eauto.
Qed.
Lemma reps_panics c test lbls : length lbls = length test -> ~ Forall (fun l => 0 <= l < Z.of_nat c) lbls -> imgReps c test lbls = Panic.
Proof.
  intros HL Hl. unfold imgReps, foldi.
  assert (G : forall (rest pre : list gmap) reps, length reps = c -> (length pre + length rest = length lbls)%nat -> ~ Forall (fun l => 0 <= l < Z.of_nat c) (skipn (length pre) lbls) ->
    foldi_from (length pre) (fun i (reps : list (option gmap)) (row : gmap) => l <- idx lbls i; old <- idxZ reps l; Ok (match old with None => set_nth (Z.to_nat l) (Some row) reps | Some _ => reps end)) rest reps = Panic).
  { clear Hl. induction rest as [|row rest IH]; intros pre reps Hr Hlen Hb.
    - exfalso. apply Hb. rewrite skipn_all2; [constructor|]. cbn in Hlen. lia.
    - cbn [foldi_from]. unfold idx at 1. destruct (nth_error lbls (length pre)) as [l|] eqn:El; [|apply nth_error_None in El; cbn in Hlen; lia]. cbn [orPanic bind].
      assert (Es : skipn (length pre) lbls = l :: skipn (S (length pre)) lbls).
      { clear - El. revert lbls El. induction (length pre) as [|k IHk]; intros [|b lbls] El; try discriminate; cbn in *; [congruence|]. rewrite (IHk _ El). auto. }
      unfold idxZ. destruct (Z.ltb_spec l 0); [reflexivity|]. unfold idx. destruct (nth_error reps (Z.to_nat l)) as [o|] eqn:Eo; [|reflexivity]. cbn [orPanic bind].
      specialize (IH (pre ++ [row])). rewrite app_length in IH. cbn [length] in IH. rewrite Nat.add_1_r in *. apply IH.
      + destruct o; [auto|rewrite set_nth_length; auto].
      + cbn in Hlen. lia.
      + intros HF. apply Hb. rewrite Es. constructor; auto. assert (Z.to_nat l < length reps)%nat by (apply nth_error_Some; congruence). lia. }
  apply (G test []); auto. apply repeat_length.
Qed.
Lemma classify_ok vars nclass test lbls : get vars (Z.of_nat (length vars) - 1) = Some nclass -> 1 <= nclass -> length lbls = length test ->
  (forall row, In row test -> get row (Z.of_nat (length vars) - 1) = None /\ possible value (Z.of_nat (length vars) - 1) (Z.to_nat nclass) row) ->
  Forall (fun l => 0 <= l < nclass) lbls ->
  exists ps, imgClassify value vars test lbls = Ok (agreeing ps lbls, Z.of_nat (length test)) /\ Forall2 (classified value (Z.of_nat (length vars) - 1) (Z.to_nat nclass)) test ps.
Proof.
  intros Hv Hn HL Hp Hl. unfold imgClassify. rewrite Hv. cbn [orPanic bind]. destruct (Z.ltb_spec nclass 0); [lia|].
  destruct (loop_ok (Z.of_nat (length vars) - 1) (Z.to_nat nclass) test lbls ltac:(lia) HL Hp) as (ps & E & HF). rewrite E. cbn [bind fst snd].
  destruct (reps_ok (Z.to_nat nclass) test lbls HL) as (reps & ->).
  - eapply Forall_impl; [|exact Hl]. cbn. intros l. lia.
  - cbn [bind]. eauto.
Qed.
Lemma classify_panics vars nclass test lbls : get vars (Z.of_nat (length vars) - 1) = Some nclass -> 1 <= nclass -> length lbls = length test ->
  (forall row, In row test -> get row (Z.of_nat (length vars) - 1) = None /\ possible value (Z.of_nat (length vars) - 1) (Z.to_nat nclass) row) ->
  ~ Forall (fun l => 0 <= l < nclass) lbls -> imgClassify value vars test lbls = Panic.
Proof.
  intros Hv Hn HL Hp Hl. unfold imgClassify. rewrite Hv. cbn [orPanic bind]. destruct (Z.ltb_spec nclass 0); [lia|].
  destruct (loop_ok (Z.of_nat (length vars) - 1) (Z.to_nat nclass) test lbls ltac:(lia) HL Hp) as (ps & E & HF). rewrite E. cbn [bind fst snd].
  rewrite reps_panics; auto. intros H'. apply Hl. eapply Forall_impl; [|exact H']. cbn. intros l. lia.
Qed.
End C.

(** The prediction is determined. *)
Lemma first_max_unique (q q' : nat -> R) c m m' : (forall j, (j < c)%nat -> q j = q' j) -> first_max q c m -> first_max q' c m' -> m = m'.
Proof.
  intros Hq (A1 & A2 & A3) (B1 & B2 & B3). destruct (Nat.lt_trichotomy m m') as [H|[H|H]]; auto; exfalso.
  - specialize (B3 m H). specialize (A2 m' B1). rewrite !Hq in A2 by auto. lra.
  - specialize (A3 m' H). specialize (B2 m A1). rewrite <- !Hq in B2 by auto. lra.
Qed.
Lemma classified_unique value v c I l l' : classified value v c I l -> classified value v c I l' -> l = l'.
Proof.
  intros (q & m & Hq & Hm & ->) (q' & m' & Hq' & Hm' & ->). f_equal. apply (first_max_unique q q' c m m'); auto. intros j Hj. destruct (Hq j Hj) as (x & Ex & Ex2), (Hq' j Hj) as (x' & Ex' & Ex2'). rewrite Ex2, Ex2'. congruence.
Qed.

(** A network that copies variable 0 to the class 1. *)
Definition copies (I : gmap) : res xreal := Ok (match get I 1 with None => Fin 0 | Some j => if j =? get0 I 0 then Fin 0 else NInf end).
Lemma copies_possible a : possible copies 1 2 [(0, a)].
Proof.
  split; [exists 0%R; reflexivity|]. intros j Hj. eexists. split; [reflexivity|]. cbn [get put]. rewrite Z.eqb_refl. destruct (_ =? _); exact Logic.I.
Qed.
Lemma copies_classified a : (a < 2)%nat -> classified copies 1 2 [(0, Z.of_nat a)] (Z.of_nat a).
Proof.
  intros Ha. exists (fun j => if Nat.eqb j a then exp 0 else 0%R), a. split; [|split; auto].
  - intros j Hj. eexists. split; [reflexivity|]. cbn [get put get0 fst snd del filter]. rewrite Z.eqb_refl.
    destruct j as [|[|]]; [| |lia]; destruct a as [|[|]]; try lia; reflexivity.
  - pose proof (exp_pos 0). split; [auto|]. split; intros j Hj; rewrite Nat.eqb_refl; destruct (Nat.eqb_spec j a); try lra; lia.
Qed.
Lemma copies_case : @imgClassify XR copies [(0, 2); (1, 2)] [[(0, 1)]; [(0, 0)]; [(0, 1)]] [1; 1; 1] = Ok (2, 3).
Proof.
  destruct (classify_ok copies [(0, 2); (1, 2)] 2 [[(0, 1)]; [(0, 0)]; [(0, 1)]] [1; 1; 1]) as (ps & E & HF); auto; try lia.
  - intros row Hr. cbn [In] in Hr. destruct Hr as [<-|[<-|[<-|[]]]]; (split; [reflexivity|apply copies_possible]).
  - repeat constructor; lia.
  - cbn [length Nat.add Z.of_nat] in HF. change (Z.pos (Pos.of_succ_nat 1) - 1) with 1 in HF. change (Z.to_nat 2) with 2%nat in HF.
    inversion HF as [|r1 p1 rs1 ps1 H1 F1]; subst. inversion F1 as [|r2 p2 rs2 ps2 H2 F2]; subst. inversion F2 as [|r3 p3 rs3 ps3 H3 F3]; subst. inversion F3; subst.
    rewrite (classified_unique _ _ _ _ _ _ H1 (copies_classified 1 ltac:(lia))), (classified_unique _ _ _ _ _ _ H2 (copies_classified 0 ltac:(lia))), (classified_unique _ _ _ _ _ _ H3 (copies_classified 1 ltac:(lia))) in E.
    exact E.
Qed.
Lemma unknown_case : exists vars nclass test lbls, get vars (Z.of_nat (length vars) - 1) = Some nclass /\ 1 <= nclass /\ length lbls = length test /\ @imgClassify XR copies vars test lbls = Panic.
Proof.
  exists [(0, 2); (1, 2)], 2, [[(0, 1)]], [2]. split; auto. split; [lia|]. split; auto. eapply (classify_panics copies _ 2); auto; try lia.
  - intros row Hr. cbn [In] in Hr. destruct Hr as [<-|[]]. split; [reflexivity|apply copies_possible].
  - intros H. inversion H. lia.
Qed.
