From Coq Require Import Reals Lra.
From Verif Require Import Base Res Arith LogSpec LogLemmas Spn SpnSpec Leaves ProbSpec MultiSpec.
Local Open Scope R_scope.

Definition modeStep (st : Z * Z * xreal * list Z) (p : xreal) : Z * Z * xreal * list Z :=
  let '(i, mi, m, miv) := st in
  if xgt p m then (i + 1, i, p, [i])%Z
  else if xeq p m then (i + 1, mi, m, miv ++ [i])%Z else (i + 1, mi, m, miv)%Z.

Lemma mode_fold all : forall suf pre mi m miv, all = pre ++ suf ->
  (pre = [] /\ mi = 0%Z /\ m = -1 /\ miv = [] /\ (forall p, In p all -> -1 < p) \/
   (forall p, In p pre -> p <= m) /\ miv <> [] /\ In mi miv /\
   (forall z, In z miv -> exists k, z = Z.of_nat k /\ nth_error all k = Some m)) ->
  all <> [] ->
  exists mi' m' miv', fold_left modeStep (map Fin suf) (Z.of_nat (length pre), mi, Fin m, miv) =
      (Z.of_nat (length all), mi', Fin m', miv') /\
   (forall p, In p all -> p <= m') /\ miv' <> [] /\ In mi' miv' /\
   (forall z, In z miv' -> exists k, z = Z.of_nat k /\ nth_error all k = Some m').
Proof.
  induction suf as [|p suf IH]; intros pre mi m miv E H Hne.
  - rewrite app_nil_r in E. subst pre. destruct H as [(-> & _)|H]; [congruence|]. exists mi, m, miv. auto.
  - assert (Ep : nth_error all (length pre) = Some p).
    { rewrite E, nth_error_app2, Nat.sub_diag by lia. auto. }
    assert (E' : all = (pre ++ [p]) ++ suf) by (rewrite <- app_assoc; auto).
    assert (EL : (Z.of_nat (length pre) + 1)%Z = Z.of_nat (length (pre ++ [p]))) by (rewrite app_length; simpl; lia).
    cbn [map fold_left modeStep]. rewrite EL.
    assert (Hpre : forall q, In q pre -> q <= m) by (destruct H as [(-> & _)|(H & _)]; [intros q []|auto]).
    cbn [xgt xeq]. destruct (Rlt_dec m p) as [Hlt|Hge].
    + apply IH; auto. right. split; [|split; [discriminate|split; [left; auto|]]].
      * intros q Hq. apply in_app_or in Hq as [Hq|[<-|[]]]; [specialize (Hpre q Hq)|]; lra.
      * intros z [<-|[]]. eauto.
    + destruct H as [(Epre & _ & Em & _ & Hall)|(_ & Hmv & Hin & Hz)].
      { exfalso. apply Hge. rewrite Em. apply Hall. eapply nth_error_In; eauto. }
      destruct (Req_EM_T p m) as [->|Hn].
      * apply IH; auto. right. split; [|split; [destruct miv; discriminate|split; [apply in_or_app; auto|]]].
        -- intros q Hq. apply in_app_or in Hq as [Hq|[<-|[]]]; auto; lra.
        -- intros z Hq. apply in_app_or in Hq as [Hq|[<-|[]]]; eauto.
      * apply IH; auto. right. split; auto.
        intros q Hq. apply in_app_or in Hq as [Hq|[<-|[]]]; auto; lra.
Qed.

Lemma modeLoop_l rnd ps : ps <> [] -> (forall p, In p ps -> -1 < p) ->
  (forall n, (0 < n)%nat -> (rnd n < n)%nat) ->
  exists mi, @modeLoop XR rnd (map Fin ps) = Ok (Z.of_nat mi, Fin (nth mi ps 0)) /\ is_mode ps mi.
Proof.
  intros Hne Hp Hr.
  destruct (mode_fold ps ps [] 0%Z (-1) [] eq_refl) as (mi & m & miv & E & H1 & H2 & H3 & H4); auto.
  { left. auto. }
  unfold modeLoop.
  assert (E' : fold_left
    (fun (st : Z * Z * F XR * list Z) (p : F XR) =>
                 let '(i, mi, m, miv) := st in
                 if fgt p m then ((i + 1)%Z, i, p, [i])
                 else if feq p m then ((i + 1)%Z, mi, m, miv ++ [i]) else ((i + 1)%Z, mi, m, miv))
    (map Fin ps) (0%Z, 0%Z, fz (-1), []) = (Z.of_nat (length ps), mi, Fin m, miv)) by exact E.
  rewrite E'.
  assert (F : forall z, In z miv -> exists k, z = Z.of_nat k /\ nth k ps 0 = m /\ is_mode ps k).
  { intros z Hz. destruct (H4 z Hz) as (k & -> & Ek). exists k. split; auto.
    pose proof (nth_error_nth _ _ 0 Ek) as En. rewrite <- En in H1. split; auto. split; auto.
    apply nth_error_Some. congruence. }
  destruct (Nat.ltb_spec 1 (length miv)) as [Hl|Hl].
  - specialize (Hr (length miv) ltac:(lia)). unfold idx.
    destruct (nth_error miv (rnd (length miv))) as [z|] eqn:Ez; [|apply nth_error_None in Ez; lia].
    cbn [bind]. destruct (F z (nth_error_In _ _ Ez)) as (k & -> & Ek & Hk). exists k. rewrite Ek. auto.
  - destruct (F mi H3) as (k & -> & Ek & Hk). exists k. rewrite Ek. auto.
Qed.

Definition cmStep (st : Z * Z * xreal) (p : xreal) : Z * Z * xreal :=
  let '(j, i, m) := st in if xgt p m then (j + 1, j, p)%Z else (j + 1, i, m)%Z.

Lemma cm_fold all : forall suf pre mi m, all = pre ++ suf ->
  (pre = [] /\ mi = 0%Z /\ m = 0 \/
   (forall p, In p pre -> p <= m) /\ exists k, mi = Z.of_nat k /\ nth_error all k = Some m) ->
  (forall p, In p all -> 0 < p) -> all <> [] ->
  exists k m', fold_left cmStep (map Fin suf) (Z.of_nat (length pre), mi, Fin m) =
      (Z.of_nat (length all), Z.of_nat k, Fin m') /\
   (forall p, In p all -> p <= m') /\ nth_error all k = Some m'.
Proof.
  induction suf as [|p suf IH]; intros pre mi m E H Hp Hne.
  - rewrite app_nil_r in E. subst pre. destruct H as [(-> & _)|(H & k & -> & Hk)]; [congruence|]. exists k, m. auto.
  - assert (Ep : nth_error all (length pre) = Some p).
    { rewrite E, nth_error_app2, Nat.sub_diag by lia. auto. }
    assert (E' : all = (pre ++ [p]) ++ suf) by (rewrite <- app_assoc; auto).
    assert (EL : (Z.of_nat (length pre) + 1)%Z = Z.of_nat (length (pre ++ [p]))) by (rewrite app_length; simpl; lia).
    pose proof (Hp p (nth_error_In _ _ Ep)) as Hp0.
    cbn [map fold_left cmStep]. rewrite EL. cbn [xgt]. destruct (Rlt_dec m p) as [Hlt|Hge].
    + apply IH; auto. right. split; [|eauto].
      intros q Hq. apply in_app_or in Hq as [Hq|[<-|[]]]; [|lra]. destruct H as [(-> & _)|(H & _)]; [destruct Hq|].
      specialize (H q Hq). lra.
    + destruct H as [(_ & _ & ->)|(H & k & -> & Hk)]; [lra|].
      apply IH; auto. right. split; [|eauto]. intros q Hq. apply in_app_or in Hq as [Hq|[<-|[]]]; auto; lra.
Qed.

Lemma computeMode_l ps : ps <> [] -> (forall p, In p ps -> 0 < p) ->
  exists mi, @computeMode XR (map Fin ps) = (Z.of_nat mi, Fin (nth mi ps 0)) /\ is_mode ps mi.
Proof.
  intros Hne Hp. destruct (cm_fold ps ps [] 0%Z 0 eq_refl) as (k & m & E & H1 & H2); auto.
  exists k. unfold computeMode.
  assert (E' : fold_left (fun (st : Z * Z * F XR) p =>
                 let '(j, i, m) := st in if fgt p m then ((j + 1)%Z, j, p) else ((j + 1)%Z, i, m))
              (map Fin ps) (0%Z, 0%Z, fz 0) = (Z.of_nat (length ps), Z.of_nat k, Fin m)) by exact E.
  rewrite E'. pose proof (nth_error_nth _ _ 0 H2) as En. rewrite En. split; auto. split.
  - apply nth_error_Some. congruence.
  - rewrite En. auto.
Qed.

(** Smoothed probabilities. *)
Definition total (counts : list Z) : R := Rsum (map (fun c => 1 + IZR c) counts).
Definition smoothed (counts : list Z) : list R := map (fun c => (1 + IZR c) / total counts) counts.

Lemma total_fold counts : forall a,
  fold_left (fun s c => xadd s (xadd (Fin 1) (Fin (IZR c)))) counts (Fin a) = Fin (a + total counts).
Proof.
  induction counts as [|c counts IH]; intros a; simpl.
  - unfold total. simpl. f_equal. lra.
  - rewrite IH. unfold total. simpl. f_equal. lra.
Qed.

Lemma total_pos counts : counts <> [] -> (forall c, In c counts -> (0 <= c)%Z) -> 0 < total counts.
Proof.
  intros Hne H. unfold total. destruct counts as [|c l]; [congruence|]. simpl.
  assert (0 <= Rsum (map (fun c => 1 + IZR c) l)).
  { apply Rsum_nonneg. intros x Hx. apply in_map_iff in Hx as (d & <- & Hd).
    assert (0 <= IZR d) by (apply IZR_le, H; right; auto). lra. }
  assert (0 <= IZR c) by (apply IZR_le, H; left; auto). lra.
Qed.

Lemma countingPr_l counts : counts <> [] -> (forall c, In c counts -> (0 <= c)%Z) ->
  @countingPr XR counts = map Fin (smoothed counts).
Proof.
  intros Hne H. 
  change (map (fun c => xdiv (Fin (IZR (1 + c)))
    (fold_left (fun s c => xadd s (xadd (Fin 1) (Fin (IZR c)))) counts (Fin 0))) counts = map Fin (smoothed counts)).
  assert (E : fold_left (fun s c => xadd s (xadd (Fin 1) (Fin (IZR c)))) counts (Fin 0) = Fin (total counts)).
  { rewrite total_fold. f_equal. lra. }
  rewrite E. unfold smoothed. rewrite map_map. apply map_ext. intros c. unfold xdiv.
  pose proof (total_pos counts Hne H). destruct (Req_EM_T (total counts) 0); [lra|].
  rewrite plus_IZR. reflexivity.
Qed.

Lemma smoothed_pos counts : counts <> [] -> (forall c, In c counts -> (0 <= c)%Z) ->
  forall p, In p (smoothed counts) -> 0 < p.
Proof.
  intros Hne H p Hp. apply in_map_iff in Hp as (c & <- & Hc). pose proof (total_pos counts Hne H).
  assert (0 <= IZR c) by (apply IZR_le, H; auto). apply Rdiv_lt_0_compat; lra.
Qed.

Lemma smoothed_sum counts : counts <> [] -> (forall c, In c counts -> (0 <= c)%Z) -> Rsum (smoothed counts) = 1.
Proof.
  intros Hne H. pose proof (total_pos counts Hne H). unfold smoothed.
  rewrite (Rsum_ext _ (fun c => / total counts * (1 + IZR c))) by (intros; field; lra).
  rewrite <- (map_map (fun c => 1 + IZR c) (Rmult (/ total counts))). rewrite Rsum_scal. fold (total counts). field. lra.
Qed.

Lemma smoothed_nth counts i c : nth_error counts i = Some c -> nth i (smoothed counts) 0 = (1 + IZR c) / total counts.
Proof.
  intros E. apply nth_error_nth. unfold smoothed. rewrite nth_error_map, E. auto.
Qed.

Lemma total_eq counts : total counts = INR (length counts) + IZR (fold_right Z.add 0%Z counts).
Proof.
  unfold total. induction counts as [|c l IH].
  - simpl. lra.
  - cbn [map Rsum length fold_right]. rewrite IH, S_INR, plus_IZR. lra.
Qed.

Lemma smoothed_order counts i j ci cj : counts <> [] -> (forall c, In c counts -> (0 <= c)%Z) ->
  nth_error counts i = Some ci -> nth_error counts j = Some cj ->
  ((ci <= cj)%Z <-> nth i (smoothed counts) 0 <= nth j (smoothed counts) 0).
Proof.
  intros Hne H Ei Ej. rewrite (smoothed_nth _ _ _ Ei), (smoothed_nth _ _ _ Ej).
  pose proof (total_pos counts Hne H) as Hp. unfold Rdiv. split.
  - intros Hc. apply Rmult_le_compat_r; [left; apply Rinv_0_lt_compat; auto|]. apply IZR_le in Hc. lra.
  - intros Hc. apply Rmult_le_reg_r in Hc; [|apply Rinv_0_lt_compat; auto]. apply le_IZR. lra.
Qed.

Lemma smoothed_ne counts : counts <> [] -> smoothed counts <> [].
Proof. destruct counts; simpl; try congruence; intros _ E; discriminate. Qed.

Lemma counting_l rnd x counts :
  counts <> [] -> (forall c, In c counts -> (0 <= c)%Z) -> (forall n, (0 < n)%nat -> (rnd n < n)%nat) ->
  exists ps mi,
    newCountingMultinomial rnd x counts =
      Ok (@mkMulti XR [x] x (map Fin ps) (Z.of_nat mi) (Fin (nth mi ps 0))) /\
    length ps = length counts /\
    (forall i c, nth_error counts i = Some c ->
       nth i ps 0 = (1 + IZR c) / (INR (length counts) + IZR (fold_right Z.add 0%Z counts))) /\
    (forall p, In p ps -> 0 < p) /\ Rsum ps = 1 /\
    (forall i j ci cj, nth_error counts i = Some ci -> nth_error counts j = Some cj ->
       ((ci <= cj)%Z <-> nth i ps 0 <= nth j ps 0)) /\
    is_mode ps mi.
Proof.
  intros Hne H Hr. pose proof (smoothed_pos counts Hne H) as Hp.
  destruct (modeLoop_l rnd (smoothed counts)) as (mi & E & Hm); auto.
  { apply smoothed_ne; auto. }
  { intros p Hin. specialize (Hp p Hin). lra. }
  exists (smoothed counts), mi. split.
  - unfold newCountingMultinomial. rewrite countingPr_l by auto. rewrite E. reflexivity.
  - split; [apply map_length|]. split; [intros i c Ei; rewrite <- total_eq; apply smoothed_nth; auto|].
    split; auto. split; [apply smoothed_sum; auto|]. split; auto.
    intros i j ci cj Ei Ej. apply smoothed_order; auto.
Qed.

Lemma counting_leaf_l rnd x counts card :
  counts <> [] -> (forall c, In c counts -> (0 <= c)%Z) -> (forall n, (0 < n)%nat -> (rnd n < n)%nat) ->
  card x = length counts ->
  exists m, @newCountingMultinomial XR rnd x counts = Ok m /\ multinomial_leaf card (multiLeaf m) x.
Proof.
  intros Hne H Hr Hc. destruct (counting_l rnd x counts Hne H Hr) as (ps & mi & E & H1 & _ & H2 & H3 & _ & H4 & H5).
  eexists. split; [exact E|]. exists ps, mi. split; auto. split; [congruence|]. split; auto.
  intros p Hp. left. auto.
Qed.

Lemma scoped_l x esc counts :
  counts <> [] -> (forall c, In c counts -> (0 <= c)%Z) ->
  exists ps mi,
    newScopedCountingMultinomial x esc counts =
      @mkMulti XR esc x (map Fin ps) (Z.of_nat mi) (Fin (nth mi ps 0)) /\
    length ps = length counts /\
    (forall i c, nth_error counts i = Some c ->
       nth i ps 0 = (1 + IZR c) / (INR (length counts) + IZR (fold_right Z.add 0%Z counts))) /\
    is_mode ps mi.
Proof.
  intros Hne H. destruct (computeMode_l (smoothed counts)) as (mi & E & Hm).
  { apply smoothed_ne; auto. }
  { apply smoothed_pos; auto. }
  exists (smoothed counts), mi. split.
  - unfold newScopedCountingMultinomial. rewrite countingPr_l by auto. rewrite E. reflexivity.
  - split; [apply map_length|]. split; auto. intros i c Ei; rewrite <- total_eq; apply smoothed_nth; auto.
Qed.

Lemma new_multi_l rnd x ps : ps <> [] -> (forall p, In p ps -> 0 <= p) ->
  (forall n, (0 < n)%nat -> (rnd n < n)%nat) ->
  exists mi, @newMultinomial XR rnd x (map Fin ps) =
      Ok (@mkMulti XR [x] x (map Fin ps) (Z.of_nat mi) (Fin (nth mi ps 0))) /\ is_mode ps mi.
Proof.
  intros Hne Hp Hr. destruct (modeLoop_l rnd ps Hne) as (mi & E & Hm); auto.
  { intros p Hin. specialize (Hp p Hin). lra. }
  exists mi. split; auto. unfold newMultinomial. rewrite E. reflexivity.
Qed.

Lemma Rsum_repeat c n : Rsum (repeat c n) = INR n * c.
Proof. induction n; cbn [repeat Rsum]; [simpl; lra|]. rewrite IHn, S_INR. lra. Qed.

Lemma map_repeat_ok {X Y} (f : X -> Y) x n : map f (repeat x n) = repeat (f x) n.
Proof. induction n; simpl; congruence. Qed.

Lemma empty_multi_l x (n : nat) : (0 < n)%nat ->
  let ps := repeat (1 / INR n) n in
  newEmptyMultinomial x (Z.of_nat n) = Ok (@mkMulti XR [x] x (map Fin ps) 0 (Fin (nth 0 ps 0))) /\
  Rsum ps = 1 /\ is_mode ps 0.
Proof.
  intros Hn ps. assert (Hi : 0 < INR n) by (apply lt_0_INR; auto). unfold ps. split; [|split].
  - unfold newEmptyMultinomial. destruct (Z.ltb_spec (Z.of_nat n) 0) as [|_]; [lia|].
    rewrite Nat2Z.id. cbn [fdiv fz XR]. simpl xdiv. rewrite <- INR_IZR_INZ.
    destruct (Req_EM_T (INR n) 0); [lra|]. rewrite map_repeat_ok.
    destruct n as [|n]; [lia|]. reflexivity.
  - rewrite Rsum_repeat. field. lra.
  - split; [rewrite repeat_length; auto|]. intros p Hp. apply repeat_spec in Hp. subst p.
    destruct n as [|n]; [lia|]. simpl. lra.
Qed.

(** Statistics. *)
Definition fold_ix (f : nat -> R -> R) (ps : list R) (k : nat) : R :=
  Rsum (map (fun ip => f (fst ip) (snd ip)) (combine (seq k (length ps)) ps)).

Lemma mean_fold ps : forall k a,
  fold_left (fun (st : Z * xreal) p => let (i, mu) := st in (i + 1, xadd mu (xmul p (Fin (IZR i))))%Z)
    (map Fin ps) (Z.of_nat k, Fin a) =
  (Z.of_nat (k + length ps), Fin (a + fold_ix (fun i p => p * INR i) ps k)).
Proof.
  induction ps as [|p ps IH]; intros k a; cbn [map fold_left].
  - unfold fold_ix. simpl. rewrite Nat.add_0_r. f_equal. f_equal. lra.
  - cbn [xmul xadd]. replace (Z.of_nat k + 1)%Z with (Z.of_nat (S k)) by lia. rewrite IH.
    cbn [length]. f_equal; [f_equal; lia|]. f_equal. unfold fold_ix. cbn [length seq combine map Rsum fst snd].
    rewrite <- INR_IZR_INZ. lra.
Qed.

Lemma fold_ix_seq f ps : fold_ix f ps 0 = Rsum (map (fun i => f i (nth i ps 0)) (seq 0 (length ps))).
Proof.
  unfold fold_ix. f_equal.
  assert (X : forall l k all, (forall i, (i < length l)%nat -> nth (k + i) all 0 = nth i l 0) ->
    map (fun ip => f (fst ip) (snd ip)) (combine (seq k (length l)) l) = map (fun i => f i (nth i all 0)) (seq k (length l))).
  { induction l as [|p l IH]; intros k all H; simpl; auto. f_equal.
    - f_equal. specialize (H 0%nat ltac:(simpl; lia)). rewrite Nat.add_0_r in H. auto.
    - apply IH. intros i Hi. specialize (H (S i) ltac:(simpl; lia)). simpl in H. rewrite <- H. f_equal. lia. }
  apply X. auto.
Qed.

Lemma mean_l sc x ps mi mv : mean (@mkMulti XR sc x (map Fin ps) mi mv) = Fin (dist_mean ps).
Proof.
  unfold mean. cbn [m_pr]. pose proof (mean_fold ps 0 0) as E.
  assert (E' : fold_left (fun (st : Z * F XR) p => let (i, mu) := st in ((i + 1)%Z, fadd mu (fmul p (fz i))))
                 (map Fin ps) (0%Z, fz 0) = (Z.of_nat (0 + length ps), Fin (0 + fold_ix (fun i p => p * INR i) ps 0))) by exact E.
  rewrite E'. cbn [snd]. rewrite fold_ix_seq, Rplus_0_l. reflexivity.
Qed.

Lemma sd_fold mu (ps : list xreal) : forall k a,
  fold_left (fun (st : Z * xreal) (_ : xreal) =>
     let (i, sd) := st in let d := xsub (Fin (IZR i)) (Fin mu) in ((i + 1)%Z, xadd sd (xmul d d)))
    ps (Z.of_nat k, Fin a) =
  (Z.of_nat (k + length ps), Fin (a + Rsum (map (fun i => (INR i - mu) * (INR i - mu)) (seq k (length ps))))).
Proof.
  induction ps as [|p ps IH]; intros k a; cbn [map fold_left].
  - simpl. rewrite Nat.add_0_r. f_equal. f_equal. lra.
  - match goal with |- fold_left ?f ?l _ = ?R => change (fold_left f l
      ((Z.of_nat k + 1)%Z, Fin (a + (IZR (Z.of_nat k) + - mu) * (IZR (Z.of_nat k) + - mu))) = R) end.
    replace (Z.of_nat k + 1)%Z with (Z.of_nat (S k)) by lia. rewrite IH.
    cbn [length]. f_equal; [f_equal; lia|]. f_equal. cbn [length seq map Rsum].
    rewrite <- INR_IZR_INZ. lra.
Qed.

Lemma stddev_l sc x ps mi mv : ps <> [] -> stdDev (@mkMulti XR sc x (map Fin ps) mi mv) =
  Fin (sqrt (Rsum (map (fun i => (INR i - dist_mean ps) * (INR i - dist_mean ps)) (seq 0 (length ps))) / INR (length ps))).
Proof.
  intros Hne. unfold stdDev. rewrite mean_l. cbn [m_pr].
  pose proof (sd_fold (dist_mean ps) (map Fin ps) 0 0) as E.
  match goal with |- _ = ?R => change (xsqrt (xdiv (snd (fold_left (fun (st : Z * xreal) (_ : xreal) =>
       let (i, sd) := st in let d := xsub (Fin (IZR i)) (Fin (dist_mean ps)) in ((i + 1)%Z, xadd sd (xmul d d)))
       (map Fin ps) (Z.of_nat 0, Fin 0))) (Fin (IZR (Z.of_nat (length (map Fin ps)))))) = R) end.
  rewrite E. cbn [snd]. rewrite map_length, Rplus_0_l. rewrite <- INR_IZR_INZ.
  assert (Hl : 0 < INR (length ps)) by (apply lt_0_INR; destruct ps; [congruence|simpl; lia]).
  cbn [xdiv]. destruct (Req_EM_T (INR (length ps)) 0); [lra|]. cbn [xsqrt].
  match goal with |- (if Rlt_dec ?s 0 then _ else _) = _ => assert (Hs : 0 <= s) end.
  { apply Rmult_le_pos; [|left; apply Rinv_0_lt_compat; auto]. apply Rsum_nonneg. intros y Hy.
    apply in_map_iff in Hy as (i & <- & _). apply Rle_0_sqr. }
  destruct (Rlt_dec _ 0); [lra|]. reflexivity.
Qed.

Lemma stddev_uniform_l sc x n mi mv : (0 < n)%nat ->
  stdDev (@mkMulti XR sc x (map Fin (repeat (1 / INR n) n)) mi mv) = Fin (dist_stddev (repeat (1 / INR n) n)).
Proof.
  intros Hn. assert (Hi : 0 < INR n) by (apply lt_0_INR; auto).
  rewrite stddev_l by (destruct n; [lia|discriminate]). unfold dist_stddev, expectation. f_equal. f_equal.
  rewrite repeat_length. set (mu := dist_mean _). clearbody mu.
  rewrite (Rsum_ext (fun i => nth i (repeat (1 / INR n) n) 0 * ((INR i - mu) * (INR i - mu))) (fun i => / INR n * ((INR i - mu) * (INR i - mu)))).
  - rewrite <- (map_map (fun i => (INR i - mu) * (INR i - mu)) (Rmult (/ INR n))), Rsum_scal. field. lra.
  - intros i Hin. apply in_seq in Hin. rewrite (nth_error_nth _ i (x := 1 / INR n)); [field; lra|].
    apply nth_error_repeat. lia.
Qed.

Lemma stddev_refuted_l : exists ps mi mv,
  (forall p, In p ps -> 0 <= p) /\ Rsum ps = 1 /\
  stdDev (@mkMulti XR [0%Z] 0%Z (map Fin ps) mi mv) <> Fin (dist_stddev ps).
Proof.
  exists [1; 0], 0%Z, (Fin 1). split; [intros p [<-|[<-|[]]]; lra|]. split; [simpl; lra|].
  rewrite stddev_l by discriminate. unfold dist_stddev, dist_mean, expectation. simpl.
  intros E. injection E as E.
  match type of E with sqrt ?a = sqrt ?b => assert (Ha : a = 1 / 2) by lra; assert (Hb : b = 0) by lra end.
  rewrite Ha, Hb, sqrt_0 in E. pose proof (sqrt_lt_R0 (1/2) ltac:(lra)). lra.
Qed.

(** Leaves depend on their own variable only. *)
Lemma multi_univariate (A : arith) (m : multinomial A) x : m_sc m = [x] -> m_varid m = x ->
  forall I J, I x = J x -> lvalue (multiLeaf m) I = lvalue (multiLeaf m) J /\
    lmax (multiLeaf m) I = lmax (multiLeaf m) J /\ largmax (multiLeaf m) I = largmax (multiLeaf m) J.
Proof.
  intros H1 H2 I J E. unfold multiLeaf, lvalue, lmax, largmax, multiValue, multiMax, multiArgMax. rewrite H2, E. auto.
Qed.

Lemma leaves_univariate_l (A : arith) :
  (forall rnd x dist (m : multinomial A), newMultinomial rnd x dist = Ok m -> univariate (multiLeaf m)) /\
  (forall rnd x counts (m : multinomial A), newCountingMultinomial rnd x counts = Ok m -> univariate (multiLeaf m)) /\
  (forall x n (m : multinomial A), newEmptyMultinomial x n = Ok m -> univariate (multiLeaf m)) /\
  (forall x v, univariate (@indLeaf A x v)) /\
  (forall lp tr x mu sigma rd, univariate (@gaussLeaf A lp tr rd x mu sigma)).
Proof.
  assert (X : forall x pr mi mv, univariate (multiLeaf (@mkMulti A [x] x pr mi mv))).
  { intros x pr mi mv. exists x, []. split; auto. intros I J E. apply (multi_univariate A (mkMulti [x] x pr mi mv) x); auto. }
  split; [|split; [|split; [|split]]].
  - intros rnd x dist m E. unfold newMultinomial in E. destruct (modeLoop rnd dist); try discriminate.
    injection E as <-. apply X.
  - intros rnd x dist m E. unfold newCountingMultinomial in E. destruct (modeLoop rnd _); try discriminate.
    injection E as <-. apply X.
  - intros x n m E. unfold newEmptyMultinomial in E. destruct (n <? 0)%Z; try discriminate.
    destruct (idx _ 0); try discriminate. injection E as <-. apply X.
  - intros x v. exists x, []. split; auto. intros I J E. simpl. unfold indValue. rewrite E. auto.
  - intros lp tr x mu sigma rd. exists x, []. split; auto. intros I J E. simpl. unfold gaussValue. rewrite E. auto.
Qed.
