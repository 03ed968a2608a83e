(** KMode, OldKMeans and KMedoid: results, and absence of panics. *)
From Coq Require Import Permutation.
From Verif Require Import Base Res Cluster ClusterSpec ClusterLemmas WalkLemmas.
Local Open Scope Z_scope.

Lemma foldr_app_ok {T S} (f : S -> T -> res S) (Q : S -> Prop) l : forall s, Q s ->
  (forall s x, Q s -> In x l -> exists s', f s x = Ok s' /\ Q s') -> exists s', foldr_ f l s = Ok s' /\ Q s'.
Proof.
  induction l as [|x l IH]; intros s Hs H; cbn [foldr_]; eauto.
  destruct (H s x Hs (or_introl eq_refl)) as (s' & -> & Hs'). cbn [bind]. apply IH; auto. intros; apply H; auto. right; auto.
Qed.

Lemma foldr_safe {T S} (f : S -> T -> res S) (Q : list T -> S -> Prop) l : forall l0 s, Q l0 s ->
  (forall l1 s x, Q (l0 ++ l1) s -> (exists l2, l = l1 ++ x :: l2) -> f s x = Fuel \/ exists s', f s x = Ok s' /\ Q (l0 ++ l1 ++ [x]) s') ->
  foldr_ f l s = Fuel \/ exists s', foldr_ f l s = Ok s' /\ Q (l0 ++ l) s'.
Proof.
  induction l as [|x l IH]; intros l0 s Hs H; cbn [foldr_]; [right; exists s; rewrite app_nil_r; auto|].
  destruct (H [] s x) as [->|(s' & -> & Hs')]; [rewrite app_nil_r; auto|exists l; auto|left; auto|]. cbn [bind].
  simpl in Hs'. destruct (IH (l0 ++ [x]) s' Hs') as [->|(s2 & -> & H2)]; auto.
  - intros l1 s1 y Hs1 (l2 & ->). destruct (H (x :: l1) s1 y) as [->|(s3 & -> & H3)]; auto.
    + rewrite <- app_assoc in Hs1. auto.
    + exists l2. auto.
    + right. exists s3. split; auto. rewrite <- !app_assoc. auto.
  - right. exists s2. split; auto. rewrite <- app_assoc in H2. auto.
Qed.

(** ** KMode *)
Section Modes.
Variable rnd : nat -> nat -> nat.

Lemma kMode_l fuel k data C : kMode rnd fuel k data = Ok C ->
  partitions k data C /\ exists centres, length centres = k /\ nearest_centre centres C.
Proof.
  unfold kMode. intros E. apply bind_ok in E as ((((c, seen), chk), M) & _ & E). apply bind_ok in E as ((chk', M') & E1 & E).
  cbn [fst] in E. apply collect_l in E as (P & R). split; auto.
  exists (map (fun j => meanAt (means M') (Z.of_nat j)) (seq 0 k)). split; [rewrite map_length, seq_length; auto|].
  intros c1 c2 cl i row m m' Hc Hi Hm Hm'. destruct (R _ _ _ _ Hc Hi) as (Hrow & Ha).
  assert (Hi' : (i < length data)%nat) by (apply nth_error_Some; congruence).
  assert (Lc : (c1 < k)%nat) by (destruct P as [<- _]; apply nth_error_Some; congruence).
  apply converge_near with (j := i) in E1; auto; [|lia|intros j Hj; exfalso; eapply recent0; eauto].
  destruct E1 as (row' & v & d & Hr & Hv & Hd & Hmin). rewrite Hrow in Hr. injection Hr as <-.
  unfold assigned in Ha. rewrite Hv in Ha. subst v.
  assert (Hs : forall c m, nth_error (map (fun j => meanAt (means M') (Z.of_nat j)) (seq 0 k)) c = Some m -> (c < k)%nat /\ m = meanAt (means M') (Z.of_nat c)).
  { intros c0 m0 H. assert (c0 < k)%nat by (apply nth_error_Some in H || idtac; rewrite <- (seq_length k 0), <- (map_length (fun j => meanAt (means M') (Z.of_nat j))); apply nth_error_Some; congruence).
    split; auto. erewrite map_nth_error in H; [injection H as <-; reflexivity|]. rewrite (nth_error_nth' _ 0%nat) by (rewrite seq_length; auto).
    rewrite seq_nth; auto. }
  apply Hs in Hm as (_ & ->). apply Hs in Hm' as (L2 & ->). destruct (Hmin c2 L2) as (t & Ht & Le).
  apply hamming_l in Hd, Ht. lia.
Qed.

(** Shapes of the tables. *)
Record shape (cap : nat -> Z) (m k : nat) (M : modes) : Prop := {
  s_means : length (means M) = k;
  s_mean : forall c mean, nth_error (means M) c = Some mean -> length mean = m /\ forall j x, nth_error mean j = Some x -> 0 <= x < cap j;
  s_counts : length (counts M) = k;
  s_count : forall c cl, nth_error (counts M) c = Some cl -> length cl = m /\ forall j row, nth_error cl j = Some row -> Z.of_nat (length row) = cap j }.

Lemma nth_set {T} (l : list T) i x j y : nth_error (set_nth i x l) j = Some y -> (j = i /\ y = x) \/ (j <> i /\ nth_error l j = Some y).
Proof.
  intros H. destruct (Nat.eq_dec j i) as [->|Hn].
  - assert (L : (i < length l)%nat) by (rewrite <- (set_nth_length i x); apply nth_error_Some; congruence).
    rewrite nth_error_set_nth_same in H by auto. injection H as <-. auto.
  - rewrite nth_error_set_nth_diff in H by auto. auto.
Qed.

Section Shape.
Variable cap : nat -> Z.
Variable m : nat.
Definition fits (v : list Z) : Prop := length v = m /\ forall j x, nth_error v j = Some x -> 0 <= x < cap j.

Lemma idxZ_ok {T} (l : list T) i : 0 <= i < Z.of_nat (length l) -> exists x, idxZ l i = Ok x /\ nth_error l (Z.to_nat i) = Some x.
Proof.
  intros H. unfold idxZ, idx. destruct (Z.ltb_spec i 0); [lia|].
  destruct (nth_error l (Z.to_nat i)) eqn:E; [eauto|apply nth_error_None in E; lia].
Qed.
Lemma idx_ok {T} (l : list T) i : (i < length l)%nat -> exists x, idx l i = Ok x /\ nth_error l i = Some x.
Proof. intros H. unfold idx. destruct (nth_error l i) eqn:E; [eauto|apply nth_error_None in E; lia]. Qed.

Lemma meanAt_nth M c mean : nth_error M (Z.to_nat c) = Some mean -> 0 <= c -> meanAt M c = mean.
Proof. intros H Hc. unfold meanAt. destruct (Z.ltb_spec c 0); [lia|]. apply nth_error_nth; auto. Qed.

Lemma badMax_l row : row <> [] -> 0 <= badMax row < Z.of_nat (length row).
Proof.
  unfold badMax.
  assert (G : forall l mx i, -1 <= mx < i -> 0 <= i -> (0 <= mx \/ l <> []) ->
    let r := fst (fold_left (fun (st : Z * Z) c => (if (fst st <? 0) || (c >? fst st) then snd st else fst st, snd st + 1)) l (mx, i)) in
    0 <= r < i + Z.of_nat (length l)).
  { induction l as [|c l IH]; intros mx i H1 H2 H3; cbn [fold_left length]; cbn zeta.
    - destruct H3; [cbn [fst]; lia|congruence].
    - cbn [fst snd]. destruct ((mx <? 0) || (c >? mx)) eqn:Ec.
      + specialize (IH i (i + 1) ltac:(lia) ltac:(lia) ltac:(left; lia)). cbn zeta in IH. lia.
      + apply orb_false_iff in Ec as [Ec _]. apply Z.ltb_ge in Ec.
        specialize (IH mx (i + 1) ltac:(lia) ltac:(lia) ltac:(left; lia)). cbn zeta in IH. lia. }
  intros Hr. specialize (G row (-1) 0 ltac:(lia) ltac:(lia) (or_intror Hr)). cbn zeta in G. lia.
Qed.

Lemma shape_set k M w mean cl : shape cap m k M -> 0 <= w < Z.of_nat k ->
  (length mean = m /\ forall j x, nth_error mean j = Some x -> 0 <= x < cap j) ->
  (length cl = m /\ forall j row, nth_error cl j = Some row -> Z.of_nat (length row) = cap j) ->
  shape cap m k (mkModes (set_nth (Z.to_nat w) mean (means M)) (set_nth (Z.to_nat w) cl (counts M))).
Proof.
  intros [S1 S2 S3 S4] Hw Hm Hc. constructor; cbn [means counts]; try (rewrite set_nth_length; auto).
  - intros c mn H. apply nth_set in H as [(-> & ->)|(_ & H)]; eauto.
  - intros c mn H. apply nth_set in H as [(-> & ->)|(_ & H)]; eauto.
Qed.
Lemma set_same {T} (l : list T) i x : nth_error l i = Some x -> set_nth i x l = l.
Proof. revert i. induction l as [|y l IH]; intros [|i] H; simpl in *; try discriminate; [congruence|f_equal; auto]. Qed.

Lemma insertColumn_l k M w v j : shape cap m k M -> 0 <= w < Z.of_nat k -> fits v -> (j < m)%nat ->
  exists M', insertColumn w v M j = Ok M' /\ shape cap m k M'.
Proof.
  intros Sh Hw [Fl Fv] Hj. destruct Sh as [S1 S2 S3 S4] eqn:Hs. clear Hs. unfold insertColumn.
  destruct (idxZ_ok (counts M) w ltac:(lia)) as (cl & -> & Ecl). cbn [bind]. destruct (S4 _ _ Ecl) as [Lcl Rcl].
  destruct (idx_ok cl j ltac:(lia)) as (row & -> & Erow). cbn [bind]. pose proof (Rcl _ _ Erow) as Lrow.
  destruct (idx_ok v j ltac:(lia)) as (x & -> & Ex). cbn [bind]. pose proof (Fv _ _ Ex) as Rx.
  destruct (idxZ_ok row x ltac:(lia)) as (n & -> & En). cbn [bind].
  destruct (nth_error (means M) (Z.to_nat w)) as [mean|] eqn:Em; [|apply nth_error_None in Em; lia].
  rewrite (meanAt_nth _ _ _ Em) by lia. destruct (S2 _ _ Em) as [Lm Rm].
  destruct (idx_ok mean j ltac:(lia)) as (mk & -> & Emk). cbn [bind]. pose proof (Rm _ _ Emk) as Rmk.
  destruct (idxZ_ok (set_nth (Z.to_nat x) (n + 1) row) mk ltac:(rewrite set_nth_length; lia)) as (old & -> & _). cbn [bind].
  eexists. split; [reflexivity|].
  assert (Hcl : length (set_nth j (set_nth (Z.to_nat x) (n + 1) row) cl) = m /\
     forall j0 row0, nth_error (set_nth j (set_nth (Z.to_nat x) (n + 1) row) cl) j0 = Some row0 -> Z.of_nat (length row0) = cap j0).
  { split; [rewrite set_nth_length; auto|]. intros j0 r0 H. apply nth_set in H as [(-> & ->)|(_ & H)]; [rewrite set_nth_length; auto|eauto]. }
  destruct (n + 1 >? old).
  - apply shape_set; auto. split; [rewrite set_nth_length; auto|]. intros j0 x0 H. apply nth_set in H as [(-> & ->)|(_ & H)]; eauto.
  - rewrite <- (set_same (means M) (Z.to_nat w) mean Em) at 1. apply shape_set; auto.
Qed.

Lemma removeColumn_l k M w v j : shape cap m k M -> 0 <= w < Z.of_nat k -> fits v -> (j < m)%nat ->
  exists M', removeColumn w v M j = Ok M' /\ shape cap m k M'.
Proof.
  intros Sh Hw [Fl Fv] Hj. destruct Sh as [S1 S2 S3 S4] eqn:Hs. clear Hs. unfold removeColumn.
  destruct (idxZ_ok (counts M) w ltac:(lia)) as (cl & -> & Ecl). cbn [bind]. destruct (S4 _ _ Ecl) as [Lcl Rcl].
  destruct (idx_ok cl j ltac:(lia)) as (row & -> & Erow). cbn [bind]. pose proof (Rcl _ _ Erow) as Lrow.
  destruct (idx_ok v j ltac:(lia)) as (x & -> & Ex). cbn [bind]. pose proof (Fv _ _ Ex) as Rx.
  destruct (idxZ_ok row x ltac:(lia)) as (n & -> & En). cbn [bind].
  destruct (nth_error (means M) (Z.to_nat w)) as [mean|] eqn:Em; [|apply nth_error_None in Em; lia].
  rewrite (meanAt_nth _ _ _ Em) by lia. destruct (S2 _ _ Em) as [Lm Rm].
  destruct (idx_ok mean j ltac:(lia)) as (mk & -> & Emk). cbn [bind].
  eexists. split; [reflexivity|]. set (row' := set_nth (Z.to_nat x) (n - 1) row).
  assert (Lr : length row' = length row) by apply set_nth_length.
  assert (Hcl : length (set_nth j row' cl) = m /\
     forall j0 row0, nth_error (set_nth j row' cl) j0 = Some row0 -> Z.of_nat (length row0) = cap j0).
  { split; [rewrite set_nth_length; auto|]. intros j0 r0 H. apply nth_set in H as [(-> & ->)|(_ & H)]; [lia|eauto]. }
  destruct (mk =? x).
  - apply shape_set; auto. split; [rewrite set_nth_length; auto|]. intros j0 x0 H. apply nth_set in H as [(-> & ->)|(_ & H)]; eauto.
    assert (Ne : row' <> []) by (intros E; rewrite E in Lr; cbn [length] in Lr; lia). pose proof (badMax_l row' Ne). lia.
  - rewrite <- (set_same (means M) (Z.to_nat w) mean Em) at 1. apply shape_set; auto.
Qed.

Lemma mean_len k M w : shape cap m k M -> 0 <= w < Z.of_nat k -> length (meanAt (means M) w) = m.
Proof.
  intros [S1 S2 S3 S4] Hw. destruct (nth_error (means M) (Z.to_nat w)) as [mean|] eqn:Em; [|apply nth_error_None in Em; lia].
  rewrite (meanAt_nth _ _ _ Em) by lia. apply (S2 _ _ Em).
Qed.
Lemma kModeInsert_l k M w v : shape cap m k M -> 0 <= w < Z.of_nat k -> fits v -> exists M', kModeInsert w v M = Ok M' /\ shape cap m k M'.
Proof.
  intros Sh Hw Fv. unfold kModeInsert. rewrite (mean_len k M w Sh Hw). apply (foldr_app_ok _ (shape cap m k)); auto.
  intros M' j S' Hj. apply in_seq in Hj. apply insertColumn_l; auto. lia.
Qed.
Lemma kModeRemove_l k M w v : shape cap m k M -> 0 <= w < Z.of_nat k -> fits v -> exists M', kModeRemove w v M = Ok M' /\ shape cap m k M'.
Proof.
  intros Sh Hw Fv. unfold kModeRemove. rewrite (mean_len k M w Sh Hw). apply (foldr_app_ok _ (shape cap m k)); auto.
  intros M' j S' Hj. apply in_seq in Hj. apply removeColumn_l; auto. lia.
Qed.
End Shape.

Lemma draw_safe fuel : forall c seen n, (0 < n)%nat -> (forall c, rnd c n < n)%nat ->
  draw rnd fuel c seen n = Fuel \/ exists r c', draw rnd fuel c seen n = Ok (r, c') /\ (r < n)%nat /\ ~ In r seen.
Proof.
  induction fuel as [|f IH]; intros c seen n Hn Hr; cbn [draw]; auto.
  destruct (Nat.eqb_spec n 0); [lia|]. destruct (memn (rnd c n) seen) eqn:E; [apply IH; auto|].
  right. eexists _, _. split; [reflexivity|]. split; auto. apply memn_false in E. auto.
Qed.

(** The largest entry of column [j], plus one. *)
Definition capOf (data : list (list Z)) (j : nat) : Z :=
  fold_left (fun mx row => if nth j row 0 >? mx then nth j row 0 else mx) data (-1) + 1.

Lemma fold_max data j : forall mx, mx <= fold_left (fun mx row => if nth j row 0 >? mx then nth j row 0 else mx) data mx /\
  forall row, In row data -> nth j row 0 <= fold_left (fun mx row => if nth j row 0 >? mx then nth j row 0 else mx) data mx.
Proof.
  induction data as [|r data IH]; intros mx; cbn [fold_left]; [split; [lia|intros ? []]|].
  destruct (IH (if nth j r 0 >? mx then nth j r 0 else mx)) as [H1 H2]. destruct (Z.gtb_spec (nth j r 0) mx).
  - split; [lia|]. intros row [<-|H']; auto.
  - split; [lia|]. intros row [<-|H']; auto. lia.
Qed.

Lemma zeroCounts_l data m j : rectangular m data -> (j < m)%nat ->
  zeroCounts data j = Ok (repeat 0 (Z.to_nat (capOf data j))).
Proof.
  intros Hd Hj. unfold zeroCounts, capOf.
  assert (G : forall l mx, (forall r, In r l -> In r data) ->
    foldr_ (fun mx row => x <- idx row j; Ok (if x >? mx then x else mx)) l mx =
    Ok (fold_left (fun mx row => if nth j row 0 >? mx then nth j row 0 else mx) l mx)).
  { induction l as [|r l IH]; intros mx Hl; cbn [foldr_ fold_left]; auto.
    destruct (idx_ok r j) as (x & E & Ex); [destruct (Hd r (Hl r (or_introl eq_refl))) as [-> _]; auto|].
    rewrite E. cbn [bind]. rewrite (nth_error_nth _ _ 0 Ex). apply IH. intros; apply Hl; right; auto. }
  rewrite G by auto. reflexivity.
Qed.

Lemma rect_fits data m row : rectangular m data -> In row data -> fits (capOf data) m row.
Proof.
  intros Hd Hr. destruct (Hd row Hr) as [L P]. split; auto. intros j x Hx. split; [apply P; eapply nth_error_In; eauto|].
  unfold capOf. destruct (fold_max data j (-1)) as [_ H]. specialize (H row Hr). rewrite (nth_error_nth _ _ 0 Hx) in H. lia.
Qed.

Lemma mapi_ok {T U} (f : nat -> T -> res U) (g : nat -> U) l : forall i, (forall j c, nth_error l j = Some c -> f (i + j)%nat c = Ok (g (i + j)%nat)) ->
  mapi_from i f l = Ok (map g (seq i (length l))).
Proof.
  induction l as [|x l IH]; intros i H; cbn [mapi_from length seq map]; auto.
  pose proof (H 0%nat x eq_refl) as H0. rewrite Nat.add_0_r in H0. rewrite H0. cbn [bind]. rewrite (IH (S i)); auto.
  intros j c Hj. specialize (H (S j) c Hj). replace (i + S j)%nat with (S i + j)%nat in H by lia. auto.
Qed.

Lemma nth_snoc {T} (l : list T) x i y : nth_error (l ++ [x]) i = Some y -> nth_error l i = Some y \/ (i = length l /\ y = x).
Proof.
  intros H. destruct (Nat.lt_trichotomy i (length l)) as [L|[L|L]].
  - rewrite nth_error_app1 in H by auto. auto.
  - subst. rewrite nth_error_app2, Nat.sub_diag in H by auto. injection H as <-. auto.
  - assert (i < length (l ++ [x]))%nat by (apply nth_error_Some; congruence). rewrite app_length in *. simpl in *. lia.
Qed.

Lemma kMode_safe_l fuel k m data : rectangular m data -> data <> [] -> (0 < k)%nat -> (forall c, rnd c (length data) < length data)%nat ->
  kMode rnd fuel k data <> Panic.
Proof.
  intros Hd Hne Hk Hr. assert (Hn : (0 < length data)%nat) by (destruct data; [congruence|simpl; lia]).
  unfold kMode. set (f := forgy rnd fuel data).
  assert (G : forall l0 l st, seq 0 k = l0 ++ l ->
    (let '(_, _, chk, M) := st in shape (capOf data) m (length l0) M /\ in_range k chk) ->
    foldr_ f l st = Fuel \/ exists st', foldr_ f l st = Ok st' /\ let '(_, _, chk, M) := st' in shape (capOf data) m k M /\ in_range k chk).
  { intros l0 l. revert l0. induction l as [|i l IH]; intros l0 (((c, seen), chk), M) Hl HQ; cbn [foldr_].
    - right. eexists. split; [reflexivity|]. rewrite app_nil_r in Hl. cbn zeta in *. rewrite <- Hl in HQ. rewrite seq_length in HQ. auto.
    - destruct HQ as [Sh Ir].
      assert (Ei : i = length l0).
      { assert (Hi : nth_error (seq 0 k) (length l0) = Some i) by (rewrite Hl, nth_error_app2, Nat.sub_diag; auto).
        assert (length l0 < k)%nat by (rewrite <- (seq_length k 0), Hl, app_length; simpl; lia).
        rewrite (nth_error_nth' _ 0%nat), seq_nth in Hi by (rewrite ?seq_length; auto). injection Hi as <-. auto. }
      assert (Lk : (length l0 < k)%nat) by (rewrite <- (seq_length k 0), Hl, app_length; simpl; lia).
      assert (St : f (c, seen, chk, M) i = Fuel \/ exists st', f (c, seen, chk, M) i = Ok st' /\
        let '(_, _, chk, M) := st' in shape (capOf data) m (length (l0 ++ [i])) M /\ in_range k chk).
      { unfold f, forgy. destruct (draw_safe fuel c seen (length data) Hn Hr) as [->|(r & c' & -> & Hrn & _)]; [auto|]. cbn [bind fst snd].
        destruct (idx_ok data r Hrn) as (row & -> & Er). cbn [bind].
        pose proof (nth_error_In _ _ Er) as Hin. destruct (Hd row Hin) as [Lr _]. pose proof (rect_fits data m row Hd Hin) as Fr.
        unfold mapi. rewrite (mapi_ok _ (fun j => repeat 0 (Z.to_nat (capOf data j))) row 0%nat).
        2: { intros j x Hx. apply (zeroCounts_l data m); auto. rewrite <- Lr. simpl. apply nth_error_Some. congruence. }
        cbn [bind]. rewrite Lr.
        destruct (kModeInsert_l (capOf data) m (S (length l0)) (mkModes (means M ++ [row]) (counts M ++ [map (fun j => repeat 0 (Z.to_nat (capOf data j))) (seq 0 m)]))
          (Z.of_nat i) row) as (M' & -> & Sh'); auto; [|lia|].
        - destruct Sh as [S1 S2 S3 S4]. constructor; cbn [means counts]; try (rewrite app_length; simpl; lia).
          + intros c0 mean H. apply nth_snoc in H as [H|(_ & ->)]; eauto.
          + intros c0 cl H. apply nth_snoc in H as [H|(_ & ->)]; eauto. rewrite map_length, seq_length. split; auto.
            intros j rw H. assert (Hj : (j < m)%nat) by (rewrite <- (seq_length m 0), <- (map_length (fun j => repeat 0 (Z.to_nat (capOf data j)))); apply nth_error_Some; congruence).
            erewrite map_nth_error in H; [|rewrite (nth_error_nth' _ 0%nat), seq_nth by (rewrite ?seq_length; auto); reflexivity].
            injection H as <-. rewrite repeat_length. simpl. destruct (fold_max data j (-1)) as [H1 _]. unfold capOf. lia.
        - right. cbn [bind]. eexists. split; [reflexivity|]. cbn zeta. split; [rewrite app_length; simpl; rewrite Nat.add_1_r; auto|].
          intros j v Hj. destruct (Nat.eq_dec j r) as [->|Hjr]; [rewrite upd_same in Hj; injection Hj as <-; lia|]. rewrite upd_diff in Hj by auto. eauto. }
      destruct St as [->|(st' & -> & HQ')]; [auto|]. cbn [bind]. apply (IH (l0 ++ [i])); auto. rewrite <- app_assoc. auto. }
  destruct (G [] (seq 0 k) (0%nat, [], fun _ => None, mkModes [] [])) as [->|((((c, seen), chk), M) & -> & Sh & Ir)]; auto.
  - cbn. split; [|intros ? ? E; discriminate]. constructor; cbn [means counts length]; auto; intros [|?] ? E; discriminate.
  - cbn [bind]; discriminate.
  - cbn [bind].
    set (dist := fun M j row => hamming (meanAt (means M) j) row). set (ins := fun w v (_ : nat) => kModeInsert w v). set (rem := fun w v (_ : nat) => kModeRemove w v).
    assert (CT : converge dist ins rem k data fuel 0 0 chk M = Fuel \/
      exists chk' st', converge dist ins rem k data fuel 0 0 chk M = Ok (chk', st') /\ in_range k chk').
    { apply (converge_total dist ins rem k data (shape (capOf data) m k)); auto.
      - intros st c0 row Sh0 Hc Hrow. unfold dist. destruct (hamming_total (meanAt (means st) c0) row) as (d & -> & Ld).
        + rewrite (mean_len _ _ _ _ _ Sh0 Hc). destruct (Hd row Hrow) as [-> _]. auto.
        + exists d. split; auto. rewrite (mean_len _ _ _ _ _ Sh0 Hc) in Ld. destruct (Hd row Hrow) as [-> _]. auto.
      - intros st c0 row i Sh0 Hc Hi. apply kModeInsert_l; auto. apply rect_fits; auto. eapply nth_error_In; eauto.
      - intros st c0 row i Sh0 Hc Hi. apply kModeRemove_l; auto. apply rect_fits; auto. eapply nth_error_In; eauto. }
    destruct CT as [->|(chk' & M' & E & Ir')]; [discriminate|]. rewrite E. cbn [bind fst].
    destruct (collect_total k data chk') as (C & ->); [|discriminate].
    intros i Hi. unfold assigned. destruct (chk' i) as [v|] eqn:Ev; [apply (Ir' i v Ev)|]. exfalso.
    eapply (converge_assigns dist ins rem k data fuel 0 0 chk M chk' M'); eauto. intros j Hj; exfalso; eapply recent0; eauto.
Qed.

(** More clusters than rows: no new row ever comes up. *)
Lemma draw_stuck : forall fuel c seen n, (0 < n)%nat -> (forall c, rnd c n < n)%nat -> (forall i, (i < n)%nat -> In i seen) -> draw rnd fuel c seen n = Fuel.
Proof.
  induction fuel as [|f IH]; intros c seen n Hn Hr Hs; cbn [draw]; auto. destruct (Nat.eqb_spec n 0); [lia|].
  destruct (memn (rnd c n) seen) eqn:E; auto. apply memn_false in E. exfalso. apply E, Hs, Hr.
Qed.
End Modes.
