From Coq Require Import Permutation SpecFloat Sorting.Sorted.
From Verif Require Import Base Res GoMap DataSpec DataLemmas Tables TablesSpec.

Lemma insertInt_perm x l : Permutation (insertInt x l) (x :: l).
Proof.
  induction l as [|y l IH]; simpl; auto. destruct (Nat.leb x y); auto. rewrite IH. apply perm_swap.
Qed.
Lemma sortInts_perm l : Permutation (sortInts l) l.
Proof. induction l as [|x l IH]; simpl; auto. rewrite insertInt_perm, IH. auto. Qed.
Lemma insertInt_sorted x l : StronglySorted le l -> StronglySorted le (insertInt x l).
Proof.
  induction 1 as [|y l Hs IH Hf]; simpl; [repeat constructor|]. destruct (Nat.leb_spec x y).
  - constructor; [constructor; auto|]. constructor; auto. eapply Forall_impl; [|apply Hf]. simpl. intros; lia.
  - constructor; auto. apply (Permutation_Forall (Permutation_sym (insertInt_perm x l))). constructor; auto. lia.
Qed.
Lemma sortInts_sorted l : StronglySorted le (sortInts l).
Proof. induction l; simpl; [constructor|]. apply insertInt_sorted; auto. Qed.

Lemma sorted_strict l : StronglySorted le l -> NoDup l -> StronglySorted lt l.
Proof.
  induction 1 as [|y l Hs IH Hf]; intros Hn; constructor; inversion Hn as [|? ? Hy Hn']; subst; auto.
  rewrite Forall_forall in *. intros z Hz. specialize (Hf z Hz). assert (y <> z) by congruence. lia.
Qed.

Definition keep {T} (b : nat) (l : list T) (ds : list nat) : list T :=
  map snd (filter (fun p => negb (memn (fst p) ds)) (combine (seq b (length l)) l)).

Lemma keep_cons {T} b (x : T) l ds : keep b (x :: l) ds = if memn b ds then keep (S b) l ds else x :: keep (S b) l ds.
Proof. unfold keep. cbn [length seq combine filter fst]. destruct (memn b ds); reflexivity. Qed.
Lemma keep_app {T} ds (l1 l2 : list T) : forall b, keep b (l1 ++ l2) ds = keep b l1 ds ++ keep (b + length l1) l2 ds.
Proof.
  induction l1 as [|x l1 IH]; intros b; cbn [app].
  - rewrite Nat.add_0_r. auto.
  - rewrite !keep_cons, IH. cbn [length]. replace (b + S (length l1)) with (S b + length l1) by lia.
    destruct (memn b ds); auto.
Qed.
Lemma keep_ext {T} (l : list T) ds ds' : forall b, (forall i, b <= i < b + length l -> memn i ds = memn i ds') -> keep b l ds = keep b l ds'.
Proof.
  induction l as [|x l IH]; intros b H; auto. rewrite !keep_cons.
  rewrite <- (H b) by (simpl; lia). rewrite <- (IH (S b)); auto.
  intros i Hi. apply H. simpl. lia.
Qed.
Lemma keep_nil {T} (l : list T) : forall b, keep b l [] = l.
Proof. induction l as [|x l IH]; intros b; unfold keep in *; cbn; auto. f_equal. apply IH. Qed.
Lemma keep_all {T} (l : list T) ds b : (forall i, b <= i < b + length l -> memn i ds = false) -> keep b l ds = l.
Proof. intros H. rewrite (keep_ext l ds []) by auto. apply keep_nil. Qed.

Lemma keep_nth {T} (f : nat -> T) ds (l : list T) : forall b,
  (forall i x, nth_error l i = Some x -> memn (b + i) ds = false -> f (b + i) = x) ->
  keep b l ds = map f (filter (fun i => negb (memn i ds)) (seq b (length l))).
Proof.
  induction l as [|x l IH]; intros b H; auto. rewrite keep_cons. cbn [length seq filter].
  rewrite (IH (S b)).
  2:{ intros i y Hi. replace (S b + i) with (b + S i) by lia. apply H; auto. }
  destruct (memn b ds) eqn:E; cbn [negb map]; auto.
  specialize (H 0 x eq_refl). rewrite Nat.add_0_r in H. rewrite H; auto.
Qed.

Lemma discard_l : forall ds i (pre rest : list (option gmap)) b, StronglySorted lt ds -> b = length pre + i ->
  (forall d, In d ds -> b <= d < b + length rest) ->
  foldi_from i (fun i fd d => if Nat.ltb d i then Panic else if Nat.ltb (d - i) (length fd) then Ok (firstn (d - i) fd ++ skipn (d - i + 1) fd) else Panic)
    ds (pre ++ rest) = Ok (pre ++ keep b rest ds).
Proof.
  induction ds as [|d ds IH]; intros i pre rest b Hs Hb Hin.
  - cbn [foldi_from]. rewrite keep_nil. auto.
  - cbn [foldi_from]. destruct (Hin d (or_introl eq_refl)) as (H1 & H2).
    destruct (Nat.ltb_spec d i); [lia|]. rewrite app_length. destruct (Nat.ltb_spec (d - i) (length pre + length rest)); [|lia].
    cbn [bind]. inversion Hs as [|? ? Hs' Hf]; subst. rewrite Forall_forall in Hf.
    destruct (nth_error rest (d - (length pre + i))) as [x|] eqn:Ex; [|apply nth_error_None in Ex; lia].
    apply nth_error_split in Ex as (r1 & r2 & -> & Hr1).
    replace (firstn (d - i) (pre ++ r1 ++ x :: r2)) with (pre ++ r1).
    2:{ rewrite app_assoc. replace (d - i) with (length (pre ++ r1) + 0) by (rewrite app_length; lia).
        rewrite firstn_app_2. simpl. rewrite app_nil_r. auto. }
    replace (skipn (d - i + 1) (pre ++ r1 ++ x :: r2)) with r2.
    2:{ rewrite app_assoc. rewrite skipn_app. rewrite skipn_all2 by (rewrite app_length; lia).
        replace (d - i + 1 - length (pre ++ r1)) with 1 by (rewrite app_length; lia). reflexivity. }
    rewrite Nat.add_1_r. rewrite app_length in H2. simpl in H2.
    rewrite (IH (S i) (pre ++ r1) r2 (S d)); auto.
    + rewrite <- app_assoc. f_equal. f_equal. rewrite keep_app. f_equal.
      * symmetry. apply keep_all. intros j Hj. apply memn_false. intros [<-|Hd]; [lia|]. specialize (Hf _ Hd). lia.
      * replace (length pre + i + length r1) with d by lia. change (x :: r2) with ([x] ++ r2). rewrite keep_app.
        replace (keep d [x] (d :: ds)) with (@nil (option gmap)).
        2:{ unfold keep. cbn. rewrite Nat.eqb_refl. reflexivity. }
        cbn [app length]. rewrite Nat.add_1_r. apply keep_ext. intros j Hj. cbn [memn]. unfold memn. cbn [existsb].
        destruct (Nat.eqb_spec j d); [lia|]. auto.
    + rewrite app_length. lia.
    + intros d' Hd'. specialize (Hf d' Hd'). destruct (Hin d' (or_intror Hd')) as (_ & H4). rewrite app_length in H4. simpl in H4. lia.
Qed.

Section R.
Variable rnd : nat -> nat -> nat.

Lemma pick_l : forall fuel c fd l row c', pick rnd fuel c fd = Ok (l, row, c') -> nth_error fd l = Some (Some row).
Proof.
  induction fuel as [|f IH]; intros c fd l row c'; cbn [pick]; [discriminate|].
  destruct (Nat.eqb (length fd) 0); [discriminate|]. unfold idx. destruct (nth_error fd (rnd c (length fd))) as [[r|]|] eqn:E; cbn [orPanic bind].
  - intros H. injection H as <- <- <-. auto.
  - apply IH.
  - discriminate.
Qed.

Lemma mark_l fuel : forall m c fd fd' tr, mark rnd fuel m c fd = Ok (fd', tr) ->
  length tr = m /\ NoDup (map fst tr) /\ (forall l row, In (l, row) tr -> nth_error fd l = Some (Some row)) /\
  length fd' = length fd /\ (forall i, memn i (map fst tr) = false -> nth_error fd' i = nth_error fd i).
Proof.
  induction m as [|m IH]; intros c fd fd' tr; cbn [mark].
  - intros H. injection H as <- <-. simpl. split; auto. split; [constructor|]. split; [tauto|]. auto.
  - destruct (pick rnd fuel c fd) as [[[l row] c']| |] eqn:Ep; cbn [bind fst snd]; try discriminate.
    destruct (mark rnd fuel m c' (set_nth l None fd)) as [[fd1 tr1]| |] eqn:Em; cbn [bind fst snd]; try discriminate.
    intros H. injection H as <- <-. apply pick_l in Ep. assert (Hl : l < length fd) by (apply nth_error_Some; congruence).
    destruct (IH _ _ _ _ Em) as (H1 & H2 & H3 & H4 & H5). rewrite set_nth_length in H4.
    assert (H3' : forall l' row', In (l', row') tr1 -> l' <> l /\ nth_error fd l' = Some (Some row')).
    { intros l' row' Hin. specialize (H3 _ _ Hin). destruct (Nat.eq_dec l' l) as [->|Hne].
      - rewrite nth_error_set_nth_same in H3 by auto. discriminate.
      - rewrite nth_error_set_nth_diff in H3 by auto. auto. }
    cbn [length map fst]. split; [lia|]. split.
    { constructor; auto. intros Hin. apply in_map_iff in Hin as ([l' row'] & E & Hin). simpl in E. subst l'.
      destruct (H3' _ _ Hin) as [E _]. auto. }
    split. { intros l' row' [E|Hin]; [injection E as <- <-; auto|]. apply H3'; auto. }
    split; auto. intros i Hi. unfold memn in Hi. cbn [existsb] in Hi. apply orb_false_iff in Hi as (Hi1 & Hi2).
    rewrite H5 by auto. apply nth_error_set_nth_diff. apply Nat.eqb_neq in Hi1. auto.
Qed.

Lemma partition_ok_l fuel rows m nv train test lbls :
  partition rnd fuel rows m nv = Ok (train, test, lbls) ->
  exists drawn, NoDup drawn /\ length drawn = m /\ (forall i, In i drawn -> i < length rows) /\
    train = map (nth_error rows) (remaining (length rows) drawn) /\
    Forall2 (fun i t => exists row, nth_error rows i = Some row /\ without (Z.of_nat nv - 1) row t) drawn test /\
    Forall2 (fun i l => exists row, nth_error rows i = Some row /\ get0 row (Z.of_nat nv - 1) = l) drawn lbls.
Proof.
  unfold partition. destruct (mark rnd fuel m 0 (map Some rows)) as [[fd tr]| |] eqn:Em; cbn [bind fst snd]; try discriminate.
  destruct (discard (sortInts (map fst tr)) fd) as [tn| |] eqn:Ed; cbn [bind]; try discriminate.
  intros H. injection H as <- <- <-. destruct (mark_l _ _ _ _ _ _ Em) as (H1 & H2 & H3 & H4 & H5).
  rewrite map_length in H4. exists (map fst tr). rewrite map_length.
  assert (HR : forall l row, In (l, row) tr -> nth_error rows l = Some row).
  { intros l row Hin. specialize (H3 _ _ Hin). rewrite nth_error_map in H3. destruct (nth_error rows l); simpl in H3; congruence. }
  assert (HL : forall i, In i (map fst tr) -> i < length rows).
  { intros i Hi. apply in_map_iff in Hi as ([l row] & <- & Hin). simpl. apply nth_error_Some. rewrite (HR _ _ Hin). discriminate. }
  split; auto. split; auto. split; auto. split; [|split].
  - unfold discard, foldi in Ed. change fd with ([] ++ fd) in Ed. rewrite (discard_l _ _ _ _ 0) in Ed; auto.
    + injection Ed as <-. rewrite (keep_ext fd _ (map fst tr)).
      * unfold remaining. rewrite <- H4. apply keep_nth. intros i x Hx Hm. simpl in *. rewrite H5 in Hx by auto.
        rewrite nth_error_map in Hx. destruct (nth_error rows i); simpl in Hx; congruence.
      * intros i _. destruct (memn i (map fst tr)) eqn:E.
        -- apply memn_In. apply memn_In in E. eapply Permutation_in; [symmetry; apply sortInts_perm|auto].
        -- apply memn_false. apply memn_false in E. intros Hi. apply E. eapply Permutation_in; [apply sortInts_perm|auto].
    + apply sorted_strict; [apply sortInts_sorted|]. eapply Permutation_NoDup; [symmetry; apply sortInts_perm|auto].
    + intros d Hd. assert (In d (map fst tr)) by (eapply Permutation_in; [apply sortInts_perm|auto]). specialize (HL d H). lia.
  - clear -HR. induction tr as [|[l row] tr IH]; cbn [map fst snd]; constructor.
    + exists row. split; [apply HR; left; auto|]. intros j. rewrite get_del. rewrite Z.eqb_sym. auto.
    + apply IH. intros; apply HR; right; auto.
  - clear -HR. induction tr as [|[l row] tr IH]; cbn [map fst snd]; constructor.
    + exists row. split; [apply HR; left; auto|]. auto.
    + apply IH. intros; apply HR; right; auto.
Qed.

Lemma partition_toomany_l fuel rows m nv : length rows < m -> forall r, partition rnd fuel rows m nv <> Ok r.
Proof.
  intros Hm [[train test] lbls] E. destruct (partition_ok_l _ _ _ _ _ _ _ E) as (dr & H1 & H2 & H3 & _).
  assert (length dr <= length (seq 0 (length rows))).
  { apply NoDup_incl_length; auto. intros i Hi. apply in_seq. specialize (H3 i Hi). lia. }
  rewrite seq_length in H. lia.
Qed.

(** Termination. *)
Lemma pick_mono : forall f f' c fd r, pick rnd f c fd = Ok r -> f <= f' -> pick rnd f' c fd = Ok r.
Proof.
  induction f as [|f IH]; intros f' c fd r; cbn [pick]; [discriminate|]. destruct f' as [|f']; [lia|]. cbn [pick].
  destruct (Nat.eqb (length fd) 0); auto. destruct (idx fd (rnd c (length fd))) as [[x|]| |]; cbn [bind]; auto.
  intros H Hle. apply IH; auto. lia.
Qed.
Lemma mark_mono f f' : f <= f' -> forall m c fd r, mark rnd f m c fd = Ok r -> mark rnd f' m c fd = Ok r.
Proof.
  intros Hle. induction m as [|m IH]; intros c fd r; cbn [mark]; auto.
  destruct (pick rnd f c fd) as [p| |] eqn:E; cbn [bind]; try discriminate. rewrite (pick_mono _ _ _ _ _ E Hle). cbn [bind].
  destruct (mark rnd f m (snd p) (set_nth (fst (fst p)) None fd)) as [q| |] eqn:E2; cbn [bind]; try discriminate.
  rewrite (IH _ _ _ E2). auto.
Qed.

Lemma pick_total n : fair rnd n -> forall fd, length fd = n -> (exists l row, nth_error fd l = Some (Some row)) ->
  forall c, exists f r, pick rnd f c fd = Ok r.
Proof.
  intros (Hlt & Hf) fd Hn (l & row & Hl) c.
  assert (Hln : l < n) by (rewrite <- Hn; apply nth_error_Some; congruence).
  destruct (Hf c l Hln) as (c' & Hc & Hr). remember (c' - c) as d eqn:Ed. revert c Hc Ed. induction d as [|d IH]; intros c Hc Ed.
  - assert (c' = c) by lia. subst c'. exists 1. eexists. cbn [pick]. rewrite Hn. destruct (Nat.eqb_spec n 0); [lia|].
    rewrite Hr. unfold idx. rewrite Hl. cbn [orPanic bind]. reflexivity.
  - destruct (IH (S c)) as (f & r & E); [lia|lia|]. exists (S f).
    cbn [pick]. rewrite Hn. destruct (Nat.eqb_spec n 0); [lia|]. unfold idx. specialize (Hlt c).
    destruct (nth_error fd (rnd c n)) as [[x|]|] eqn:Ex; cbn [orPanic bind]; eauto.
    apply nth_error_None in Ex. lia.
Qed.

Definition left_ (fd : list (option gmap)) : nat := length (filter (fun o => match o with Some _ => true | None => false end) fd).
Lemma left_cons o fd : left_ (o :: fd) = match o with Some _ => S (left_ fd) | None => left_ fd end.
Proof. destruct o; reflexivity. Qed.
Lemma left_set fd l row : nth_error fd l = Some (Some row) -> left_ fd = S (left_ (set_nth l None fd)).
Proof.
  revert l. induction fd as [|o fd IH]; intros [|l]; cbn [nth_error set_nth]; try discriminate.
  - intros E. injection E as ->. reflexivity.
  - intros E. specialize (IH _ E). rewrite !left_cons. destruct o; lia.
Qed.
Lemma left_some fd : 0 < left_ fd -> exists l row, nth_error fd l = Some (Some row).
Proof.
  induction fd as [|[row|] fd IH]; [cbn; lia| |]; rewrite left_cons.
  - intros _. exists 0, row. auto.
  - intros H. destruct (IH H) as (l & row & E). exists (S l), row. auto.
Qed.

Lemma mark_total n : fair rnd n -> forall m c fd, length fd = n -> m <= left_ fd -> exists f r, mark rnd f m c fd = Ok r.
Proof.
  intros Hf. induction m as [|m IH]; intros c fd Hn Hm.
  - exists 0. eexists. reflexivity.
  - destruct (pick_total n Hf fd Hn (left_some fd ltac:(lia)) c) as (f & [[l row] c'] & Ep).
    pose proof (left_set fd l row (pick_l _ _ _ _ _ _ Ep)) as Hleft.
    destruct (IH c' (set_nth l None fd)) as (f' & r & E).
    { rewrite set_nth_length; auto. } { lia. }
    exists (Nat.max f f'). cbn [mark]. rewrite (pick_mono f _ _ _ _ Ep) by lia. cbn [bind fst snd].
    rewrite (mark_mono f' _ (Nat.le_max_r f f') _ _ _ _ E). cbn [bind]. eauto.
Qed.

Lemma partition_total_l rows m nv : fair rnd (length rows) -> m <= length rows -> exists fuel r, partition rnd fuel rows m nv = Ok r.
Proof.
  intros Hf Hm. destruct (mark_total (length rows) Hf m 0 (map Some rows)) as (f & [fd tr] & E).
  { apply map_length. } { replace (left_ (map Some rows)) with (length rows); auto. clear. unfold left_. induction rows; simpl; auto. }
  exists f. unfold partition. rewrite E. cbn [bind fst snd]. destruct (mark_l _ _ _ _ _ _ E) as (H1 & H2 & H3 & H4 & H5).
  rewrite map_length in H4.
  unfold discard, foldi. change fd with ([] ++ fd). rewrite (discard_l _ _ _ _ 0); auto.
  - cbn [bind]. eauto.
  - apply sorted_strict; [apply sortInts_sorted|]. eapply Permutation_NoDup; [symmetry; apply sortInts_perm|auto].
  - intros d Hd. assert (Hi : In d (map fst tr)) by (eapply Permutation_in; [apply sortInts_perm|auto]).
    apply in_map_iff in Hi as ([l row] & <- & Hin). simpl. specialize (H3 _ _ Hin). assert (l < length (map Some rows)) by (apply nth_error_Some; congruence).
    rewrite map_length in H. lia.
Qed.
End R.

Definition nine_tenths : spec_float := S754_finite false 8106479329266893 (-53).
Lemma size_refuted_l : exists p n, nearest p 9 10 /\ n = 10%nat /\ testSize p n = 0%Z.
Proof.
  exists nine_tenths, 10. split; [|split; reflexivity].
  exists 8106479329266893%positive, (-53)%Z. split; [reflexivity|]. split; [reflexivity|]. split; [split|]; vm_compute; [discriminate|reflexivity|discriminate].
Qed.
