(** KMedoid ends: no medoid ever leaves its cluster, and the total distance to the medoids falls
    with every move. *)
From Coq Require Import Permutation.
From Verif Require Import Base Res Cluster ClusterSpec ClusterLemmas ClusterModes ClusterMedoids WalkLemmas.
Local Open Scope Z_scope.

Definition diffZ (p q : list Z) : Z := Z.of_nat (differences p q).
Lemma differences_self p : differences p p = 0%nat.
Proof. unfold differences. induction p as [|x p IH]; simpl; auto. rewrite Z.eqb_refl. auto. Qed.
Lemma differences_le p q : (differences p q <= length p)%nat.
Proof.
  unfold differences. revert q. induction p as [|x p IH]; intros [|y q]; simpl; try lia. destruct (x =? y); simpl; specialize (IH q); lia.
Qed.
Lemma hamming_ok p q : (length p <= length q)%nat -> hamming p q = Ok (diffZ p q).
Proof. intros L. destruct (hamming_total p q L) as (d & E & _). rewrite E. f_equal. apply hamming_l; auto. Qed.

Definition sumZ (l : list Z) : Z := fold_right Z.add 0 l.
Lemma sumZ_app l l' : sumZ (l ++ l') = sumZ l + sumZ l'.
Proof. unfold sumZ. induction l; simpl; lia. Qed.
Lemma sumZ_perm l l' : Permutation l l' -> sumZ l = sumZ l'.
Proof. unfold sumZ. induction 1; simpl; lia. Qed.
Lemma sumZ_set l : forall i x y, nth_error l i = Some x -> sumZ (set_nth i y l) = sumZ l - x + y.
Proof.
  unfold sumZ. induction l as [|z l IH]; intros [|i] x y E; simpl in *; try discriminate; [injection E as ->; lia|].
  rewrite (IH i x y E). lia.
Qed.
Lemma combine_set {T U} (l : list T) (l' : list U) : forall i x y, combine (set_nth i x l) (set_nth i y l') = set_nth i (x, y) (combine l l').
Proof. revert l'. induction l as [|a l IH]; intros [|b l'] [|i] x y; simpl; auto; try (destruct l; auto); f_equal; auto. Qed.
Lemma map_set {T U} (f : T -> U) l : forall i x, map f (set_nth i x l) = set_nth i (f x) (map f l).
Proof. induction l as [|a l IH]; intros [|i] x; simpl; auto. f_equal. auto. Qed.

Lemma rget_in cl r row : NoDup (map fst cl) -> In (r, row) cl -> rget cl r = row.
Proof.
  unfold rget. induction cl as [|[a b] cl IH]; intros N H; [destruct H|]. simpl in N. apply NoDup_cons_iff in N as (Na & N). simpl.
  destruct (Nat.eqb_spec a r) as [->|Hn].
  - destruct H as [E|H]; [injection E as ->; auto|]. exfalso. apply Na. apply in_map_iff. exists (r, row). auto.
  - destruct H as [E|H]; [injection E as -> ->; congruence|auto].
Qed.

Section End_.
Variable ord : rowmap -> rowmap.
Variable data : list (list Z).
Variable m : nat.
Hypothesis perm : forall cl, Permutation (ord cl) cl.
Hypothesis Hd : forall row, In row data -> length row = m.

Definition gap : Z := Z.of_nat m + 1.
Definition ccost (cl : rowmap) (med : list Z) : Z := sumZ (map (fun e => diffZ med (snd e) - gap) cl).
Definition pcost (p : rowmap * nat) : Z := ccost (fst p) (rget (fst p) (snd p)).
Definition total (M : medoids) : Z := sumZ (map pcost (combine (mclusters M) (mmeans M))).

Record tidy (k' : nat) (M : medoids) (chk : assignment) : Prop := {
  t_good : goodM m k' M;
  t_nodup : forall c cl, nth_error (mclusters M) c = Some cl -> NoDup (map fst cl);
  t_mem : forall c cl, nth_error (mclusters M) c = Some cl -> forall i row, In (i, row) cl <-> chk i = Some (Z.of_nat c) /\ nth_error data i = Some row;
  t_med : forall c r, nth_error (mmeans M) c = Some r -> chk r = Some (Z.of_nat c);
  t_data : forall i v, chk i = Some v -> (i < length data)%nat /\ 0 <= v < Z.of_nat k' }.

Lemma tidy_ext k' M chk chk' : (forall i, chk i = chk' i) -> tidy k' M chk -> tidy k' M chk'.
Proof.
  intros H [T1 T2 T3 T4 T5]. constructor; auto.
  - intros c cl Hc i row. rewrite <- H. apply T3; auto.
  - intros c r Hc. rewrite <- H. auto.
  - intros i v. rewrite <- H. auto.
Qed.

(** The medoid of a cluster. *)
Lemma medoid_l k' M chk c : tidy k' M chk -> (c < k')%nat ->
  exists cl r row, nth_error (mclusters M) c = Some cl /\ nth_error (mmeans M) c = Some r /\ nth_error data r = Some row /\
    rget cl r = row /\ In (r, row) cl /\ chk r = Some (Z.of_nat c) /\ medoid M (Z.of_nat c) = Ok row.
Proof.
  intros [[G1 G2 G3] T2 T3 T4 T5] Hc. unfold medoid.
  destruct (idxZ_ok (mclusters M) (Z.of_nat c) ltac:(lia)) as (cl & -> & Ecl). destruct (idxZ_ok (mmeans M) (Z.of_nat c) ltac:(lia)) as (r & -> & Er).
  rewrite Nat2Z.id in *. pose proof (T4 c r Er) as Hr. destruct (T5 r _ Hr) as (Lr & _).
  destruct (nth_error data r) as [row|] eqn:Erow; [|apply nth_error_None in Erow; lia].
  assert (Hin : In (r, row) cl) by (apply (T3 c cl Ecl); auto). pose proof (rget_in cl r row (T2 c cl Ecl) Hin) as Hg.
  exists cl, r, row. cbn [bind]. rewrite Hg. repeat (split; auto).
Qed.

Lemma sums_l a b (l : rowmap) : (length a = m)%nat -> length b = m -> (forall e, In e l -> length (snd e) = m) -> forall s,
  foldr_ (fun (s : Z * Z) e => x <- hamming a (snd e); y <- hamming b (snd e); Ok (fst s + x, snd s + y)) l s =
  Ok (fst s + sumZ (map (fun e => diffZ a (snd e)) l), snd s + sumZ (map (fun e => diffZ b (snd e)) l)).
Proof.
  intros Ha Hb. induction l as [|e l IH]; intros Hl s; cbn [foldr_ map]; [unfold sumZ; simpl; rewrite !Z.add_0_r; destruct s; auto|].
  assert (Le : length (snd e) = m) by (apply Hl; left; auto).
  rewrite !hamming_ok by lia. cbn [bind]. rewrite IH by (intros; apply Hl; right; auto). cbn [fst snd]. unfold sumZ. simpl. f_equal. f_equal; lia.
Qed.

Lemma ccost_diff a (l : rowmap) : ccost l a = sumZ (map (fun e => diffZ a (snd e)) l) - Z.of_nat (length l) * gap.
Proof. unfold ccost, sumZ. induction l as [|e l IH]; simpl length; simpl map; simpl fold_right; [lia|]. rewrite Nat2Z.inj_succ. lia. Qed.

Lemma set_pair {T} (l : list T) w : forall x, nth_error l w = Some x -> set_nth w x l = l.
Proof. intros x. apply set_same. Qed.

Lemma combine_nth_error {T U} (l : list T) (l' : list U) i x y : nth_error l i = Some x -> nth_error l' i = Some y -> nth_error (combine l l') i = Some (x, y).
Proof. revert l' i. induction l as [|a l IH]; intros [|b l'] [|i] H H'; simpl in *; try discriminate; [congruence|auto]. Qed.

Lemma insert_tidy k' M chk i v (w : nat) : tidy k' M chk -> chk i = None -> nth_error data i = Some v -> (w < k')%nat ->
  exists M', kMedoidInsert ord (Z.of_nat w) v i M = Ok M' /\ tidy k' M' (upd chk i (Some (Z.of_nat w))) /\
    forall x, medoid M (Z.of_nat w) = Ok x -> total M' <= total M + diffZ x v - gap.
Proof.
  intros T Hi Hv Hw. destruct (medoid_l _ _ _ w T Hw) as (cl & r & row & Ecl & Er & Erow & Hg & Hin & Hr & Em).
  pose proof T as [[G1 G2 G3] T2 T3 T4 T5]. unfold kMedoidInsert.
  assert (Ic : idxZ (mclusters M) (Z.of_nat w) = Ok cl).
  { unfold idxZ, idx. destruct (Z.ltb_spec (Z.of_nat w) 0); [lia|]. rewrite Nat2Z.id, Ecl. auto. }
  assert (Im : idxZ (mmeans M) (Z.of_nat w) = Ok r).
  { unfold idxZ, idx. destruct (Z.ltb_spec (Z.of_nat w) 0); [lia|]. rewrite Nat2Z.id, Er. auto. }
  rewrite Ic, Im. cbn [bind].
  assert (Hput : rput cl i v = cl ++ [(i, v)]).
  { unfold rput. rewrite rdel_fresh; auto. intros [j x] He Hj. simpl in Hj. subst j. apply (T3 w cl Ecl) in He as (He & _). congruence. }
  rewrite Hput. set (cl' := cl ++ [(i, v)]).
  assert (Nd : NoDup (map fst cl')).
  { unfold cl'. rewrite map_app. simpl. rewrite <- Permutation_cons_append. constructor; [|eapply T2; eauto].
    intros H. apply in_map_iff in H as ([j x] & Ej & H). simpl in Ej. subst j. apply (T3 w cl Ecl) in H as (H & _). congruence. }
  assert (Hin' : In (r, row) cl') by (apply in_app_iff; auto).
  assert (Lv : length v = m) by (apply Hd; eapply nth_error_In; eauto).
  assert (Lrow : length row = m) by (apply Hd; eapply nth_error_In; eauto).
  assert (Lcl : forall e, In e cl' -> length (snd e) = m).
  { intros e He. apply in_app_iff in He as [He|[<-|[]]]; auto. apply (G3 cl); auto. eapply nth_error_In; eauto. }
  rewrite (rget_in cl' r row Nd Hin').
  rewrite (sums_l row v (ord cl') Lrow Lv); [|intros e He; apply Lcl; eapply Permutation_in; [apply perm|auto]]. cbn [bind fst snd].
  set (S1 := sumZ (map (fun e => diffZ row (snd e)) (ord cl'))). set (S2 := sumZ (map (fun e => diffZ v (snd e)) (ord cl'))).
  assert (P1 : S1 = sumZ (map (fun e => diffZ row (snd e)) cl')) by (apply sumZ_perm, Permutation_map, perm).
  assert (P2 : S2 = sumZ (map (fun e => diffZ v (snd e)) cl')) by (apply sumZ_perm, Permutation_map, perm).
  rewrite !Nat2Z.id. eexists. split; [reflexivity|].
  assert (Hlt : (0 + S2 <? 0 + S1) = (S2 <? S1)) by (simpl; auto). rewrite Hlt. clear Hlt.
  assert (Mn : (if S2 <? S1 then set_nth w i (mmeans M) else mmeans M) = set_nth w (if S2 <? S1 then i else r) (mmeans M)).
  { destruct (S2 <? S1); auto. symmetry. apply set_same. auto. }
  rewrite Mn. clear Mn. set (r' := if S2 <? S1 then i else r).
  split.
  - constructor; cbn [mclusters mmeans].
    + apply goodM_set; [constructor; auto|intros e He; auto|rewrite set_nth_length; auto].
    + intros c cl0 Hc. apply nth_set in Hc as [(-> & ->)|(_ & Hc)]; eauto.
    + intros c cl0 Hc j x. apply nth_set in Hc as [(-> & ->)|(Hcw & Hc)].
      * unfold cl'. rewrite in_app_iff, (T3 w cl Ecl). destruct (Nat.eq_dec j i) as [->|Hji].
        -- rewrite upd_same. split.
           ++ intros [(? & _)|[E|[]]]; [congruence|]. injection E as <-. auto.
           ++ intros (_ & E). right. left. congruence.
        -- rewrite upd_diff by auto. split; [intros [?|[E|[]]]; [auto|congruence]|auto].
      * rewrite (T3 c cl0 Hc). destruct (Nat.eq_dec j i) as [->|Hji]; [rewrite upd_same, Hi|rewrite upd_diff by auto; tauto].
        split; intros (E & _); [discriminate|]. injection E as E. lia.
    + intros c q Hc. apply nth_set in Hc as [(-> & ->)|(Hcw & Hc)].
      * unfold r'. destruct (S2 <? S1); [apply upd_same|]. rewrite upd_diff; auto. intros ->. congruence.
      * pose proof (T4 c q Hc). rewrite upd_diff; auto. intros ->. congruence.
    + intros j x Hj. destruct (Nat.eq_dec j i) as [->|Hji]; [rewrite upd_same in Hj; injection Hj as <-|rewrite upd_diff in Hj by auto; eauto].
      split; [apply nth_error_Some; congruence|lia].
  - intros x Ex. rewrite Em in Ex. injection Ex as <-. unfold total. cbn [mclusters mmeans]. rewrite combine_set, map_set.
    rewrite (sumZ_set _ w (pcost (cl, r))); [|apply map_nth_error, combine_nth_error; auto].
    unfold pcost at 2 3. cbn [fst snd]. rewrite Hg.
    assert (Eg : rget cl' r' = if S2 <? S1 then v else row).
    { unfold r'. destruct (S2 <? S1); apply rget_in; auto. apply in_app_iff. simpl. auto. }
    rewrite Eg. assert (C1 : ccost cl' row = ccost cl row + diffZ row v - gap).
    { unfold ccost, cl'. rewrite map_app, sumZ_app. unfold sumZ at 2. simpl. lia. }
    destruct (Z.ltb_spec S2 S1) as [Hlt|Hlt]; [|lia].
    rewrite !ccost_diff in *. lia.
Qed.

Lemma remove_tidy k' M chk i v (c r : nat) x : tidy k' M chk -> chk i = Some (Z.of_nat c) -> nth_error data i = Some v ->
  nth_error (mmeans M) c = Some r -> r <> i -> medoid M (Z.of_nat c) = Ok x ->
  exists M', kMedoidRemove ord (Z.of_nat c) v i M = Ok M' /\ tidy k' M' (upd chk i None) /\
    (forall j, (j < k')%nat -> medoid M' (Z.of_nat j) = medoid M (Z.of_nat j)) /\ total M' = total M - (diffZ x v - gap).
Proof.
  intros T Hi Hv Er Hri Ex. assert (Hc : (c < k')%nat) by (destruct (t_data _ _ _ T i _ Hi); lia).
  destruct (medoid_l _ _ _ c T Hc) as (cl & r0 & row & Ecl & Er0 & Erow & Hg & Hin & Hr & Em).
  rewrite Er in Er0. injection Er0 as <-. rewrite Em in Ex. injection Ex as <-.
  pose proof T as [[G1 G2 G3] T2 T3 T4 T5]. unfold kMedoidRemove.
  assert (Ic : idxZ (mclusters M) (Z.of_nat c) = Ok cl).
  { unfold idxZ, idx. destruct (Z.ltb_spec (Z.of_nat c) 0); [lia|]. rewrite Nat2Z.id, Ecl. auto. }
  assert (Im : idxZ (mmeans M) (Z.of_nat c) = Ok r).
  { unfold idxZ, idx. destruct (Z.ltb_spec (Z.of_nat c) 0); [lia|]. rewrite Nat2Z.id, Er. auto. }
  rewrite Ic, Im. cbn [bind]. destruct (Nat.eqb_spec r i) as [->|_]; [congruence|]. cbn [bind snd]. rewrite !Nat2Z.id.
  rewrite (set_same (mmeans M) c r Er). eexists. split; [reflexivity|].
  assert (Hdel : forall j y, In (j, y) (rdel cl i) <-> In (j, y) cl /\ j <> i).
  { intros j y. unfold rdel. rewrite filter_In. simpl. destruct (Nat.eqb_spec j i) as [->|]; simpl; split; intros [? ?]; split; auto; congruence. }
  assert (Nd : NoDup (map fst (rdel cl i))).
  { pose proof (T2 c cl Ecl) as N. unfold rdel. clear -N. induction cl as [|[a b] cl IH]; simpl in *; auto. apply NoDup_cons_iff in N as (Na & N).
    destruct (Nat.eqb a i); simpl; auto. constructor; auto. intros H. apply Na. apply in_map_iff in H as ([a' b'] & E & H). simpl in E. subst a'.
    apply filter_In in H as (H & _). apply in_map_iff. exists (a, b'). auto. }
  assert (Hgr : rget (rdel cl i) r = row) by (apply rget_in; auto; apply Hdel; auto).
  split; [|split].
  - constructor; cbn [mclusters mmeans].
    + apply goodM_set; [constructor; auto| |auto]. intros e He. apply (G3 cl); [eapply nth_error_In; eauto|]. destruct e. apply Hdel in He. tauto.
    + intros c0 cl0 H0. apply nth_set in H0 as [(-> & ->)|(_ & H0)]; eauto.
    + intros c0 cl0 H0 j y. apply nth_set in H0 as [(-> & ->)|(Hcw & H0)].
      * rewrite Hdel, (T3 c cl Ecl). destruct (Nat.eq_dec j i) as [->|Hji]; [rewrite upd_same; split; [intros [_ ?]; congruence|intros [? _]; discriminate]|].
        rewrite upd_diff by auto. tauto.
      * rewrite (T3 c0 cl0 H0). destruct (Nat.eq_dec j i) as [->|Hji]; [rewrite upd_same, Hi|rewrite upd_diff by auto; tauto].
        split; intros (E & _); [|discriminate]. injection E as E. lia.
    + intros c0 q H0. pose proof (T4 c0 q H0) as Hq. rewrite upd_diff; auto. intros ->.
      assert (c0 = c) by (rewrite Hi in Hq; injection Hq as Hq; lia). subst c0. congruence.
    + intros j y Hj. destruct (Nat.eq_dec j i) as [->|Hji]; [rewrite upd_same in Hj; discriminate|rewrite upd_diff in Hj by auto; eauto].
  - intros j Hj. unfold medoid. cbn [mclusters mmeans]. destruct (Nat.eq_dec j c) as [->|Hjc].
    + rewrite Ic, Im. cbn [bind]. unfold idxZ at 1, idx. destruct (Z.ltb_spec (Z.of_nat c) 0); [lia|].
      rewrite Nat2Z.id, nth_error_set_nth_same by (rewrite G1; auto). cbn [orPanic bind]. congruence.
    + unfold idxZ at 1 3, idx. destruct (Z.ltb_spec (Z.of_nat j) 0); [lia|]. rewrite Nat2Z.id, nth_error_set_nth_diff by auto. auto.
  - unfold total. cbn [mclusters mmeans]. rewrite <- (set_same (mmeans M) c r Er) at 1. rewrite combine_set, map_set.
    rewrite (sumZ_set _ c (pcost (cl, r))); [|apply map_nth_error, combine_nth_error; auto].
    unfold pcost at 2 3. cbn [fst snd]. rewrite Hg, Hgr.
    assert (HP : Permutation cl (rdel cl i ++ [(i, v)])).
    { assert (Hiv : In (i, v) cl) by (apply (T3 c cl Ecl); auto). apply NoDup_Permutation.
      - eapply NoDup_map_inv. apply (T2 c cl Ecl).
      - rewrite <- Permutation_cons_append. constructor; [intros H; apply Hdel in H as (_ & H); congruence|eapply NoDup_map_inv; eauto].
      - intros [j y]. rewrite in_app_iff, Hdel. simpl. split.
        + intros H. destruct (Nat.eq_dec j i) as [->|Hji]; auto. right. left. f_equal. apply (T3 c cl Ecl) in H as (_ & H). congruence.
        + intros [(H & _)|[E|[]]]; auto. injection E as <- <-. auto. }
    assert (C1 : ccost cl row = ccost (rdel cl i) row + (diffZ row v - gap)).
    { unfold ccost. rewrite (sumZ_perm _ _ (Permutation_map _ HP)), map_app, sumZ_app. unfold sumZ at 2. simpl. lia. }
    lia.
Qed.

Lemma total_bound k' M chk : tidy k' M chk -> - (Z.of_nat (length data) * gap) <= total M.
Proof.
  intros [[G1 G2 G3] T2 T3 T4 T5].
  assert (L : (length (concat (mclusters M)) <= length data)%nat).
  { rewrite <- (map_length fst). apply NoDup_bound.
    - rewrite concat_map. 
      assert (G : forall (l l0 : list rowmap), mclusters M = l0 ++ l -> NoDup (concat (map (map fst) l))).
      { induction l as [|cl l IH]; intros l0 E; simpl; [constructor|]. apply TopoLemmas.NoDup_app_intro.
        - apply (T2 (length l0)). rewrite E, nth_error_app2, Nat.sub_diag by lia. auto.
        - apply (IH (l0 ++ [cl])). rewrite <- app_assoc. auto.
        - intros a Ha Hb. apply in_map_iff in Ha as ([a' x] & Ea & Ha). simpl in Ea. subst a'.
          apply (T3 (length l0) cl) in Ha as (Ha & _); [|rewrite E, nth_error_app2, Nat.sub_diag by lia; auto].
          apply in_concat in Hb as (ks & Hks & Hb). apply in_map_iff in Hks as (cl2 & <- & Hcl2). apply in_map_iff in Hb as ([a' y] & Ea & Hb). simpl in Ea. subst a'.
          apply In_nth_error in Hcl2 as (c2 & Hc2). apply (T3 (length l0 + S c2)%nat cl2) in Hb as (Hb & _).
          + rewrite Ha in Hb. injection Hb as Hb. lia.
          + rewrite E, nth_error_app2 by lia. replace (length l0 + S c2 - length l0)%nat with (S c2) by lia. auto. }
      apply (G (mclusters M) []). auto.
    - intros a Ha. apply in_map_iff in Ha as ([a' x] & Ea & Ha). simpl in Ea. subst a'. apply in_concat in Ha as (cl & Hcl & Ha).
      apply In_nth_error in Hcl as (c & Hc). apply (T3 c cl Hc) in Ha as (Ha & _). apply T5 in Ha. tauto. }
  assert (B : forall l l', (forall cl : rowmap, In cl l -> True) -> - (Z.of_nat (length (concat l)) * gap) <= sumZ (map pcost (combine l l'))).
  { induction l as [|cl l IH]; intros l' _; simpl; [lia|]. destruct l' as [|q l']; simpl.
    - unfold gap. lia.
    - specialize (IH l' ltac:(auto)). rewrite app_length, Nat2Z.inj_add. unfold pcost at 1. cbn [fst snd].
      assert (- (Z.of_nat (length cl) * gap) <= ccost cl (rget cl q)).
      { rewrite ccost_diff. assert (0 <= sumZ (map (fun e => diffZ (rget cl q) (snd e)) cl)); [|lia].
        clear. induction cl as [|e cl IH] in q |- *; unfold sumZ; simpl; [lia|].
        generalize (rget (e :: cl) q). intros p. assert (H : forall l : rowmap, 0 <= fold_right Z.add 0 (map (fun e => diffZ p (snd e)) l)).
        { induction l; simpl; unfold diffZ in *; lia. } specialize (H cl). unfold diffZ in *. lia. }
      unfold sumZ in *. simpl. lia. }
  specialize (B (mclusters M) (mmeans M) ltac:(auto)). unfold total. unfold gap in *. nia.
Qed.

(** ** The loop *)
Variable k : nat.
Hypothesis Hk : (0 < k)%nat.
Let dist := fun M j (row : list Z) => x <- medoid M j; hamming x row.

Lemma iterate_l i nc M chk : tidy k M chk -> (i < length data)%nat ->
  exists nc' chk' M', iterate dist (kMedoidInsert ord) (kMedoidRemove ord) k data i nc chk M = Ok (nc', chk', M') /\ tidy k M' chk' /\
    ((nc' = S nc /\ M' = M) \/ (nc' = 0%nat /\ total M' < total M)).
Proof.
  intros T Hi. destruct (idx_ok data i Hi) as (row & Ei & Erow). unfold iterate. rewrite Ei. cbn [bind].
  assert (Lrow : length row = m) by (apply Hd; eapply nth_error_In; eauto).
  assert (Dist : forall c, 0 <= c < Z.of_nat k -> exists x, medoid M c = Ok x /\ length x = m /\ dist M c row = Ok (diffZ x row)).
  { intros c Hc. destruct (medoid_l k M chk (Z.to_nat c) T ltac:(lia)) as (cl & r & x & _ & _ & Ex & _ & _ & _ & Em).
    rewrite Z2Nat.id in Em by lia. assert (Lx : length x = m) by (apply Hd; eapply nth_error_In; eauto).
    exists x. split; auto. split; auto. unfold dist. rewrite Em. cbn [bind]. apply hamming_ok. lia. }
  destruct (nearestTo_total k (fun j => dist M j row) (Z.of_nat (length row)) (chk i) Hk) as (w & Ew & Hw).
  - intros c Hc. destruct (Dist c Hc) as (x & _ & Lx & ->). eexists. split; [reflexivity|]. unfold diffZ. pose proof (differences_le x row). lia.
  - intros v Hv. apply (t_data _ _ _ T i v Hv).
  - rewrite Ew. cbn [bind]. destruct (Dist w Hw) as (xw & Emw & Lxw & Edw).
    destruct (chk i) as [v|] eqn:Ec.
    + destruct (Z.eqb_spec v w) as [->|Hvw]; [exists (S nc), chk, M; auto|].
      destruct (t_data _ _ _ T i v Ec) as (_ & Hv). destruct (Dist v Hv) as (xv & Emv & Lxv & Edv).
      assert (Hlt : diffZ xw row < diffZ xv row).
      { clear -Ew Edw Edv Hvw Hw Hv. unfold nearestTo in Ew. rewrite Edv in Ew. cbn [bind] in Ew. apply bind_ok in Ew as (st & E & Ew). injection Ew as <-.
        assert (G : forall l s0 s1, foldr_ (fun (st : Z * Z) j => if j =? snd st then Ok st else t <- dist M j row; Ok (if t <? fst st then (t, j) else st)) l s0 = Ok s1 ->
          (snd s0 = v /\ fst s0 = diffZ xv row) \/ (fst s0 < diffZ xv row /\ dist M (snd s0) row = Ok (fst s0)) ->
          (snd s1 = v /\ fst s1 = diffZ xv row) \/ (fst s1 < diffZ xv row /\ dist M (snd s1) row = Ok (fst s1))).
        { induction l as [|j l IH]; intros s0 s1 E0 H0; cbn [foldr_] in E0; [injection E0 as <-; auto|].
          apply bind_ok in E0 as (s2 & E2 & E0). apply (IH s2 s1 E0). destruct (j =? snd s0); [injection E2 as <-; auto|].
          apply bind_ok in E2 as (t & Et & E2). injection E2 as <-. destruct (Z.ltb_spec t (fst s0)); auto. right. cbn [fst snd]. split; auto. destruct H0 as [(_ & H0)|(H0 & _)]; lia. }
        apply G in E as [(E & _)|(E & E')]; [congruence| |left; auto]. rewrite Edw in E'. injection E' as E'. lia. }
      assert (Lc : (Z.to_nat v < k)%nat) by lia.
      destruct (medoid_l k M chk (Z.to_nat v) T Lc) as (cl & r & x & Ecl & Er & Ex & _ & _ & Hr & Em).
      rewrite Z2Nat.id in Hr, Em by lia. rewrite Emv in Em. injection Em as <-.
      assert (Hri : r <> i).
      { intros ->. rewrite Erow in Ex. injection Ex as <-. unfold diffZ in Hlt. rewrite differences_self in Hlt. lia. }
      destruct (remove_tidy k M chk i row (Z.to_nat v) r xv T) as (M1 & E1 & T1 & Hm1 & Ht1); auto; try (rewrite Z2Nat.id by lia; auto).
      rewrite Z2Nat.id in E1 by lia. rewrite E1. cbn [bind].
      destruct (insert_tidy k M1 (upd chk i None) i row (Z.to_nat w) T1) as (M2 & E2 & T2 & Ht2); auto; [apply upd_same|lia|].
      rewrite Z2Nat.id in E2, T2, Ht2 by lia. rewrite E2. cbn [bind]. exists 0%nat, (upd chk i (Some w)), M2. split; auto. split.
      * eapply tidy_ext; [|exact T2]. intros j. unfold upd. destruct (Nat.eqb j i); auto.
      * right. split; auto. specialize (Hm1 (Z.to_nat w) ltac:(lia)). rewrite Z2Nat.id in Hm1 by lia. specialize (Ht2 xw ltac:(congruence)). lia.
    + destruct (insert_tidy k M chk i row (Z.to_nat w) T Ec Erow ltac:(lia)) as (M2 & E2 & T2 & Ht2).
      rewrite Z2Nat.id in E2, T2, Ht2 by lia. rewrite E2. cbn [bind]. exists 0%nat, (upd chk i (Some w)), M2. split; auto. split; auto.
      right. split; auto. specialize (Ht2 xw Emw). unfold diffZ in Ht2. pose proof (differences_le xw row). unfold gap in Ht2. lia.
Qed.

Definition room (M : medoids) : nat := Z.to_nat (total M + Z.of_nat (length data) * gap).
Definition steps (nc : nat) (M : medoids) : nat := (length data - nc + room M * S (length data))%nat.

Lemma converge_l : forall fuel i nc chk M, tidy k M chk -> (i < length data)%nat \/ length data = 0%nat -> (steps nc M <= fuel)%nat ->
  exists chk' M', converge dist (kMedoidInsert ord) (kMedoidRemove ord) k data fuel i nc chk M = Ok (chk', M') /\ tidy k M' chk'.
Proof.
  induction fuel as [|fuel IH]; intros i nc chk M T Hi Hs; cbn [converge]; destruct (Nat.ltb_spec nc (length data)) as [L|L]; eauto.
  - unfold steps in Hs. lia.
  - destruct (iterate_l i nc M chk T ltac:(lia)) as (nc' & chk' & M' & -> & T' & H). cbn [bind].
    apply IH; auto; [destruct (Nat.leb_spec (length data) (S i)); lia|].
    unfold steps in *. destruct H as [(-> & ->)|(-> & Ht)]; [lia|].
    assert (room M' < room M)%nat by (unfold room; pose proof (total_bound k M' chk' T'); lia).
    rewrite Nat.sub_0_r. nia.
Qed.
End End_.
