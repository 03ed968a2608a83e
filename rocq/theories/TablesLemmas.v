From Coq Require Import Permutation SpecFloat QArith.
From Verif Require Import Base Res GoMap DataSpec DataLemmas WalkLemmas Tables TablesSpec.
Local Open Scope Z_scope.

Lemma setCell_ok row k v : (k < length row)%nat -> setCell row (Z.of_nat k) v = Ok (set_nth k v row).
Proof.
  intros H. unfold setCell, idxZ. destruct (Z.ltb_spec (Z.of_nat k) 0); [lia|]. rewrite Nat2Z.id. unfold idx.
  destruct (nth_error row k) eqn:E; [reflexivity|]. apply nth_error_None in E. lia.
Qed.

Lemma nth_snoc {T} (l : list T) x j y : nth_error (l ++ [x]) j = Some y <-> nth_error l j = Some y \/ (j = length l /\ x = y).
Proof.
  destruct (Nat.lt_trichotomy j (length l)) as [H|[H|H]].
  - rewrite nth_error_app1 by auto. split; auto. intros [H0|[-> _]]; auto; lia.
  - subst. rewrite nth_error_app2, Nat.sub_diag by auto. simpl. split; [intros E; injection E as ->; auto|].
    intros [E|[_ ->]]; auto. exfalso. assert (nth_error l (length l) = None) by (apply nth_error_None; auto). congruence.
  - rewrite (proj2 (nth_error_None (l ++ [x]) j)) by (rewrite app_length; simpl; lia).
    rewrite (proj2 (nth_error_None l j)) by lia. split; [discriminate|]. intros [E|[E _]]; [discriminate|lia].
Qed.

Section Num.
Variable vars0 : list Z.
Hypothesis Hn0 : NoDup vars0.
Let m := length vars0.

(** Numbering as a list of variables. *)
Definition numbered (nb : numbering) (vs : list Z) : Prop :=
  nnext nb = Z.of_nat (length vs) /\ NoDup vs /\ incl vs vars0 /\
  (forall k t, get (nnew nb) k = Some t <-> exists j, t = Z.of_nat j /\ nth_error vs j = Some k) /\
  (forall t, get (nold nb) t = if t <? 0 then None else nth_error vs (Z.to_nat t)).

(** Entries done so far are in the row. *)
Definition filled (vs : list Z) (row : list Z) (done : gmap) : Prop :=
  forall k v, In (k, v) done -> exists j, nth_error vs j = Some k /\ nth_error row j = Some v.

Lemma entries_ok : forall es nb vs row done, NoDup (keys (done ++ es)) -> (forall k, In k (keys es) -> In k vars0) ->
  numbered nb vs -> length row = m -> filled vs row done ->
  exists nb' row' vs', foldr_ matrixEntry es (nb, row) = Ok (nb', row') /\ numbered nb' (vs ++ vs') /\ length row' = m /\
    filled (vs ++ vs') row' (done ++ es).
Proof.
  induction es as [|[k v] es IH]; intros nb vs row done Hnd Hin Hnb Hlen Hfill.
  - exists nb, row, []. rewrite !app_nil_r. auto.
  - cbn [foldr_]. unfold matrixEntry at 1. cbn [fst snd].
    destruct Hnb as (Hu & Hn & Hincl & Hz & Hs).
    assert (Hk0 : In k vars0) by (apply Hin; left; auto).
    assert (Hkd : ~ In k (keys done)).
    { unfold keys in *. rewrite map_app in Hnd. cbn [map fst] in Hnd. apply NoDup_remove_2 in Hnd. intros H. apply Hnd. apply in_or_app; auto. }
    assert (Hvl : (length vs <= m)%nat) by (apply NoDup_incl_length; auto).
    destruct (get (nnew nb) k) as [t|] eqn:Ez.
    + apply Hz in Ez as (j & -> & Hj).
      assert (Hjm : (j < m)%nat). { assert (j < length vs)%nat by (apply nth_error_Some; congruence). lia. }
      rewrite setCell_ok by lia. cbn [bind].
      destruct (IH nb vs (set_nth j v row) (done ++ [(k, v)])) as (nb' & row' & vs' & E & H1 & H2 & H3).
      * rewrite <- app_assoc. auto.
      * intros x Hx. apply Hin. right; auto.
      * split; auto.
      * rewrite set_nth_length. auto.
      * intros k' v' Hin'. apply in_app_or in Hin' as [Hin'|[E|[]]].
        -- destruct (Hfill k' v' Hin') as (j' & Hj' & Hr'). exists j'. split; auto.
           rewrite nth_error_set_nth_diff; auto. intros ->. assert (k = k') by congruence. subst. apply Hkd.
           apply in_map_iff. exists (k', v'). auto.
        -- injection E as <- <-. exists j. split; auto. apply nth_error_set_nth_same. lia.
      * exists nb', row', vs'. rewrite <- app_assoc in H3. auto.
    + assert (Hkv : ~ In k vs).
      { intros H. apply In_nth_error in H as (j & Hj). assert (get (nnew nb) k = Some (Z.of_nat j)) by (apply Hz; eauto). congruence. }
      assert (Hlt : (length vs < m)%nat).
      { assert (H : (length (k :: vs) <= m)%nat).
        { apply NoDup_incl_length; [constructor; auto|]. intros x [<-|Hx]; auto. } simpl in H. lia. }
      rewrite Hu. rewrite setCell_ok by lia. cbn [bind].
      destruct (IH (mkNum (Z.of_nat (length vs) + 1) (put (nnew nb) k (Z.of_nat (length vs))) (put (nold nb) (Z.of_nat (length vs)) k))
                   (vs ++ [k]) (set_nth (length vs) v row) (done ++ [(k, v)])) as (nb' & row' & vs' & E & H1 & H2 & H3).
      * rewrite <- app_assoc. auto.
      * intros x Hx. apply Hin. right; auto.
      * split; [cbn; rewrite app_length; simpl; lia|]. split.
        { rewrite <- (rev_involutive (vs ++ [k])). apply NoDup_rev. rewrite rev_app_distr. simpl. constructor; [rewrite <- in_rev; auto|apply NoDup_rev; auto]. }
        split; [intros x Hx; apply in_app_or in Hx as [Hx|[<-|[]]]; auto|]. split.
        -- intros k' t. cbn [nnew]. rewrite get_put. destruct (Z.eqb_spec k k') as [<-|Hne].
           ++ split.
              ** intros E'. injection E' as <-. exists (length vs). split; auto. apply nth_snoc. auto.
              ** intros (j & -> & Hj). apply nth_snoc in Hj as [Hj|[-> _]]; auto. exfalso. apply Hkv. eapply nth_error_In; eauto.
           ++ rewrite Hz. split; intros (j & -> & Hj); exists j; split; auto.
              ** apply nth_snoc; auto.
              ** apply nth_snoc in Hj as [Hj|[_ Hj]]; auto. congruence.
        -- intros t. cbn [nold]. rewrite get_put, Hs. destruct (Z.eqb_spec (Z.of_nat (length vs)) t) as [<-|Hne].
           ++ destruct (Z.ltb_spec (Z.of_nat (length vs)) 0); [lia|]. rewrite Nat2Z.id. symmetry. apply nth_snoc. auto.
           ++ destruct (Z.ltb_spec t 0); auto. destruct (Nat.lt_ge_cases (Z.to_nat t) (length vs)).
              ** rewrite nth_error_app1; auto.
              ** rewrite !(proj2 (nth_error_None _ _)); auto. rewrite app_length. simpl. lia.
      * rewrite set_nth_length. auto.
      * intros k' v' Hin'. apply in_app_or in Hin' as [Hin'|[E|[]]].
        -- destruct (Hfill k' v' Hin') as (j' & Hj' & Hr'). exists j'. split; [apply nth_snoc; auto|].
           rewrite nth_error_set_nth_diff; auto. assert (j' < length vs)%nat by (apply nth_error_Some; congruence). lia.
        -- injection E as <- <-. exists (length vs). split; [apply nth_snoc; auto|]. apply nth_error_set_nth_same. lia.
      * exists nb', row', (k :: vs'). rewrite <- !app_assoc in *. cbn [app] in *. auto.
Qed.

Variable ord : nat -> gmap -> gmap.
Hypothesis Hord : visits_all ord.

Lemma rows_ok : forall D i nb vs, same_variables vars0 D -> numbered nb vs ->
  (D <> [] \/ length vs = m) ->
  exists nb' M vs', matrixRows ord m i D nb = Ok (nb', M) /\ numbered nb' (vs ++ vs') /\ length (vs ++ vs') = m /\
    tabulates (vs ++ vs') D M.
Proof.
  induction D as [|I D IH]; intros i nb vs Hv Hnb Hd.
  - destruct Hd as [Hd|Hd]; [congruence|]. exists nb, [], []. rewrite app_nil_r. split; auto. split; auto. split; auto. constructor.
  - cbn [matrixRows]. destruct (Hv I (or_introl eq_refl)) as (HnI & HkI).
    assert (Hperm := Hord i I).
    assert (Hno : NoDup (keys (ord i I))) by (apply ord_nodup; auto).
    assert (Hko : forall k, In k (keys (ord i I)) <-> In k vars0).
    { intros k. rewrite <- HkI. unfold keys. split; apply Permutation_in; [|symmetry]; apply Permutation_map; auto. }
    destruct (entries_ok (ord i I) nb vs (repeat 0 m) []) as (nb1 & row & vs1 & E & H1 & H2 & H3); auto.
    { intros k Hk. apply Hko; auto. } { apply repeat_length. } { intros k v []. }
    rewrite E. cbn [bind fst snd].
    assert (Hfull : length (vs ++ vs1) = m).
    { destruct H1 as (_ & Hn1 & Hi1 & _). apply Nat.le_antisymm; [apply NoDup_incl_length; auto|].
      apply NoDup_incl_length; auto. intros k Hk. apply Hko in Hk. unfold keys in Hk. apply in_map_iff in Hk as ([k' v] & <- & Hin).
      destruct (H3 k' v Hin) as (j & Hj & _). simpl. eapply nth_error_In; eauto. }
    destruct (IH (S i) nb1 (vs ++ vs1)) as (nb2 & M & vs2 & E2 & H4 & H5 & H6); auto.
    { intros J HJ. apply Hv. right; auto. }
    rewrite E2. cbn [bind fst snd]. assert (vs2 = []).
    { rewrite app_length in H5. destruct vs2; auto. simpl in H5. lia. }
    subst vs2. rewrite app_nil_r in *. exists nb2, (row :: M), vs1. split; auto. split; auto. split; auto.
    constructor; auto. split; [congruence|]. intros j k Hj.
    assert (Hk : In k (keys (ord i I))).
    { apply Hko. destruct H1 as (_ & _ & Hi1 & _). apply Hi1. eapply nth_error_In; eauto. }
    unfold keys in Hk. apply in_map_iff in Hk as ([k' v] & Ek & Hin). simpl in Ek. subst k'.
    destruct (H3 k v Hin) as (j' & Hj' & Hr). assert (j' = j).
    { destruct H1 as (_ & Hn1 & _). eapply NoDup_nth_error; eauto; [apply nth_error_Some; congruence|congruence]. }
    subst j'. rewrite Hr. symmetry. apply get_In; auto. eapply Permutation_in; eauto.
Qed.
End Num.

Lemma dataToMatrix_l ord vars0 D : visits_all ord -> NoDup vars0 -> same_variables vars0 D -> D <> [] ->
  exists M S vars, dataToMatrix ord (Some D) = Ok (M, S) /\ Permutation vars vars0 /\ listed_as vars S /\ tabulates vars D M.
Proof.
  intros Ho Hn Hv Hd. unfold dataToMatrix. destruct D as [|I0 D0] eqn:ED; [congruence|]. cbn [idx nth_error bind].
  destruct (Hv I0 (or_introl eq_refl)) as (Hn0 & Hk0).
  assert (HL : length I0 = length vars0).
  { unfold keys in *. rewrite <- (map_length fst I0). apply Nat.le_antisymm; apply NoDup_incl_length; auto; intros k Hk; apply Hk0; auto. }
  destruct (rows_ok vars0 Hn ord Ho (I0 :: D0) 0 (mkNum 0 [] []) []) as (nb & M & vs & E & Hnb & Hl & HT); auto.
  { split; auto. split; [constructor|]. split; [intros k []|]. split.
    - intros k t. simpl. split; [discriminate|]. intros (j & _ & Hj). destruct j; discriminate.
    - intros t. simpl. destruct (t <? 0); auto. destruct (Z.to_nat t); auto. }
  rewrite HL, E. cbn [bind fst snd]. exists M, (nold nb), vs. split; auto.
  destruct Hnb as (_ & H1 & H2 & _ & H3). cbn [app] in *. split; [|split; auto].
  apply NoDup_Permutation; auto. intros x. split; [apply H2|]. apply (NoDup_length_incl H1); [lia|auto].
Qed.

Lemma puts_seq : forall (L : list Z) s acc k,
  get (fold_left (fun m je => put m (Z.of_nat (fst je)) (snd je)) (combine (seq s (length L)) L) acc) k =
  if (Z.of_nat s <=? k) && (k <? Z.of_nat (s + length L)) then nth_error L (Z.to_nat k - s) else get acc k.
Proof.
  induction L as [|x L IH]; intros s acc k; cbn [length seq combine fold_left fst snd].
  - destruct (Z.leb_spec (Z.of_nat s) k), (Z.ltb_spec k (Z.of_nat (s + 0))); simpl; auto; lia.
  - rewrite IH, get_put.
    destruct (Z.leb_spec (Z.of_nat s) k), (Z.ltb_spec k (Z.of_nat (s + S (length L)))),
      (Z.leb_spec (Z.of_nat (S s)) k), (Z.ltb_spec k (Z.of_nat (S s + length L))); cbn [andb]; try lia;
      destruct (Z.eqb_spec (Z.of_nat s) k) as [<-|]; try lia; auto.
    + replace (Z.to_nat k - s)%nat with (S (Z.to_nat k - S s)) by lia. auto.
    + rewrite Nat2Z.id, Nat.sub_diag. auto.
Qed.

Lemma matrixToData_l M : Forall2 (fun L I => forall k, get I k = if k <? 0 then None else nth_error L (Z.to_nat k)) M (matrixToData M).
Proof.
  unfold matrixToData. induction M as [|L M IH]; constructor; auto. intros k. rewrite puts_seq. simpl.
  destruct (Z.ltb_spec k 0), (Z.leb_spec 0 k), (Z.ltb_spec k (Z.of_nat (length L))); simpl; try lia; auto.
  - rewrite Nat.sub_0_r. auto.
  - symmetry. apply nth_error_None. lia.
Qed.

(** There and back: the variable with identifier S[j] is found under j. *)
Lemma matrix_roundtrip_l ord vars0 D : visits_all ord -> NoDup vars0 -> same_variables vars0 D -> D <> [] ->
  exists M S, dataToMatrix ord (Some D) = Ok (M, S) /\
    (forall k, In k vars0 <-> exists j, get S j = Some k) /\ (forall j j' k, get S j = Some k -> get S j' = Some k -> j = j') /\
    Forall2 (fun I J => forall j k, get S j = Some k -> get J j = get I k) D (matrixToData M) /\
    Forall (fun J => forall j, get J j <> None <-> get S j <> None) (matrixToData M).
Proof.
  intros Ho Hn Hv Hd. destruct (dataToMatrix_l ord vars0 D Ho Hn Hv Hd) as (M & S & vars & E & HP & HS & HT).
  exists M, S. split; auto.
  assert (Hnv : NoDup vars) by (eapply Permutation_NoDup; [symmetry|]; eauto).
  assert (HSj : forall j k, get S j = Some k <-> 0 <= j /\ nth_error vars (Z.to_nat j) = Some k).
  { intros j k. rewrite HS. destruct (Z.ltb_spec j 0); split; try discriminate; try tauto; intros []; lia. }
  split; [|split; [|split]].
  - intros k. rewrite <- (Permutation_in' eq_refl HP). split.
    + intros H. apply In_nth_error in H as (j & Hj). exists (Z.of_nat j). apply HSj. rewrite Nat2Z.id. split; [lia|auto].
    + intros (j & Hj). apply HSj in Hj as (_ & Hj). eapply nth_error_In; eauto.
  - intros j j' k H1 H2. apply HSj in H1 as (A1 & A2), H2 as (B1 & B2). assert (Z.to_nat j = Z.to_nat j'); [|lia].
    eapply NoDup_nth_error; eauto; [apply nth_error_Some; congruence|congruence].
  - pose proof (matrixToData_l M) as HM. clear -HT HM HSj. revert HM. generalize (matrixToData M) as Js. induction HT as [|I row D M [Hl Hc] HT IH]; intros Js HM; inversion HM as [|? J ? Js' HJ HM']; subst; constructor; auto.
    intros j k Hj. apply HSj in Hj as (Hj0 & Hj). rewrite HJ. destruct (Z.ltb_spec j 0); [lia|]. rewrite <- (Hc _ _ Hj).
    auto.
  - pose proof (matrixToData_l M) as HM. clear -HT HM HSj HS. revert HM. generalize (matrixToData M) as Js. induction HT as [|I row D M [Hl Hc] HT IH]; intros Js HM; inversion HM as [|? J ? Js' HJ HM']; subst; constructor; auto.
    intros j. rewrite HJ, HS. destruct (j <? 0); [tauto|]. rewrite !nth_error_Some, Hl. tauto.
Qed.

(** Complete datasets. *)
Lemma complete_rows n : forall es row done, NoDup (keys (done ++ es)) -> (forall k, In k (keys es) -> 0 <= k < Z.of_nat n) ->
  length row = n -> (forall k v, In (k, v) done -> nth_error row (Z.to_nat k) = Some v) -> (forall k, In k (keys done) -> 0 <= k) ->
  exists row', foldr_ (fun row e => setCell row (fst e) (snd e)) es row = Ok row' /\ length row' = n /\
    forall k v, In (k, v) (done ++ es) -> nth_error row' (Z.to_nat k) = Some v.
Proof.
  induction es as [|[k v] es IH]; intros row done Hn Hk Hl Hf Hd.
  - exists row. rewrite app_nil_r. auto.
  - cbn [foldr_ fst snd]. pose proof (Hk k (or_introl eq_refl)) as Hk0.
    assert (Ek : setCell row k v = Ok (set_nth (Z.to_nat k) v row)).
    { rewrite <- (setCell_ok row (Z.to_nat k) v) by lia. f_equal. lia. }
    rewrite Ek. cbn [bind].
    destruct (IH (set_nth (Z.to_nat k) v row) (done ++ [(k, v)])) as (row' & E & H1 & H2).
    + rewrite <- app_assoc. auto.
    + intros x Hx. apply Hk. right; auto.
    + rewrite set_nth_length. auto.
    + intros k' v' Hin. apply in_app_or in Hin as [Hin|[E|[]]].
      * assert (k' <> k).
        { intros ->. unfold keys in Hn. rewrite map_app in Hn. cbn [map fst] in Hn. apply NoDup_remove_2 in Hn. apply Hn.
          apply in_or_app. left. apply in_map_iff. exists (k, v'). auto. }
        assert (0 <= k') by (apply Hd; apply in_map_iff; exists (k', v'); auto).
        rewrite nth_error_set_nth_diff by lia. auto.
      * injection E as <- <-. apply nth_error_set_nth_same. lia.
    + intros x Hx. unfold keys in Hx. rewrite map_app in Hx. apply in_app_or in Hx as [Hx|[<-|[]]]; auto. simpl. lia.
    + exists row'. rewrite <- app_assoc in H2. auto.
Qed.

Lemma complete_roundtrip_l ord n D : visits_all ord -> D <> [] -> same_variables (map Z.of_nat (seq 0 n)) D ->
  exists M, completeDataToMatrix ord (Some D) = Ok M /\ Forall2 meq D (matrixToData M).
Proof.
  intros Ho Hd Hv. unfold completeDataToMatrix. destruct D as [|I0 D0] eqn:ED; [congruence|]. cbn [idx nth_error bind].
  assert (HL : length I0 = n).
  { destruct (Hv I0 (or_introl eq_refl)) as (Hn0 & Hk0). unfold keys in *.
    assert (NV : NoDup (map Z.of_nat (seq 0 n))) by (apply FinFun.Injective_map_NoDup; [intros x y; lia|apply seq_NoDup]).
    rewrite <- (map_length fst I0). rewrite <- (seq_length n 0), <- (map_length Z.of_nat (seq 0 n)).
    apply Nat.le_antisymm; apply NoDup_incl_length; auto; intros k Hk; apply Hk0; auto. }
  rewrite HL. rewrite <- ED in *. clear ED Hd I0 D0 HL. unfold mapi. match goal with |- exists M, mapi_from _ ?f _ = _ /\ _ => set (step := f) end. generalize 0%nat as i0.
  induction D as [|I D IH]; intros i.
  - exists []. split; constructor.
  - cbn [mapi_from]. destruct (Hv I (or_introl eq_refl)) as (HnI & HkI).
    assert (Hko : forall k, In k (keys (ord i I)) <-> In k (keys I)).
    { intros k. unfold keys. split; apply Permutation_in; [|symmetry]; apply Permutation_map; apply Ho. }
    assert (Hkr : forall k, In k (keys I) <-> 0 <= k < Z.of_nat n).
    { intros k. rewrite HkI, in_map_iff. split; [intros (x & <- & Hx); apply in_seq in Hx; lia|].
      intros H. exists (Z.to_nat k). rewrite in_seq. lia. }
    destruct (complete_rows n (ord i I) (repeat 0 n) []) as (row & Er & Hl & Hr).
    { apply ord_nodup; auto. } { intros k Hk. apply Hkr, Hko; auto. } { apply repeat_length. } { intros k v []. } { intros k []. }
    change (step i I = Ok row) in Er. rewrite Er.
    cbn [bind]. destruct (IH ltac:(intros J HJ; apply Hv; right; auto) (S i)) as (M & -> & HM). cbn [bind].
    exists (row :: M). split; auto. cbn [app] in Hr. pose proof (matrixToData_l (row :: M)) as HX. unfold matrixToData in *. cbn [map] in *.
    inversion HX as [|? ? ? ? Hrow HX']; subst. constructor; auto. intros k. rewrite Hrow.
    destruct (Z.ltb_spec k 0).
    + apply get_None. rewrite Hkr. lia.
    + destruct (get I k) as [v|] eqn:Eg.
      * symmetry. apply Hr. apply get_In in Eg; auto. eapply Permutation_in; [symmetry; apply Ho|auto].
      * symmetry. apply nth_error_None. apply get_None in Eg. rewrite Hkr in Eg. lia.
Qed.

Lemma matrix_refuted_l : exists ord D M S, visits_all ord /\ same_variables [0; 1] D /\ dataToMatrix ord (Some D) = Ok (M, S) /\
  ~ Forall2 meq D (matrixToData M).
Proof.
  exists (fun _ m => rev m), [[(0, 5); (1, 6)]]. eexists. eexists. split; [intros i m; symmetry; apply Permutation_rev|]. split.
  - intros I [<-|[]]. split; [simpl; repeat constructor; simpl; intuition lia|]. intros k. simpl. tauto.
  - split; [vm_compute; reflexivity|]. intros H. inversion H as [|? ? ? ? H1 _]; subst. specialize (H1 0). vm_compute in H1. discriminate.
Qed.
